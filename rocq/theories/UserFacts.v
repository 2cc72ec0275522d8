(** C56: the generic impls read as specified. *)
From Coq Require Import ZArith List Bool Lia.
From Verif Require Import Base Lexer Driver Grammar LexSpec Tree TreeFacts DriverFacts UserTypes UserSpec.
Import ListNotations.
Open Scope nat_scope.

(** ** Visitors that act on a part of the state *)
Section Morph.
Context {S S' V SH MH V' SH' MH' : Type}.
Variable I : iface S V SH MH.
Variable J : iface S' V' SH' MH'.
Variables (fv : V -> V') (fs : SH -> SH') (fm : MH -> MH') (put : S -> S').

Definition lft {R R'} (j : R -> R') (p : res R * S) : res R' * S' := (rmap j (fst p), put (snd p)).
Notation lf1 := (lft (fun u : unit => u)).

Record morph : Prop := {
  h_null : forall v s, v_null J (fv v) (put s) = lf1 (v_null I v s);
  h_bool : forall v b s, v_bool J (fv v) b (put s) = lf1 (v_bool I v b s);
  h_str : forall v x s, v_str J (fv v) x (put s) = lf1 (v_str I v x s);
  h_neg : forall v n s, v_neg J (fv v) n (put s) = lf1 (v_neg I v n s);
  h_nonneg : forall v n s, v_nonneg J (fv v) n (put s) = lf1 (v_nonneg I v n s);
  h_float : forall v f s, v_float J (fv v) f (put s) = lf1 (v_float I v f s);
  h_seq : forall v s, v_seq J (fv v) (put s) = lft fs (v_seq I v s);
  h_map : forall v s, v_map J (fv v) (put s) = lft fm (v_map I v s);
  h_element : forall q s, s_element J (fs q) (put s) = lft fv (s_element I q s);
  h_sfinish : forall q s, s_finish J (fs q) (put s) = lf1 (s_finish I q s);
  h_sdrop : forall q s, s_drop J (fs q) (put s) = lf1 (s_drop I q s);
  h_key : forall m k s, m_key J (fm m) k (put s) = lft fv (m_key I m k s);
  h_mfinish : forall m s, m_finish J (fm m) (put s) = lf1 (m_finish I m s);
  h_mdrop : forall m s, m_drop J (fm m) (put s) = lf1 (m_drop I m s)
}.

Hypothesis H : morph.

Definition flayer (l : layer SH MH) : layer SH' MH' := match l with LSeq q => LSeq (fs q) | LMap m => LMap (fm m) end.

Lemma drop_morph l s : drop_layer J (flayer l) (put s) = lf1 (drop_layer I l s).
Proof. destruct l; [apply (h_sdrop H)|apply (h_mdrop H)]. Qed.
Lemma drop_err_morph l s : drop_err J (flayer l) (put s) = lf1 (drop_err I l s).
Proof. unfold drop_err. rewrite drop_morph. destruct (drop_layer I l s) as [[[]| |f] s1]; reflexivity. Qed.
Lemma on_fault_morph f l s : on_fault J f [flayer l] (put s) = lf1 (on_fault I f [l] s).
Proof. destruct f; try reflexivity. cbn [on_fault unwind]. rewrite drop_morph. destruct (drop_layer I l s) as [[[]| |[]] s1]; reflexivity. Qed.
Lemma finish_morph l c s : finish_layer J (flayer l) c (put s) = lf1 (finish_layer I l c s).
Proof.
  unfold finish_layer. destruct c; [|apply drop_err_morph].
  assert (E : match flayer l with LSeq q => s_finish J q (put s) | LMap m => m_finish J m (put s) end =
              lf1 (match l with LSeq q => s_finish I q s | LMap m => m_finish I m s end)).
  { destruct l; [apply (h_sfinish H)|apply (h_mfinish H)]. }
  rewrite E. destruct (match l with LSeq q => s_finish I q s | LMap m => m_finish I m s end) as [[[]| |f] s1]; cbn [lft fst snd rmap].
  - rewrite drop_morph. destruct (drop_layer I l s1) as [[[]| |f] s2]; reflexivity.
  - apply drop_err_morph.
  - apply on_fault_morph.
Qed.

Lemma items_morph items c :
  Forall (fun t => forall v s, feed J t (fv v) (put s) = lf1 (feed I t v s)) items ->
  forall q s, feed_items J (feed J) (fs q) items c (put s) = lf1 (feed_items I (feed I) q items c s).
Proof.
  induction 1 as [|t items Ht _ IH]; intros q s; cbn [feed_items]; [apply (finish_morph (LSeq q))|].
  rewrite (h_element H). destruct (s_element I q s) as [[v| |f] s1]; cbn [lft fst snd rmap].
  - rewrite Ht. destruct (feed I t v s1) as [[[]| |f] s2]; cbn [lft fst snd rmap]; [apply IH|apply (drop_err_morph (LSeq q))|apply (on_fault_morph f (LSeq q))].
  - apply (drop_err_morph (LSeq q)).
  - apply (on_fault_morph f (LSeq q)).
Qed.
Lemma members_morph ms c :
  Forall (fun kt => forall v s, feed J (snd kt) (fv v) (put s) = lf1 (feed I (snd kt) v s)) ms ->
  forall m s, feed_members J (feed J) (fm m) ms c (put s) = lf1 (feed_members I (feed I) m ms c s).
Proof.
  induction 1 as [|[k t] ms Ht _ IH]; intros m s; cbn [feed_members]; [apply (finish_morph (LMap m))|]. cbn [snd] in Ht.
  rewrite (h_key H). destruct (m_key I m k s) as [[v| |f] s1]; cbn [lft fst snd rmap].
  - rewrite Ht. destruct (feed I t v s1) as [[[]| |f] s2]; cbn [lft fst snd rmap]; [apply IH|apply (drop_err_morph (LMap m))|apply (on_fault_morph f (LMap m))].
  - apply (drop_err_morph (LMap m)).
  - apply (on_fault_morph f (LMap m)).
Qed.

Lemma feed_morph t : forall v s, feed J t (fv v) (put s) = lf1 (feed I t v s).
Proof.
  induction t as [|ev|items c IH|ms c IH] using ptree_ind'; intros v s; cbn [feed].
  - reflexivity.
  - destruct ev; first [apply (h_null H)|apply (h_bool H)|apply (h_neg H)|apply (h_nonneg H)|apply (h_float H)|apply (h_str H)|reflexivity].
  - rewrite (h_seq H). destruct (v_seq I v s) as [[q| |f] s1]; cbn [lft fst snd rmap]; try reflexivity. apply items_morph, IH.
  - rewrite (h_map H). destruct (v_map I v s) as [[m| |f] s1]; cbn [lft fst snd rmap]; try reflexivity. apply members_morph, IH.
Qed.
Lemma feed_items_morph items c q s : feed_items J (feed J) (fs q) items c (put s) = lf1 (feed_items I (feed I) q items c s).
Proof. apply items_morph. apply Forall_forall. intros t _. apply feed_morph. Qed.
Lemma feed_members_morph ms c m s : feed_members J (feed J) (fm m) ms c (put s) = lf1 (feed_members I (feed I) m ms c s).
Proof. apply members_morph. apply Forall_forall. intros t _. apply feed_morph. Qed.
End Morph.

(** ** Nested visitors are such *)
Section Nested.
Context {S OV OS OM S0 V SH MH : Type}.
Variable I : iface S0 V SH MH.
Variable get : S -> option S0.
Variable set : S0 -> S -> S.
Variable O : outer S OV OS OM V SH MH.
Variable put : S0 -> S.
Hypothesis GP : forall s, get (put s) = Some s.
Hypothesis SP : forall s s', set s' (put s) = put s'.

Lemma inside_put {R R'} (j : R -> R') (f : S0 -> res R * S0) s : inside get set j f (put s) = (rmap j (fst (f s)), put (snd (f s))).
Proof. unfold inside. rewrite GP. cbn. rewrite SP. reflexivity. Qed.

Lemma nest_morph : morph I (nest I get set O) Inn Inn Inn put.
Proof. constructor; intros; cbn [nest v_null v_bool v_str v_neg v_nonneg v_float v_seq v_map s_element s_finish s_drop m_key m_finish m_drop]; rewrite inside_put; reflexivity. Qed.
End Nested.

Section Sums.
Context {G S1 V1 SH1 MH1 S2 V2 SH2 MH2 : Type}.
Variable I1 : iface (G * S1) V1 SH1 MH1.
Variable I2 : iface (G * S2) V2 SH2 MH2.
Lemma sum_left s2 : morph I1 (sum_iface I1 I2) inl inl inl (fun s => (fst s, (snd s, s2))).
Proof. constructor; intros; destruct s; reflexivity. Qed.
Lemma sum_right s1 : morph I2 (sum_iface I1 I2) inr inr inr (fun s => (fst s, (s1, snd s))).
Proof. constructor; intros; destruct s; reflexivity. Qed.
End Sums.

Definition bput {G C X Sl} (out : option C) (x : X) (s : G * Sl) : G * (option C * option (X * Sl)) := (fst s, (out, Some (x, snd s))).
Lemma bget_bput {G C X Sl} (out : option C) (x : X) (s : G * Sl) : bget (bput out x s) = Some s.
Proof. destruct s. reflexivity. Qed.
Lemma bset_bput {G C X Sl} (out : option C) (x : X) (s s' : G * Sl) : bset s' (bput out x s) = bput out x s'.
Proof. reflexivity. Qed.

Lemma feed_own_scalar {S V SH MH} (I : iface S V SH MH) v ev st : feed I (PLeaf ev) v st = scalar I v ev st.
Proof. destruct ev; reflexivity. Qed.
