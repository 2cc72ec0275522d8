(** C56: each container reads as specified in UserSpec.v. *)
From Coq Require Import ZArith List Bool Lia.
From Verif Require Import Base Lexer Driver Grammar LexSpec Tree TreeFacts DriverFacts UserTypes UserSpec UserFacts.
Import ListNotations.
Open Scope nat_scope.

Lemma feed_nest {S OV OS OM S0 V SH MH} (I : iface S0 V SH MH) get set (O : outer S OV OS OM V SH MH) put
  (GP : forall s, get (put s) = Some s) (SP : forall s s', set s' (put s) = put s') t v s :
  feed (nest I get set O) t (Inn v) (put s) = lft put (fun u => u) (feed I t v s).
Proof. apply (feed_morph _ _ _ _ _ _ (nest_morph I get set O put GP SP)). Qed.

Lemma feed_slot {G C X Sl OV OS OM V SH MH} (I : iface (G * Sl) V SH MH) (O : outer (G * (option C * option (X * Sl))) OV OS OM V SH MH) out x t v s :
  feed (nest I bget bset O) t (Inn v) (bput out x s) = lft (bput out x) (fun u => u) (feed I t v s).
Proof. apply (feed_nest _ _ _ _ (bput out x) (bget_bput out x) (bset_bput out x)). Qed.

Lemma reads_begin {G A} (T : utype G A) t g o v g1 e u : u_begin T g o = (Ok v, (g1, (e, u))) -> reads T t g o = seen (feed (u_ops T) t v (g1, (e, u))).
Proof. intros E. unfold reads. rewrite E. reflexivity. Qed.

Ltac rw_feed K :=
  match type of K with _ = ?r =>
    match goal with |- context [@feed ?s0 ?v0 ?q0 ?m0 ?a ?b ?c ?d] =>
      let X := fresh "X" in let HX := fresh "HX" in
      set (X := @feed s0 v0 q0 m0 a b c d); assert (HX : X = r) by exact K; clearbody X; rewrite HX; clear X HX
    end
  end.

(** reads T t g None, when begin is known. *)
Ltac use_begin T t g EB :=
  let ER := fresh "ER" in
  pose proof (eq_refl (reads T t g None)) as ER; unfold reads at 2 in ER; rewrite EB in ER; rewrite !ER; clear ER.

Section Vec.
Context {G A : Type}.
Variable T : utype G A.
Notation J := (u_ops (uvec T)).

Lemma vec_fault f g out b : seen (on_fault J f [LSeq (Own tt)] (g, (out, b)) : res unit * _) = (Fault f, (g, out)).
Proof. destruct f; reflexivity. Qed.
Lemma vec_err g out b : seen (drop_err J (LSeq (Own tt)) (g, (out, b))) = (Err, (g, out)).
Proof. reflexivity. Qed.

Lemma vec_items items c : forall g out vec e u,
  seen (feed_items J (feed J) (Own tt) items c (g, (out, Some (vec, (e, u))))) =
  let r := read_all (reads T) items g (vec ++ olist e) in store out c (rmap Some (fst r), snd r).
Proof.
  induction items as [|t items IH]; intros g out vec e u.
  - destruct c; reflexivity.
  - cbn [feed_items]. cbn [read_all]. destruct (u_begin T g None) as [r [g1 [e1 u1]]] eqn:EB. use_begin T t g EB.
    replace (s_element J (Own tt) (g, (out, Some (vec, (e, u))))) with ((rmap Inn r, (g1, (out, Some (vec ++ olist e, (e1, u1))))) : res (hdl unit (uV T)) * vec_st T)
      by (cbn [uvec u_ops nest s_element vec_outer o_element]; rewrite EB; reflexivity).
    destruct r as [v| |f]; cbn [rmap].
    + pose proof (feed_slot (u_ops T) (vec_outer T) out (vec ++ olist e) t v (g1, (e1, u1))) as K.
      destruct (feed (u_ops T) t v (g1, (e1, u1))) as [r [g2 [e2 u2]]]. rw_feed K. destruct r as [[]| |f]; cbn [lft fst snd rmap bput seen].
      * exact (IH g2 out (vec ++ olist e) e2 u2).
      * reflexivity.
      * exact (vec_fault f g2 out (Some (vec ++ olist e, (e2, u2)))).
    + reflexivity.
    + exact (vec_fault f g1 out (Some (vec ++ olist e, (e1, u1)))).
Qed.

Theorem reads_vec t g o : reads (uvec T) t g o = read_vec (reads T) t g o.
Proof.
  destruct t as [|ev|items c|ms c]; try reflexivity.
  - destruct ev; reflexivity.
  - unfold reads at 1. cbn [uvec u_begin]. cbn [feed]. cbn [u_ops uvec nest v_seq vec_outer o_seq].
    apply (vec_items items c g o [] None).
Qed.
End Vec.

Section Arr.
Context {G A : Type}.
Variable T : utype G A.
Variable N : nat.
Notation J := (u_ops (uarr T N)).

Lemma arr_fault f g out b : seen (on_fault J f [LSeq (Own tt)] (g, (out, b)) : res unit * _) = (Fault f, (g, out)).
Proof. destruct f; reflexivity. Qed.
Lemma arr_err g out b : seen (drop_err J (LSeq (Own tt)) (g, (out, b))) = (Err, (g, out)).
Proof. reflexivity. Qed.

Lemma arr_shift_spec (arr : list A) (e : option A) : List.length arr <= N ->
  arr_shift N arr e = if N <? List.length (arr ++ olist e) then None else Some (arr ++ olist e).
Proof.
  intros H. unfold arr_shift. destruct e as [a|]; cbn [olist].
  - rewrite app_length. cbn [List.length]. destruct (Nat.ltb_spec (List.length arr) N), (Nat.ltb_spec N (List.length arr + 1)); reflexivity || lia.
  - rewrite app_nil_r. destruct (Nat.ltb_spec N (List.length arr)); [lia|reflexivity].
Qed.

Lemma upto_long items : forall (D : reader G A) g acc, N < List.length acc ->
  forall l g', read_upto D N items g acc = (Ok l, g') -> N < List.length l.
Proof.
  induction items as [|t items IH]; intros D g acc H l g'; cbn [read_upto]; [intros [= <- <-]; exact H|].
  destruct (Nat.ltb_spec N (List.length acc)); [discriminate|lia].
Qed.

Lemma arr_items items c : forall g out arr e u, List.length arr <= N ->
  seen (feed_items J (feed J) (Own tt) items c (g, (out, Some (arr, (e, u))))) =
  let r := read_upto (reads T) N items g (arr ++ olist e) in
  store out c (rmap (fun l => if List.length l =? N then Some l else None) (fst r), snd r).
Proof.
  induction items as [|t items IH]; intros g out arr e u HL.
  - cbn [feed_items read_upto fst snd rmap]. unfold finish_layer. destruct c.
    + cbn [uarr u_ops nest s_finish arr_outer o_sfinish]. rewrite (arr_shift_spec arr e HL).
      destruct (Nat.ltb_spec N (List.length (arr ++ olist e))) as [H1|H1].
      * destruct (Nat.eqb_spec (List.length (arr ++ olist e)) N); [lia|]. reflexivity.
      * destruct (Nat.ltb_spec (List.length (arr ++ olist e)) N) as [H2|H2]; destruct (Nat.eqb_spec (List.length (arr ++ olist e)) N); try lia; reflexivity.
    + destruct (List.length (arr ++ olist e) =? N); reflexivity.
  - cbn [feed_items read_upto]. cbn [uarr u_ops nest s_element arr_outer o_element]. rewrite (arr_shift_spec arr e HL).
    destruct (Nat.ltb_spec N (List.length (arr ++ olist e))) as [H1|H1]; [reflexivity|].
    destruct (u_begin T g None) as [r [g1 [e1 u1]]] eqn:EB. use_begin T t g EB. cbn [pass fst snd].
    destruct r as [v| |f]; cbn [rmap].
    + pose proof (feed_slot (u_ops T) (arr_outer T N) out (arr ++ olist e) t v (g1, (e1, u1))) as K.
      destruct (feed (u_ops T) t v (g1, (e1, u1))) as [r [g2 [e2 u2]]]. rw_feed K. destruct r as [[]| |f]; cbn [lft fst snd rmap bput seen].
      * exact (IH g2 out (arr ++ olist e) e2 u2 H1).
      * reflexivity.
      * exact (arr_fault f g2 out (Some (arr ++ olist e, (e2, u2)))).
    + reflexivity.
    + exact (arr_fault f g1 out (Some (arr ++ olist e, (e1, u1)))).
Qed.

Theorem reads_arr t g o : reads (uarr T N) t g o = read_arr (reads T) N t g o.
Proof.
  destruct t as [|ev|items c|ms c]; try reflexivity.
  - destruct ev; reflexivity.
  - unfold reads at 1. cbn [uarr u_begin]. cbn [feed]. cbn [u_ops uarr nest v_seq arr_outer o_seq].
    apply (arr_items items c g o [] None). cbn. lia.
Qed.
End Arr.

Section Opt.
Context {G A : Type}.
Variable T : utype G A.
Notation J := (u_ops (uopt T)).
Notation oput := (fun s : G * (option A * uU T) => (fst s, (Some (fst (snd s)), snd (snd s)))).

Lemma opt_morph : morph (u_ops T) J Inn Inn Inn oput.
Proof. apply nest_morph; intros [g [e u]]; reflexivity. Qed.

Theorem reads_opt t g o : reads (uopt T) t g o = read_opt (reads T) t g o.
Proof.
  unfold read_opt. destruct t as [|ev|items c|ms c]; cbn [broken].
  - reflexivity.
  - assert (L : forall ev', ev' <> ENull -> ev' <> ESeqStart -> ev' <> EMapStart ->
        seen (o_scalar (opt_outer T) tt ev' (g, (o, u_idle T))) = let '(r, (g', o')) := reads T (PLeaf ev') g None in (r, (g', Some o'))).
    { intros ev' H1 H2 H3. transitivity (seen (opt_forward T (fun u => u) (fun v => scalar (u_ops T) v ev') (g, (o, u_idle T)))).
      { destruct ev'; reflexivity || congruence. }
      unfold opt_forward, reads. destruct (u_begin T g None) as [[v| |f] [g1 [e1 u1]]]; try reflexivity.
      rewrite feed_own_scalar. destruct (scalar (u_ops T) v ev' (g1, (e1, u1))) as [[[]| |f] [g2 [e2 u2]]]; reflexivity. }
    destruct ev; try reflexivity; (rewrite <- L by discriminate); reflexivity.
  - unfold reads. cbn [uopt u_begin feed]. cbn [u_ops uopt nest v_seq opt_outer o_seq opt_forward].
    destruct (u_begin T g None) as [[v| |f] [g1 [e1 u1]]]; try reflexivity.
    destruct (v_seq (u_ops T) v (g1, (e1, u1))) as [[q| |f] st] eqn:ES; destruct st as [g2 [e2 u2]]; try reflexivity. cbn [pass rmap fst snd].
    pose proof (feed_items_morph _ _ _ _ _ _ opt_morph items c q (g2, (e2, u2))) as K. cbn [fst snd] in K.
    refine (eq_trans (f_equal seen K) _). destruct (feed_items (u_ops T) (feed (u_ops T)) q items c (g2, (e2, u2))) as [[[]| |f] [g3 [e3 u3]]]; reflexivity.
  - unfold reads. cbn [uopt u_begin feed]. cbn [u_ops uopt nest v_map opt_outer o_map opt_forward].
    destruct (u_begin T g None) as [[v| |f] [g1 [e1 u1]]]; try reflexivity.
    destruct (v_map (u_ops T) v (g1, (e1, u1))) as [[q| |f] st] eqn:ES; destruct st as [g2 [e2 u2]]; try reflexivity. cbn [pass rmap fst snd].
    pose proof (feed_members_morph _ _ _ _ _ _ opt_morph ms c q (g2, (e2, u2))) as K. cbn [fst snd] in K.
    refine (eq_trans (f_equal seen K) _). destruct (feed_members (u_ops T) (feed (u_ops T)) q ms c (g2, (e2, u2))) as [[[]| |f] [g3 [e3 u3]]]; reflexivity.
Qed.
End Opt.

Section Box.
Context {G A : Type}.
Variable T : utype G A.
Notation J := (u_ops (ubox T)).
Notation I := (u_ops T).

Definition boxed (out : option A) (r : res unit * (G * (option A * uU T))) : res unit * (G * option A) :=
  match r with
  | (Ok _, (g, (Some a, _))) => (Ok tt, (g, Some a))
  | (Ok _, (g, (None, _))) => (Fault FPanic, (g, out))
  | (Err, (g, _)) => (Err, (g, out))
  | (Fault f, (g, _)) => (Fault f, (g, out))
  end.

Lemma boxed_reads t g o : broken t = false ->
  match u_begin T g None with
  | (Ok v, st) => boxed o (feed I t v st)
  | (Err, st) => (Err, (fst st, o))
  | (Fault f, st) => (Fault f, (fst st, o))
  end = read_box (reads T) t g o.
Proof.
  intros B. unfold read_box, reads. rewrite B. destruct (u_begin T g None) as [[v| |f] [g1 [e1 u1]]]; try reflexivity.
  destruct (feed I t v (g1, (e1, u1))) as [[[]| |f] [g2 [[a|] u2]]]; reflexivity.
Qed.

Definition bl (l : layer (uS T) (uM T)) : layer (uS (ubox T)) (uM (ubox T)) :=
  match l with LSeq q => LSeq (Own (Bld _ q)) | LMap m => LMap (Own (Bld _ m)) end.

Lemma box_err l out s : seen (drop_err J (bl l) (bput out true s)) = boxed out (drop_err I l s).
Proof.
  destruct s as [g sl]. unfold drop_err. destruct l as [q|m]; cbn [bl drop_layer ubox u_ops nest s_drop m_drop box_outer o_sdrop o_mdrop box_drop bput fst snd].
  - destruct (s_drop I q (g, sl)) as [[[]| |f] [g1 [e1 u1]]]; reflexivity.
  - destruct (m_drop I m (g, sl)) as [[[]| |f] [g1 [e1 u1]]]; reflexivity.
Qed.
Lemma box_fault f l out s : seen (on_fault J f [bl l] (bput out true s) : res unit * _) = boxed out (on_fault I f [l] s).
Proof.
  destruct s as [g [e u]]. destruct f; try reflexivity. cbn [on_fault unwind].
  destruct l as [q|m]; cbn [bl drop_layer ubox u_ops nest s_drop m_drop box_outer o_sdrop o_mdrop box_drop bput fst snd].
  - destruct (s_drop I q (g, (e, u))) as [[[]| |[]] [g1 [e1 u1]]]; reflexivity.
  - destruct (m_drop I m (g, (e, u))) as [[[]| |[]] [g1 [e1 u1]]]; reflexivity.
Qed.
Lemma box_gone f l g out sl : seen (on_fault J f [bl l] (g, (out, Some (false, sl))) : res unit * _) = (Fault f, (g, out)).
Proof. destruct l, f; reflexivity. Qed.
Lemma box_end l c out s : seen (finish_layer J (bl l) c (bput out true s)) = boxed out (finish_layer I l c s).
Proof.
  unfold finish_layer. destruct c; [|apply box_err].
  destruct s as [g sl]. destruct l as [q|m]; cbn [bl ubox u_ops nest s_finish m_finish box_outer o_sfinish o_mfinish box_finish bput fst snd].
  - destruct (s_finish I q (g, sl)) as [[[]| |f] s1] eqn:EF.
    + cbn [drop_layer]. destruct (s_drop I q s1) as [[[]| |f] [g2 [[a|] u2]]]; cbn [fst snd]; try reflexivity; exact (box_gone _ (LSeq q) _ _ _).
    + exact (box_err (LSeq q) out s1).
    + exact (box_fault f (LSeq q) out s1).
  - destruct (m_finish I m (g, sl)) as [[[]| |f] s1] eqn:EF.
    + cbn [drop_layer]. destruct (m_drop I m s1) as [[[]| |f] [g2 [[a|] u2]]]; cbn [fst snd]; try reflexivity; exact (box_gone _ (LMap m) _ _ _).
    + exact (box_err (LMap m) out s1).
    + exact (box_fault f (LMap m) out s1).
Qed.

Lemma box_items items c q out : forall s,
  seen (feed_items J (feed J) (Own (Bld _ q)) items c (bput out true s)) = boxed out (feed_items I (feed I) q items c s).
Proof.
  induction items as [|t items IH]; intros s; cbn [feed_items]; [exact (box_end (LSeq q) c out s)|].
  cbn [ubox u_ops nest s_element box_outer o_element]. destruct s as [g sl]. unfold box_item, bput at 1. cbn [fst snd].
  destruct (s_element I q (g, sl)) as [[v| |f] s1]; cbn [pass rmap fst snd].
  - pose proof (feed_slot I (box_outer T) out true t v s1) as K. destruct (feed I t v s1) as [[[]| |f] s2]; rw_feed K; cbn [lft rmap fst snd].
    + exact (IH s2).
    + exact (box_err (LSeq q) out s2).
    + exact (box_fault f (LSeq q) out s2).
  - exact (box_err (LSeq q) out s1).
  - exact (box_fault f (LSeq q) out s1).
Qed.
Lemma box_members ms c m out : forall s,
  seen (feed_members J (feed J) (Own (Bld _ m)) ms c (bput out true s)) = boxed out (feed_members I (feed I) m ms c s).
Proof.
  induction ms as [|[k t] ms IH]; intros s; cbn [feed_members]; [exact (box_end (LMap m) c out s)|].
  cbn [ubox u_ops nest m_key box_outer o_key]. destruct s as [g sl]. unfold box_item, bput at 1. cbn [fst snd].
  destruct (m_key I m k (g, sl)) as [[v| |f] s1]; cbn [pass rmap fst snd].
  - pose proof (feed_slot I (box_outer T) out true t v s1) as K. destruct (feed I t v s1) as [[[]| |f] s2]; rw_feed K; cbn [lft rmap fst snd].
    + exact (IH s2).
    + exact (box_err (LMap m) out s2).
    + exact (box_fault f (LMap m) out s2).
  - exact (box_err (LMap m) out s1).
  - exact (box_fault f (LMap m) out s1).
Qed.

Theorem reads_box t g o : reads (ubox T) t g o = read_box (reads T) t g o.
Proof.
  destruct (broken t) eqn:B.
  - unfold read_box. rewrite B. destruct t as [|ev| |]; try discriminate; [reflexivity|]. destruct ev; try discriminate; reflexivity.
  - rewrite <- boxed_reads by exact B. unfold reads. cbn [ubox u_begin].
    destruct t as [|ev|items c|ms c]; try discriminate.
    + transitivity (seen (o_scalar (box_outer T) Place ev (g, (o, None)))).
      { destruct ev; try discriminate; reflexivity. }
      cbn [box_outer o_scalar box_begin]. unfold box_begin. destruct (u_begin T g None) as [[v| |f] [g1 [e1 u1]]]; try reflexivity.
      rewrite feed_own_scalar. destruct (scalar I v ev (g1, (e1, u1))) as [[[]| |f] [g2 [[a|] u2]]]; reflexivity.
    + cbn [feed]. cbn [u_ops ubox nest v_seq box_outer o_seq box_open]. unfold box_begin.
      destruct (u_begin T g None) as [[v| |f] s1]; try reflexivity. destruct (v_seq I v s1) as [[q| |f] s2]; try (destruct s2 as [g2 [[a|] u2]]; reflexivity).
      exact (box_items items c q o s2).
    + cbn [feed]. cbn [u_ops ubox nest v_map box_outer o_map box_open]. unfold box_begin.
      destruct (u_begin T g None) as [[v| |f] s1]; try reflexivity. destruct (v_map I v s1) as [[q| |f] s2]; try (destruct s2 as [g2 [[a|] u2]]; reflexivity).
      exact (box_members ms c q o s2).
Qed.
End Box.

Lemma rmap_id (r : res unit) : rmap (fun u => u) r = r.
Proof. destruct r; reflexivity. Qed.

Section Pair.
Context {G A B : Type}.
Variable TA : utype G A.
Variable TB : utype G B.
Notation J := (u_ops (upair TA TB)).

Lemma feed_fst out t v g sa sb :
  feed (nest (sum_iface (u_ops TA) (u_ops TB)) bget bset (pair_outer TA TB)) t (Inn (inl v)) (bput out tt (g, (sa, sb))) =
  (let r := feed (u_ops TA) t v (g, sa) in (fst r, bput out tt (fst (snd r), (snd (snd r), sb)))).
Proof.
  rewrite feed_slot. pose proof (feed_morph _ _ _ _ _ _ (sum_left (u_ops TA) (u_ops TB) sb) t v (g, sa)) as K. cbn [fst snd] in K.
  rewrite K. unfold lft. cbn [fst snd]. rewrite !rmap_id. reflexivity.
Qed.
Lemma feed_snd out t v g sa sb :
  feed (nest (sum_iface (u_ops TA) (u_ops TB)) bget bset (pair_outer TA TB)) t (Inn (inr v)) (bput out tt (g, (sa, sb))) =
  (let r := feed (u_ops TB) t v (g, sb) in (fst r, bput out tt (fst (snd r), (sa, snd (snd r))))).
Proof.
  rewrite feed_slot. pose proof (feed_morph _ _ _ _ _ _ (sum_right (u_ops TA) (u_ops TB) sa) t v (g, sb)) as K. cbn [fst snd] in K.
  rewrite K. unfold lft. cbn [fst snd]. rewrite !rmap_id. reflexivity.
Qed.

Lemma pair_fault f g out b : seen (on_fault J f [LSeq (Own tt)] (g, (out, b)) : res unit * _) = (Fault f, (g, out)).
Proof. destruct f; reflexivity. Qed.

Lemma pair_items items c : forall g out oa ua ob ub,
  seen (feed_items J (feed J) (Own tt) items c (g, (out, Some (tt, ((oa, ua), (ob, ub)))))) =
  let r := read_two (reads TA) (reads TB) items g oa ob in
  store out c (rmap (fun p => match p with (Some a, Some b) => Some (a, b) | _ => None end) (fst r), snd r).
Proof.
  induction items as [|t items IH]; intros g out oa ua ob ub.
  - destruct c, oa, ob; reflexivity.
  - cbn [feed_items read_two]. cbn [upair u_ops nest s_element pair_outer o_element]. destruct oa as [a|].
    + destruct ob as [b|]; [reflexivity|].
      destruct (u_begin TB g None) as [r [g1 [e1 u1]]] eqn:EB. use_begin TB t g EB. cbn [pass fst snd].
      destruct r as [v| |f]; cbn [rmap].
      * pose proof (feed_snd out t v g1 (Some a, ua) (e1, u1)) as K.
        destruct (feed (u_ops TB) t v (g1, (e1, u1))) as [r [g2 [e2 u2]]]. rw_feed K. destruct r as [[]| |f]; cbn [lft fst snd rmap bput seen].
        -- exact (IH g2 out (Some a) ua e2 u2).
        -- reflexivity.
        -- exact (pair_fault f g2 out (Some (tt, ((Some a, ua), (e2, u2))))).
      * reflexivity.
      * exact (pair_fault f g1 out (Some (tt, ((Some a, ua), (e1, u1))))).
    + destruct (u_begin TA g None) as [r [g1 [e1 u1]]] eqn:EB. use_begin TA t g EB. cbn [pass fst snd].
      destruct r as [v| |f]; cbn [rmap].
      * pose proof (feed_fst out t v g1 (e1, u1) (ob, ub)) as K.
        destruct (feed (u_ops TA) t v (g1, (e1, u1))) as [r [g2 [e2 u2]]]. rw_feed K. destruct r as [[]| |f]; cbn [lft fst snd rmap bput seen].
        -- exact (IH g2 out e2 u2 ob ub).
        -- reflexivity.
        -- exact (pair_fault f g2 out (Some (tt, ((e2, u2), (ob, ub))))).
      * reflexivity.
      * exact (pair_fault f g1 out (Some (tt, ((e1, u1), (ob, ub))))).
Qed.

Theorem reads_pair t g o : reads (upair TA TB) t g o = read_pair (reads TA) (reads TB) t g o.
Proof.
  destruct t as [|ev|items c|ms c]; try reflexivity.
  - destruct ev; reflexivity.
  - unfold reads at 1. cbn [upair u_begin]. cbn [feed]. cbn [u_ops upair nest v_seq pair_outer o_seq].
    apply (pair_items items c g o None (u_idle TA) None (u_idle TB)).
Qed.
End Pair.

Section Map.
Context {G K M A : Type}.
Variable parse : bytes -> G -> res K * G.
Variable empty : M.
Variable insert : K -> A -> M -> M.
Variable T : utype G A.
Notation J := (u_ops (umap parse empty insert T)).

Lemma map_fault f g out b : seen (on_fault J f [LMap (Own tt)] (g, (out, b)) : res unit * _) = (Fault f, (g, out)).
Proof. destruct f; reflexivity. Qed.

Lemma map_members ms c : forall g out m ok e u,
  seen (feed_members J (feed J) (Own tt) ms c (g, (out, Some ((m, ok), (e, u))))) =
  let r := read_entries (reads T) parse insert ms g (map_shift insert m ok e) in store out c (rmap Some (fst r), snd r).
Proof.
  induction ms as [|[k t] ms IH]; intros g out m ok e u.
  - destruct c; reflexivity.
  - cbn [feed_members read_entries]. cbn [umap u_ops nest m_key map_outer o_key].
    destruct (parse k g) as [[key| |f] g0]; [| reflexivity | exact (map_fault f g0 out _)].
    destruct (u_begin T g0 None) as [r [g1 [e1 u1]]] eqn:EB. use_begin T t g0 EB. cbn [pass fst snd].
    destruct r as [v| |f]; cbn [rmap].
    + pose proof (feed_slot (u_ops T) (map_outer parse empty insert T) out (map_shift insert m ok e, Some key) t v (g1, (e1, u1))) as Q.
      destruct (feed (u_ops T) t v (g1, (e1, u1))) as [r [g2 [e2 u2]]]. rw_feed Q. destruct r as [[]| |f]; cbn [lft fst snd rmap bput seen].
      * destruct e2 as [a|]; exact (IH g2 out (map_shift insert m ok e) (Some key) _ u2).
      * reflexivity.
      * exact (map_fault f g2 out (Some ((map_shift insert m ok e, Some key), (e2, u2)))).
    + reflexivity.
    + exact (map_fault f g1 out (Some ((map_shift insert m ok e, Some key), (e1, u1)))).
Qed.

Theorem reads_map t g o : reads (umap parse empty insert T) t g o = read_map (reads T) parse empty insert t g o.
Proof.
  destruct t as [|ev|items c|ms c]; try reflexivity.
  - destruct ev; reflexivity.
  - unfold reads at 1. cbn [umap u_begin]. cbn [feed]. cbn [u_ops umap nest v_map map_outer o_map].
    apply (map_members ms c g o empty None None (u_idle T)).
Qed.
End Map.

Section Struct.
Context {G : Type}.

Fixpoint popts (fs : list (ufield G)) : fslots fs -> fopts fs :=
  match fs with [] => fun _ => tt | f :: fs' => fun ps => (fst (fst ps), popts fs' (snd ps)) end.

Lemma fdefaults_spec fs : forall g : G, defaults fs g = (rmap (popts fs) (fst (fdefaults fs g)), snd (fdefaults fs g)).
Proof.
  induction fs as [|f fs IH]; intros g; [reflexivity|]. cbn [defaults fdefaults].
  destruct (u_default (f_u f) g) as [[o| |x] g1]; try reflexivity. rewrite IH. destruct (fdefaults fs g1) as [[ps| |x] g2]; reflexivity.
Qed.
Lemma ftake_spec fs : forall ps, fst (ftake fs ps) = all_some fs (popts fs ps).
Proof.
  induction fs as [|f fs IH]; intros ps; [reflexivity|]. destruct ps as [[[a|] u] ps]; cbn [ftake all_some popts fst snd]; [|reflexivity].
  rewrite IH. destruct (all_some fs (popts fs ps)); reflexivity.
Qed.

Lemma fbegin_spec fs k t : forall (g : G) ps,
  match fbegin fs k g ps with
  | None => read_field fs k t g (popts fs ps) = None
  | Some (r, (g1, ps1)) =>
      read_field fs k t g (popts fs ps) =
      Some (match r with
            | Ok v => let q := feed (fields_iface fs) t v (g1, ps1) in (fst q, (fst (snd q), popts fs (snd (snd q))))
            | Err => (Err, (g1, popts fs ps1))
            | Fault f => (Fault f, (g1, popts fs ps1))
            end)
  end.
Proof.
  induction fs as [|f fs IH]; intros g ps; [reflexivity|]. destruct ps as [[e u] ps]. cbn [fbegin read_field popts fst snd].
  destruct (list_eq_dec Z.eq_dec k (f_name f)) as [E|E].
  - unfold reads. destruct (u_begin (f_u f) g e) as [[v| |x] [g1 [e1 u1]]]; cbn [pass rmap fst snd]; try reflexivity.
    pose proof (feed_morph _ _ _ _ _ _ (sum_left (u_ops (f_u f)) (fields_iface fs) ps) t v (g1, (e1, u1))) as K. cbn [fst snd] in K.
    cbn [fields_iface]. destruct (feed (u_ops (f_u f)) t v (g1, (e1, u1))) as [r [g2 [e2 u2]]]. rw_feed K. unfold lft. cbn [seen fst snd popts]. rewrite rmap_id. reflexivity.
  - specialize (IH g ps). destruct (fbegin fs k g ps) as [[r [g1 ps1]]|]; cbn [option_map].
    + rewrite IH. destruct r as [v| |x]; cbn [pass rmap fst snd]; try reflexivity.
      pose proof (feed_morph _ _ _ _ _ _ (sum_right (u_ops (f_u f)) (fields_iface fs) (e, u)) t v (g1, ps1)) as K. cbn [fst snd] in K.
      cbn [fields_iface]. destruct (feed (fields_iface fs) t v (g1, ps1)) as [r [g2 ps2]]. rw_feed K. unfold lft. cbn [fst snd popts]. rewrite rmap_id. reflexivity.
    + rewrite IH. reflexivity.
Qed.

Variable fs : list (ufield G).
Notation J := (u_ops (ustruct fs)).

Lemma ign_drop_err q st : drop_err J (LSeq (Own q)) st = (Err, st).
Proof. reflexivity. Qed.
Lemma ign_seq items c : Forall (fun t => forall st, feed J t (Own Ign) st = (if whole t then Ok tt else Err, st)) items ->
  forall st, feed_items J (feed J) (Own tt) items c st = (if forallb whole items && c then Ok tt else Err, st).
Proof.
  induction 1 as [|t items Ht _ IH]; intros st.
  - destruct c; reflexivity.
  - cbn [feed_items forallb]. cbn [ustruct u_ops nest s_element struct_outer o_element]. pose proof (Ht st) as K. rw_feed K.
    destruct (whole t); cbn [andb]; [apply IH|reflexivity].
Qed.
Lemma ign_map ms c : Forall (fun kt => forall st, feed J (snd kt) (Own Ign) st = (if whole (snd kt) then Ok tt else Err, st)) ms ->
  forall st, feed_members J (feed J) (Own (IgnB _)) ms c st = (if forallb (fun kt => whole (snd kt)) ms && c then Ok tt else Err, st).
Proof.
  induction 1 as [|[k t] ms Ht _ IH]; intros st.
  - destruct c; reflexivity.
  - cbn [feed_members forallb snd]. cbn [ustruct u_ops nest m_key struct_outer o_key]. pose proof (Ht st) as K. cbn [snd] in K. rw_feed K.
    destruct (whole t); cbn [andb]; [apply IH|reflexivity].
Qed.
Lemma ign_feed t : forall st, feed J t (Own Ign) st = (if whole t then Ok tt else Err, st).
Proof.
  induction t as [|ev|items c IH|ms c IH] using ptree_ind'; intros st.
  - reflexivity.
  - destruct ev; reflexivity.
  - exact (ign_seq items c IH st).
  - exact (ign_map ms c IH st).
Qed.

Lemma struct_fault f g out b : seen (on_fault J f [LMap (Own (Bld _ tt))] (g, (out, b)) : res unit * _) = (Fault f, (g, out)).
Proof. destruct f; reflexivity. Qed.

Lemma struct_members ms c : forall g out ps,
  seen (feed_members J (feed J) (Own (Bld _ tt)) ms c (g, (out, Some (tt, ps)))) =
  let r := read_fields fs ms g (popts fs ps) in store out c (rmap (all_some fs) (fst r), snd r).
Proof.
  induction ms as [|[k t] ms IH]; intros g out ps.
  - cbn [feed_members read_fields fst snd rmap]. unfold finish_layer. destruct c.
    + cbn [ustruct u_ops nest m_finish struct_outer o_mfinish]. rewrite <- ftake_spec. destruct (ftake fs ps) as [[vs|] ps']; reflexivity.
    + destruct (all_some fs (popts fs ps)); reflexivity.
  - cbn [feed_members read_fields]. cbn [ustruct u_ops nest m_key struct_outer o_key]. pose proof (fbegin_spec fs k t g ps) as S.
    destruct (fbegin fs k g ps) as [[r [g1 ps1]]|].
    + rewrite S. clear S. destruct r as [v| |f]; cbn [pass rmap fst snd].
      * pose proof (feed_slot (fields_iface fs) (struct_outer fs) out tt t v (g1, ps1)) as K.
        destruct (feed (fields_iface fs) t v (g1, ps1)) as [r [g2 ps2]]. rw_feed K. destruct r as [[]| |f]; cbn [lft fst snd rmap bput].
        -- exact (IH g2 out ps2).
        -- reflexivity.
        -- exact (struct_fault f g2 out (Some (tt, ps2))).
      * reflexivity.
      * exact (struct_fault f g1 out (Some (tt, ps1))).
    + rewrite S. clear S. pose proof (ign_feed t (g, (out, Some (tt, ps)))) as K. rw_feed K. destruct (whole t); [|reflexivity]. exact (IH g out ps).
Qed.

Theorem reads_struct t g o : reads (ustruct fs) t g o = read_struct fs t g o.
Proof.
  destruct t as [|ev|items c|ms c]; try reflexivity.
  - destruct ev; reflexivity.
  - unfold reads at 1. cbn [ustruct u_begin]. cbn [feed read_struct]. cbn [u_ops ustruct nest v_map struct_outer o_map].
    rewrite fdefaults_spec. destruct (fdefaults fs g) as [[ps| |f] g1]; try reflexivity. exact (struct_members ms c g1 o ps).
Qed.
End Struct.
