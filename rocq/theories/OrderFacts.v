(** Documents that differ only in the order in which HashMaps list their entries. *)
From Coq Require Import String ZArith List Bool Lia Permutation Floats.SpecFloat.
From Verif Require Import Base Utf8 Utf8Facts F64 Lexer Grammar LexSpec Types Ser Reading MapFacts ReadFacts TypedFacts Unambiguous NumValue DocSpec SerSpec SerFacts RenderFacts WriteFacts RoundTrip.
Import ListNotations.
Open Scope Z_scope.

(** Trees / documents equal up to the order of the members of objects without repeated keys. *)
Inductive TEq : stree -> stree -> Prop :=
| tq_same t : TEq t t
| tq_seq l1 l2 : Forall2 TEq l1 l2 -> TEq (STSeq l1) (STSeq l2)
| tq_map l1 l l2 :
    Permutation l1 l -> (l1 = l \/ NoDup (map fst l1)) ->
    Forall2 (fun a b => fst a = fst b /\ TEq (snd a) (snd b)) l l2 -> TEq (STMap l1) (STMap l2).
Inductive DEq : doc -> doc -> Prop :=
| dq_same d : DEq d d
| dq_arr l1 l2 : Forall2 DEq l1 l2 -> DEq (DArr l1) (DArr l2)
| dq_obj l1 l l2 :
    Permutation l1 l -> (l1 = l \/ NoDup (map fst l1)) ->
    Forall2 (fun a b => fst a = fst b /\ DEq (snd a) (snd b)) l l2 -> DEq (DObj l1) (DObj l2).

Lemma fst_eq {A B C} (R : A -> B -> Prop) (l : list (C * A)) (l' : list (C * B)) :
  Forall2 (fun a b => fst a = fst b /\ R (snd a) (snd b)) l l' -> map fst l = map fst l'.
Proof. induction 1 as [|a b l l' [H _] HF IH]; cbn [map]; congruence. Qed.

(** ** Two trees of the same value *)
Lemma key_text_inj K a b : key_ok K a = true -> key_ok K b = true -> key_to_string a = key_to_string b -> a = b.
Proof. intros Ha Hb H. apply key_back in Ha, Hb. congruence. Qed.
Lemma key_texts_nodup K {A} (l : list (val * A)) : Forall (fun kv => key_ok K (fst kv) = true) l -> NoDup (map fst l) -> NoDup (map (fun kv => key_to_string (fst kv)) l).
Proof.
  intros HK HN. induction HK as [|[k a] l Hk HK IH]; [constructor|]. cbn [map fst] in *. inversion HN as [|? ? N1 N2]; subst. constructor; [|auto].
  intros Hin. apply N1. apply in_map_iff in Hin. destruct Hin as ([k' a'] & E & Hin). cbn [fst] in E. rewrite Forall_forall in HK. specialize (HK _ Hin). cbn [fst] in *.
  apply (key_text_inj K) in E; auto. subst. apply (in_map fst) in Hin. exact Hin.
Qed.
Lemma sorted_keys_nodup K {A} (l : list (val * A)) : sorted_keys key_cmp l = true -> Forall (fun kv => key_ok K (fst kv) = true) l -> NoDup (map fst l).
Proof.
  intros HS HK. apply (sorted_nodup key_cmp (key_kind K)).
  - intros x. apply key_cmp_refl.
  - intros x y w. apply key_cmp_trans.
  - eapply Forall_impl; [|exact HK]. intros kv. apply key_ok_kind.
  - exact HS.
Qed.

Section Trees.
Variable E : env.
Definition Pt (v : val) : Prop := forall T t1 t2, has_type E T v -> Writes E T v t1 -> Writes E T v t2 -> TEq t1 t2.
Lemma teq_list T l : Forall Pt l -> Forall (has_type E T) l -> forall ts1 ts2, Forall2 (Writes E T) l ts1 -> Forall2 (Writes E T) l ts2 -> Forall2 TEq ts1 ts2.
Proof.
  intros HP HT. induction l as [|v l IH]; intros ts1 ts2 H1 H2; inversion H1; inversion H2; subst; [constructor|]. inversion HP; inversion HT; subst. constructor; auto.
  match goal with HX : Pt v |- _ => eapply HX; eassumption end.
Qed.
Lemma teq_members T (l : list (val * val)) : Forall (fun kv => Pt (snd kv)) l -> Forall (fun kv => has_type E T (snd kv)) l -> forall ts1 ts2,
  Forall2 (fun kv kt => fst kt = key_to_string (fst kv) /\ Writes E T (snd kv) (snd kt)) l ts1 ->
  Forall2 (fun kv kt => fst kt = key_to_string (fst kv) /\ Writes E T (snd kv) (snd kt)) l ts2 ->
  Forall2 (fun a b => fst a = fst b /\ TEq (snd a) (snd b)) ts1 ts2.
Proof.
  intros HP HT. induction l as [|v l IH]; intros ts1 ts2 H1 H2; inversion H1 as [|? ? ? ? [? ?]]; inversion H2 as [|? ? ? ? [? ?]]; subst; [constructor|]. inversion HP; inversion HT; subst. constructor; auto.
  split; [congruence|]. match goal with HX : Pt (snd v) |- _ => eapply HX; eassumption end.
Qed.
Lemma teq_fields (fs : list (bytes * ty)) : forall vs, Forall Pt vs -> Forall2 (fun f v => has_type E (snd f) v) fs vs -> forall ts1 ts2,
  Forall2 (fun fv kt => fst kt = fst (fst fv) /\ Writes E (snd (fst fv)) (snd fv) (snd kt)) (combine fs vs) ts1 ->
  Forall2 (fun fv kt => fst kt = fst (fst fv) /\ Writes E (snd (fst fv)) (snd fv) (snd kt)) (combine fs vs) ts2 ->
  Forall2 (fun a b => fst a = fst b /\ TEq (snd a) (snd b)) ts1 ts2.
Proof.
  induction fs as [|f fs IH]; intros vs HP HT ts1 ts2 H1 H2; inversion HT; subst; cbn [combine] in *.
  - inversion H1; inversion H2; subst. constructor.
  - inversion H1 as [|? ? ? ? [? ?]]; inversion H2 as [|? ? ? ? [? ?]]; subst. inversion HP; subst. cbn [fst snd] in *. constructor; eauto.
    split; [congruence|]. match goal with HX : Pt y |- _ => eapply HX; eassumption end.
Qed.
Theorem same_value_teq v : Pt v.
Proof.
  induction v as [|b|s|z|f|f|v IH| |v IH|a b IHa IHb|l IH|l IH|j|m|l|l|l IH|i] using val_ind'; intros T t1 t2 HT H1 H2; inversion H1; subst; inversion H2; subst; try apply tq_same.
  - inversion HT; subst. eapply IH; eassumption.
  - inversion HT; subst. eapply IH; eassumption.
  - inversion HT; subst. apply tq_seq. constructor; [eapply IHa; eassumption|]. constructor; [eapply IHb; eassumption|constructor].
  - inversion HT; subst. apply tq_seq. eapply teq_list; eassumption.
  - inversion HT; subst. apply tq_seq. eapply teq_list; eassumption.
  - inversion HT as [| | | | | | | | | | | |? ? ? ? HS HK Hv| | | | | |]; subst.
    rename l0 into la, l1 into lb. rename ts0 into tb, ts into ta.
    assert (Pa : Permutation l la) by (destruct h; [assumption|subst; apply Permutation_refl]).
    assert (Pb : Permutation l lb) by (destruct h; [assumption|subst; apply Permutation_refl]).
    assert (Pab : Permutation la lb) by (eapply Permutation_trans; [apply Permutation_sym, Pa|exact Pb]).
    match goal with HX : Forall2 _ la ta |- _ => rename HX into Wa end. match goal with HX : Forall2 _ lb tb |- _ => rename HX into Wb end.
    destruct (Permutation_Forall2 Pab Wa) as (ta' & P' & Wa').
    apply (tq_map ta ta' tb P').
    + right. assert (EK : map fst ta = map (fun kv => key_to_string (fst kv)) la). { clear - Wa. induction Wa as [|? ? ? ? [? ?]]; cbn [map]; congruence. }
      rewrite EK. apply (key_texts_nodup K).
      * eapply Permutation_Forall; [exact Pa|exact HK].
      * eapply Permutation_NoDup; [apply Permutation_map, Pa|]. eapply sorted_keys_nodup; eassumption.
    + eapply (teq_members T0 lb); try eassumption; (eapply Permutation_Forall; [exact Pb|assumption]).
  - inversion HT as [| | | | | | | | | | | | | | | | |? fs' ? EN HTs|]; subst.
    repeat match goal with HX : nth_error E id = Some (DStruct ?x), HY : nth_error E id = Some (DStruct ?y) |- _ => first [constr_eq x y; fail 1|rewrite HX in HY; injection HY as ->] end.
    eapply tq_map; [apply Permutation_refl|left; reflexivity|]. eapply teq_fields; eassumption.
  - repeat match goal with HX : nth_error E id = Some ?x, HY : nth_error E id = Some ?y |- _ => first [constr_eq x y; fail 1|rewrite HX in HY; injection HY as ->] end.
    assert (s = s0) as -> by congruence. apply tq_same.
Qed.
End Trees.

(** ** The document of a tree's text *)
Section Docs.
Variable ryu : f64 -> bytes.
Hypothesis HR : ryu_ok ryu.
Notation rend := (render itoa ryu).

Inductive RDoc : stree -> doc -> Prop :=
| rc_null : RDoc STNull DNull
| rc_bool b : RDoc (STBool b) (DBool b)
| rc_str s : RDoc (STStr s) (DStr s)
| rc_u64 z n : NumText n (itoa z) -> RDoc (STU64 z) (DNum n)
| rc_i64 z n : NumText n (itoa z) -> RDoc (STI64 z) (DNum n)
| rc_f64 f n : f_is_finite f = true -> NumText n (ryu f) -> RDoc (STF64 f) (DNum n)
| rc_nonfinite f : f_is_finite f = false -> RDoc (STF64 f) DNull
| rc_seq l ds : Forall2 RDoc l ds -> RDoc (STSeq l) (DArr ds)
| rc_map l ds : Forall2 (fun kt kd => fst kt = fst kd /\ RDoc (snd kt) (snd kd)) l ds -> RDoc (STMap l) (DObj ds).

Lemma commas_etext' l : l <> [] -> Forall (fun t => exists d, RDoc t d /\ VText d (rend t)) l ->
  exists ds, Forall2 RDoc l ds /\ EText ds (commas (map rend l)).
Proof.
  intros HN H. induction H as [|t l (d & H1 & H2) H IH]; [congruence|]. destruct l as [|t2 l].
  - exists [d]. split; [repeat constructor; assumption|]. cbn [map commas].
    replace (rend t) with ([] ++ rend t ++ []) by (cbn [app]; apply app_nil_r). constructor; auto using ws_nil.
  - destruct IH as (ds & F & T); [discriminate|]. exists (d :: ds). split; [constructor; assumption|].
    change (commas (map rend (t :: t2 :: l))) with ([] ++ rend t ++ [] ++ 44 :: commas (map rend (t2 :: l))). constructor; auto using ws_nil.
Qed.
Lemma commas_mtext' l : l <> [] -> Forall (fun kt => str_ok (fst kt) = true /\ exists d, RDoc (snd kt) d /\ VText d (rend (snd kt))) l ->
  exists ds, Forall2 (fun kt kd => fst kt = fst kd /\ RDoc (snd kt) (snd kd)) l ds /\
    MText ds (commas (map (fun kt => quote (fst kt) ++ 58 :: rend (snd kt)) l)).
Proof.
  intros HN H. induction H as [|[k t] l (HK & d & H1 & H2) H IH]; [congruence|]. cbn [fst snd] in *. destruct l as [|t2 l].
  - exists [(k, d)]. split; [repeat constructor; assumption|]. cbn [map commas fst snd].
    replace (quote k ++ 58 :: rend t) with ([] ++ quote k ++ [] ++ 58 :: [] ++ rend t ++ []) by (cbn [app]; rewrite app_nil_r; reflexivity).
    constructor; auto using ws_nil, quote_text_ok.
  - destruct IH as (ds & F & T); [discriminate|]. exists ((k, d) :: ds). split; [constructor; [split; [reflexivity|assumption]|assumption]|].
    set (g := fun kt : bytes * stree => quote (fst kt) ++ 58 :: rend (snd kt)) in *.
    replace (commas (map g ((k, t) :: t2 :: l))) with ([] ++ quote k ++ [] ++ 58 :: [] ++ rend t ++ [] ++ 44 :: commas (map g (t2 :: l))).
    2: { change (commas (map g ((k, t) :: t2 :: l))) with (g (k, t) ++ 44 :: commas (map g (t2 :: l))). unfold g at 2. cbn [fst snd app]. rewrite <- app_assoc. reflexivity. }
    constructor; auto using ws_nil, quote_text_ok.
Qed.
Theorem rdoc_text t : stree_ok t = true -> exists d, RDoc t d /\ VText d (rend t).
Proof.
  induction t as [|b|s|n|n|f|l IH|l IH] using stree_ind'; intros HO; cbn [stree_ok render] in *.
  - exists DNull. split; constructor.
  - exists (DBool b). split; [constructor|]. destruct b; constructor.
  - exists (DStr s). split; [constructor|]. constructor. apply quote_text_ok, HO.
  - destruct (itoa_spec n) as (m & A & _). exists (DNum m). split; constructor; exact A.
  - destruct (itoa_spec n) as (m & A & _). exists (DNum m). split; constructor; exact A.
  - destruct (f_is_finite f) eqn:FF.
    + destruct (HR f HO FF) as [(m & A & _) _]. exists (DNum m). split; constructor; assumption.
    + exists DNull. split; [constructor; exact FF|constructor].
  - destruct l as [|t l]; [exists (DArr []); split; [repeat constructor|apply (vt_arr0 []), ws_nil]|].
    destruct (commas_etext' (t :: l)) as (ds & F & T); [discriminate| |exists (DArr ds); split; [constructor; exact F|constructor; exact T]].
    rewrite Forall_forall in IH |- *. intros x Hx. apply IH; [exact Hx|]. rewrite forallb_forall in HO. apply HO, Hx.
  - destruct l as [|t l]; [exists (DObj []); split; [repeat constructor|apply (vt_obj0 []), ws_nil]|].
    destruct (commas_mtext' (t :: l)) as (ds & F & T); [discriminate| |exists (DObj ds); split; [constructor; exact F|constructor; exact T]].
    rewrite Forall_forall in IH |- *. intros x Hx. rewrite forallb_forall in HO. specialize (HO _ Hx). apply andb_true_iff in HO. destruct HO. split; [assumption|]. apply IH; assumption.
Qed.

Lemma numtext_unique n m t : NumText n t -> NumText m t -> n = m.
Proof.
  intros H1 H2. assert (J : forall n, NumText n t -> JText (DNum n) t).
  { intros x Hx. exists [], t, []. rewrite app_nil_r. repeat split; try constructor. exact Hx. }
  pose proof (JText_unique _ _ _ (J _ H1) (J _ H2)). congruence.
Qed.
Theorem teq_deq t1 : forall t2 d1 d2, TEq t1 t2 -> RDoc t1 d1 -> RDoc t2 d2 -> DEq d1 d2.
Proof.
  induction t1 as [|b|s|n|n|f|l IH|l IH] using stree_ind'; intros t2 d1 d2 HT H1 H2; inversion HT; subst.
  1-3: inversion H1; inversion H2; subst; apply dq_same.
  - inversion H1; inversion H2; subst. match goal with HX : NumText ?a _, HY : NumText ?b _ |- DEq (DNum ?a) (DNum ?b) => rewrite (numtext_unique a b _ HX HY) end. apply dq_same.
  - inversion H1; inversion H2; subst. match goal with HX : NumText ?a _, HY : NumText ?b _ |- DEq (DNum ?a) (DNum ?b) => rewrite (numtext_unique a b _ HX HY) end. apply dq_same.
  - inversion H1; inversion H2; subst; try congruence; [|apply dq_same].
    match goal with HX : NumText ?a _, HY : NumText ?b _ |- DEq (DNum ?a) (DNum ?b) => rewrite (numtext_unique a b _ HX HY) end. apply dq_same.
  - inversion H1 as [| | | | | | |? ds1 R1|]; inversion H2 as [| | | | | | |? ds2 R2|]; subst. apply dq_arr. clear HT H1 H2. revert ds1 ds2 R1 R2.
    induction IH as [|t l Ht IH IHl]; intros ds1 ds2 R1 R2; inversion R1; inversion R2; subst; constructor; [|auto]. eapply Ht; [apply tq_same|eassumption..].
  - match goal with HX : Forall2 TEq l ?x |- _ => rename HX into HF; rename x into l2 end.
    inversion H1 as [| | | | | | |? ds1 R1|]; inversion H2 as [| | | | | | |? ds2 R2|]; subst. apply dq_arr. clear HT H1 H2. revert l2 HF ds1 ds2 R1 R2.
    induction IH as [|t l Ht IH IHl]; intros l2 HF ds1 ds2 R1 R2; inversion HF; subst; inversion R1; inversion R2; subst; constructor; eauto.
  - inversion H1 as [| | | | | | | |? ds1 R1]; inversion H2 as [| | | | | | | |? ds2 R2]; subst. apply (dq_obj ds1 ds1 ds2); [apply Permutation_refl|left; reflexivity|]. clear HT H1 H2. revert ds1 ds2 R1 R2.
    induction IH as [|t l Ht IH IHl]; intros ds1 ds2 R1 R2; inversion R1 as [|? ? ? ? [? ?]]; inversion R2 as [|? ? ? ? [? ?]]; subst; constructor; [|auto]. split; [congruence|]. eapply Ht; [apply tq_same|eassumption..].
  - match goal with HX : Permutation l ?x |- _ => rename HX into HP; rename x into lp end.
    match goal with HX : Forall2 _ lp ?x |- _ => rename HX into HF; rename x into l2 end.
    inversion H1 as [| | | | | | | |? ds1 R1]; inversion H2 as [| | | | | | | |? ds2 R2]; subst. clear HT H1 H2.
    match goal with HX : l = lp \/ _ |- _ => rename HX into HD end.
    assert (K1 : map fst l = map fst ds1) by (eapply fst_eq, R1).
    assert (exists dp, Permutation ds1 dp /\ (ds1 = dp \/ NoDup (map fst ds1)) /\ Forall2 (fun kt kd => fst kt = fst kd /\ RDoc (snd kt) (snd kd)) lp dp) as (dp & PD & CD & RP).
    { destruct HD as [<-|HN].
      - exists ds1. auto.
      - destruct (Permutation_Forall2 HP R1) as (dp & A & B). exists dp. split; [exact A|]. split; [right; rewrite <- K1; exact HN|exact B]. }
    apply (dq_obj ds1 dp ds2 PD CD). pose proof (Permutation_Forall HP IH) as IHp. clear - HF RP R2 IHp. revert l2 HF dp ds2 RP R2.
    induction IHp as [|t l Ht IH IHl]; intros l2 HF ds1 ds2 R1 R2; inversion HF as [|? ? ? ? [? ?]]; subst; inversion R1 as [|? ? ? ? [? ?]]; inversion R2 as [|? ? ? ? [? ?]]; subst; constructor; [|eauto].
    split; [congruence|]. eapply Ht; eassumption.
Qed.
End Docs.

(** ** Reading such documents *)
Lemma deq_null d1 d2 : DEq d1 d2 -> (d1 = DNull <-> d2 = DNull).
Proof. intros H. inversion H; subst; split; congruence. Qed.
Lemma mapof_perm {K A} (cmp : K -> K -> comparison) (l l' m : list (K * A)) : NoDup (map fst l) -> Permutation l l' -> MapOf cmp l m -> MapOf cmp l' m.
Proof.
  intros HN HP [H1 H2]. split; [exact H1|]. intros k v. rewrite H2.
  assert (HN' : NoDup (map fst l')) by (eapply Permutation_NoDup; [apply Permutation_map, HP|exact HN]).
  rewrite <- !nodup_last by assumption. split; apply Permutation_in; [exact HP|apply Permutation_sym, HP].
Qed.
Theorem jreads_deq d1 : forall d2 j, DEq d1 d2 -> JReads d1 j -> JReads d2 j.
Proof.
  induction d1 as [|b|s|n|l IH|l IH] using doc_ind'; intros d2 j HQ HJ; inversion HQ; subst; try exact HJ.
  - match goal with HX : Forall2 DEq l ?x |- _ => rename HX into HF; rename x into l2 end.
    inversion HJ; subst. constructor. match goal with HX : Forall2 JReads l ?x |- _ => rename HX into HG; rename x into js end. clear HJ HQ. revert l2 HF js HG.
    induction IH as [|d l Hd IH IHl]; intros l2 HF js HG; inversion HF; subst; inversion HG; subst; constructor; eauto.
  - match goal with HX : Permutation l ?x |- _ => rename HX into HP; rename x into lp end.
    match goal with HX : Forall2 _ lp ?x |- _ => rename HX into HF; rename x into l2 end.
    match goal with HX : l = lp \/ _ |- _ => rename HX into HD end.
    inversion HJ as [| | | | | | |? kvs m HG HM]; subst.
    assert (exists kp, MapOf bytes_cmp kp m /\ Forall2 (fun kd kj => fst kd = fst kj /\ JReads (snd kd) (snd kj)) lp kp) as (kp & MP & GP).
    { destruct HD as [<-|HN].
      - exists kvs. auto.
      - destruct (Permutation_Forall2 HP HG) as (kp & A & B). exists kp. split; [|exact B]. eapply mapof_perm; [|exact A|exact HM]. rewrite <- (fst_eq _ _ _ HG). exact HN. }
    econstructor; [|exact MP]. pose proof (Permutation_Forall HP IH) as IHp. clear - HF GP IHp. revert l2 HF kp GP.
    induction IHp as [|d l Hd IH IHl]; intros l2 HF js HG; inversion HF as [|? ? ? ? [? ?]]; subst; inversion HG as [|? ? ? ? [? ?]]; subst; constructor; [|eauto].
    split; [congruence|]. eauto.
Qed.
Lemma readable_deq d1 d2 : DEq d1 d2 -> readable d1 -> readable d2.
Proof. intros H [j Hj]. exists j. eapply jreads_deq; eassumption. Qed.

(** Types without maps keyed by integers: integer keys may coincide although their
    texts differ ("1" and "01"). *)
Fixpoint no_int_keys (T : ty) : bool :=
  match T with
  | TBox t | TOption t | TVec t | TArr t _ => no_int_keys t
  | TPair a b => no_int_keys a && no_int_keys b
  | TMap _ k t => (match k with KInt _ _ => false | _ => true end) && no_int_keys t
  | _ => true
  end.
Definition env_no_int_keys (E : env) : bool :=
  forallb (fun d => match d with DStruct fs => forallb (fun f => no_int_keys (snd f)) fs | DEnum _ => true end) E.
Lemma key_inj K a b v : (match K with KInt _ _ => false | _ => true end) = true -> key_from_str K a = Some v -> key_from_str K b = Some v -> a = b.
Proof.
  destruct K; cbn [key_from_str]; intros HK H1 H2; try discriminate; [congruence|].
  assert (X : forall s, (if bytes_eqb s (bs "true") then Some (VBool true) else if bytes_eqb s (bs "false") then Some (VBool false) else None) = Some v ->
    s = if match v with VBool b => b | _ => false end then bs "true" else bs "false").
  { intros s. destruct (bytes_eqb s (bs "true")) eqn:E1; [intros [= <-]; apply bytes_eqb_eq, E1|]. destruct (bytes_eqb s (bs "false")) eqn:E2; [intros [= <-]; apply bytes_eqb_eq, E2|discriminate]. }
  rewrite (X _ H1), (X _ H2). reflexivity.
Qed.
Lemma decoded_nodup E K T (l : list (bytes * doc)) kvs : (match K with KInt _ _ => false | _ => true end) = true ->
  Forall2 (fun kd kv => KeyReads K (fst kd) (fst kv) /\ Reads E T (snd kd) (snd kv)) l kvs -> NoDup (map fst l) -> NoDup (map fst kvs).
Proof.
  intros HK H. induction H as [|[k d] [kv v] l kvs [H1 _] HF IH]; intros HN; [constructor|]. cbn [map fst] in *. inversion HN as [|? ? N1 N2]; subst. constructor; [|auto].
  intros Hin. apply N1. apply in_map_iff in Hin. destruct Hin as ([kv' v'] & EQ & Hin). cbn [fst] in EQ. subst kv'.
  destruct (forall2_in_r _ _ _ _ HF Hin) as ([k' d'] & Hin' & H2 & _). cbn [fst] in H2. apply key_reads_iff in H1, H2. rewrite (key_inj K k k' kv HK H1 H2). apply (in_map fst) in Hin'. exact Hin'.
Qed.

(** One member of two such objects. *)
Lemma deq_in (l1 l l2 : list (bytes * doc)) k d2 : Permutation l1 l -> Forall2 (fun a b => fst a = fst b /\ DEq (snd a) (snd b)) l l2 -> In (k, d2) l2 ->
  exists d1, In (k, d1) l1 /\ DEq d1 d2.
Proof.
  intros HP HF Hin. destruct (forall2_in_r _ _ _ _ HF Hin) as ([k' d1] & Hin' & E0 & HD). cbn [fst snd] in *. subst k'. exists d1. split; [|exact HD].
  eapply Permutation_in; [apply Permutation_sym, HP|exact Hin'].
Qed.
Lemma deq_last (l1 l l2 : list (bytes * doc)) k d1 : Permutation l1 l -> (l1 = l \/ NoDup (map fst l1)) -> Forall2 (fun a b => fst a = fst b /\ DEq (snd a) (snd b)) l l2 ->
  last_binding l1 k d1 -> exists d2, last_binding l2 k d2 /\ DEq d1 d2 /\ In (k, d1) l1.
Proof.
  intros HP HD HF HL.
  assert (HL' : last_binding l k d1).
  { destruct HD as [<-|HN]; [exact HL|]. assert (HN' : NoDup (map fst l)) by (eapply Permutation_NoDup; [apply Permutation_map, HP|exact HN]).
    apply nodup_last in HL; [|exact HN]. apply nodup_last; [exact HN'|]. eapply Permutation_in; eassumption. }
  assert (Hin : In (k, d1) l1) by (apply last_in in HL; exact HL).
  destruct HL' as (a & b & -> & Hb). apply Forall2_app_inv_l in HF. destruct HF as (a' & b' & Ha' & Hb' & ->). inversion Hb' as [|? [k' d2] ? b'' [E0 HQ] HF']; subst. cbn [fst snd] in *. subst k'.
  exists d2. split; [|split; [exact HQ|exact Hin]]. exists a', b''. split; [reflexivity|]. clear - Hb HF'. induction HF' as [|x y b b'' [E0 _] HF IH]; [constructor|]. inversion Hb; subst. constructor; [congruence|auto].
Qed.

Theorem reads_deq E d1 : env_no_int_keys E = true -> forall d2 T v, DEq d1 d2 -> no_int_keys T = true -> Reads E T d1 v -> Reads E T d2 v.
Proof.
  intros HE. induction d1 as [|b|s|n|l IH|l IH] using doc_ind'; intros d2 T v HQ HT HJ; inversion HQ; subst; try exact HJ.
  - match goal with HX : Forall2 DEq l ?x |- _ => rename HX into HF; rename x into l2 end.
    assert (L : forall T js, no_int_keys T = true -> Forall2 (Reads E T) l js -> Forall2 (Reads E T) l2 js).
    { clear - HF IH. intros T js HT HG. revert l2 HF js HG. induction IH as [|d l Hd IH IHl]; intros l2 HF js HG; inversion HF; subst; inversion HG; subst; constructor; eauto. }
    revert v HT HJ. induction T as [| | |sg b| | |T IHT|T IHT|A IHA B IHB|T IHT|T IHT m|h K T IHT| | | | |id]; intros v HT HJ; inversion HJ; subst; cbn [no_int_keys] in HT; try congruence.
    + constructor. auto.
    + constructor; [discriminate|]. auto.
    + apply andb_true_iff in HT. destruct HT as [TA TB]. inversion HF as [|? ? ? ? Q1 HF1]; subst. inversion HF1 as [|? ? ? ? Q2 HF2]; subst. inversion HF2; subst.
      inversion IH as [|? ? I1 IH1]; subst. inversion IH1 as [|? ? I2 _]; subst. constructor; [apply I1|apply I2]; assumption.
    + constructor. auto.
    + constructor; [symmetry; eapply forall2_len, HF|auto].
    + constructor. eapply jreads_deq; [apply dq_arr; exact HF|eassumption].
    + constructor. eapply jreads_deq; [apply dq_arr; exact HF|eassumption].
  - match goal with HX : Permutation l ?x |- _ => rename HX into HP; rename x into lp end.
    match goal with HX : Forall2 _ lp ?x |- _ => rename HX into HF; rename x into l2 end.
    match goal with HX : l = lp \/ _ |- _ => rename HX into HD end.
    revert v HT HJ. induction T as [| | |sg b| | |T IHT|T IHT|A IHA B IHB|T IHT|T IHT m|h K T IHT| | | | |id]; intros v HT HJ; inversion HJ; subst; cbn [no_int_keys] in HT; try congruence.
    + constructor. auto.
    + constructor; [discriminate|]. auto.
    + apply andb_true_iff in HT. destruct HT as [TK TT].
      match goal with HX : Forall2 _ l ?x |- _ => rename HX into HG; rename x into kvs end.
      match goal with HX : MapOf _ kvs _ |- _ => rename HX into HM end.
      assert (exists kp, MapOf key_cmp kp m /\ Forall2 (fun kd kv => KeyReads K (fst kd) (fst kv) /\ Reads E T (snd kd) (snd kv)) lp kp) as (kp & MP & GP).
      { destruct HD as [<-|HN].
        - exists kvs. auto.
        - destruct (Permutation_Forall2 HP HG) as (kp & A & B). exists kp. split; [|exact B]. eapply mapof_perm; [|exact A|exact HM]. eapply decoded_nodup; eassumption. }
      econstructor; [|exact MP]. pose proof (Permutation_Forall HP IH) as IHp. clear - TT HF GP IHp. revert l2 HF kp GP.
      induction IHp as [|d l Hd IH IHl]; intros l2 HF js HG; inversion HF as [|? ? ? ? [EQ ?]]; subst; inversion HG as [|? ? ? ? [? ?]]; subst; constructor; [|eauto].
      split; [rewrite <- EQ; assumption|]. eauto.
    + constructor. eapply jreads_deq; [exact HQ|eassumption].
    + constructor. eapply jreads_deq; [exact HQ|eassumption].
    + match goal with HX : nth_error E id = Some (DStruct ?x) |- _ => rename HX into EN; rename x into fs end.
      assert (HFS : forall i n T, nth_error fs i = Some (n, T) -> no_int_keys T = true).
      { intros i n T Hi. apply nth_error_In in EN, Hi. unfold env_no_int_keys in HE. rewrite forallb_forall in HE. specialize (HE _ EN). cbn in HE. rewrite forallb_forall in HE. exact (HE _ Hi). }
      rewrite Forall_forall in IH.
      econstructor; [exact EN| | |eassumption|].
      * apply Forall_forall. intros [k d2] Hin. cbn [snd]. destruct (deq_in l lp l2 k d2 HP HF Hin) as (d1 & Hin1 & Q). eapply readable_deq; [exact Q|].
        match goal with HX : Forall (fun kd => readable (snd kd)) l |- _ => rewrite Forall_forall in HX; exact (HX _ Hin1) end.
      * intros k d2 i T Hin HFA. destruct (deq_in l lp l2 k d2 HP HF Hin) as (d1 & Hin1 & Q).
        match goal with HX : forall k d i T, In (k, d) l -> _ |- _ => destruct (HX k d1 i T Hin1 HFA) as (w & Hw) end. exists w.
        eapply (IH _ Hin1); [exact Q|eapply HFS, HFA|exact Hw].
      * intros i n T w Hi Hw. match goal with HX : forall i n T v, nth_error fs i = _ -> _ |- _ => destruct (HX i n T w Hi Hw) as [(FA & d & HL & RR)|([N|N] & RR)] end.
        -- left. split; [exact FA|]. destruct (deq_last l lp l2 n d HP HD HF HL) as (d2 & HL2 & Q & Hin1). exists d2. split; [exact HL2|]. eapply (IH _ Hin1); [exact Q|eapply HFS, Hi|exact RR].
        -- right. auto.
        -- right. split; [|exact RR]. right. intros d2 Hin. destruct (deq_in l lp l2 n d2 HP HF Hin) as (d1 & Hin1 & _). exact (N _ Hin1).
Qed.

(** ** Reading at the type that was written *)
Section Typed.
Variable E : env.
Variable ryu : f64 -> bytes.
Hypothesis HR : ryu_ok ryu.
Hypothesis HN : distinct_names E.
Notation RDoc := (RDoc ryu).

Lemma rdoc_denotes t : stree_ok t = true -> forall d, RDoc t d -> Denotes t d.
Proof.
  induction t as [|b|s|n|n|f|l IH|l IH] using stree_ind'; intros HO d HD; inversion HD; subst; cbn [stree_ok] in HO.
  1-3: constructor.
  - destruct (itoa_spec n) as (m & A & B & C & F & G). match goal with HX : NumText ?a _ |- _ => rewrite <- (numtext_unique m a _ A HX) end. constructor; [split|..]; assumption.
  - destruct (itoa_spec n) as (m & A & B & C & F & G). match goal with HX : NumText ?a _ |- _ => rewrite <- (numtext_unique m a _ A HX) end. constructor; [split|..]; assumption.
  - match goal with HX : f_is_finite f = true |- _ => rename HX into FF end. destruct (HR f HO FF) as [(m & A & B & C & F) _].
    match goal with HX : NumText ?a _ |- _ => rewrite <- (numtext_unique m a _ A HX) end. constructor; assumption.
  - constructor. assumption.
  - constructor. match goal with HX : Forall2 _ l _ |- _ => revert HX end. clear HD. revert ds. induction IH as [|t l Ht IH IHl]; intros ds HF; inversion HF; subst; [constructor|].
    cbn [forallb] in HO. apply andb_true_iff in HO. destruct HO. constructor; auto.
  - constructor. match goal with HX : Forall2 _ l _ |- _ => revert HX end. clear HD. revert ds. induction IH as [|t l Ht IH IHl]; intros ds HF; inversion HF as [|? ? ? ? [? ?]]; subst; [constructor|].
    cbn [forallb] in HO. apply andb_true_iff in HO. destruct HO as [HO1 HO2]. apply andb_true_iff in HO1. destruct HO1. constructor; auto.
Qed.
Lemma rdoc_fun t : stree_ok t = true -> forall d d', RDoc t d -> RDoc t d' -> d = d'.
Proof.
  induction t as [|b|s|n|n|f|l IH|l IH] using stree_ind'; intros HO d d' H1 H2; inversion H1; subst; inversion H2; subst; try reflexivity; try congruence; cbn [stree_ok] in HO.
  1-3: f_equal; eapply numtext_unique; eassumption.
  - f_equal. match goal with HX : Forall2 _ l ds, HY : Forall2 _ l ds0 |- _ => revert HX HY end. clear H1 H2. revert ds ds0.
    induction IH as [|t l Ht IH IHl]; intros ds ds0 HF HG; inversion HF; subst; inversion HG; subst; [reflexivity|].
    cbn [forallb] in HO. apply andb_true_iff in HO. destruct HO. f_equal; auto.
  - f_equal. match goal with HX : Forall2 _ l ds, HY : Forall2 _ l ds0 |- _ => revert HX HY end. clear H1 H2. revert ds ds0.
    induction IH as [|t l Ht IH IHl]; intros ds ds0 HF HG; inversion HF as [|? [k1 e1] ? ? [? ?]]; subst; inversion HG as [|? [k2 e2] ? ? [? ?]]; subst; [reflexivity|].
    cbn [forallb fst snd] in *. apply andb_true_iff in HO. destruct HO as [HO1 HO2]. apply andb_true_iff in HO1. destruct HO1. f_equal; auto. f_equal; [congruence|]. apply Ht; assumption.
Qed.

Definition Ps (v : val) : Prop := forall T t1 t2 d1 d2 w, Reads E T d1 w -> RDoc t1 d1 -> RDoc t2 d2 ->
  Writes E T v t1 -> Writes E T v t2 -> stree_ok t1 = true -> stree_ok t2 = true -> has_type E T v -> Reads E T d2 w.

Lemma ps_list T l : Forall Ps l -> Forall (has_type E T) l -> forall ts1 ts2 ds1 ds2 ws, Forall2 (Reads E T) ds1 ws -> Forall2 RDoc ts1 ds1 -> Forall2 RDoc ts2 ds2 ->
  Forall2 (Writes E T) l ts1 -> Forall2 (Writes E T) l ts2 -> forallb stree_ok ts1 = true -> forallb stree_ok ts2 = true -> Forall2 (Reads E T) ds2 ws.
Proof.
  intros HP HT. induction l as [|v l IH]; intros ts1 ts2 ds1 ds2 ws R D1 D2 H1 H2 O1 O2; inversion H1; subst; inversion H2; subst; inversion D1; subst; inversion D2; subst; inversion R; subst; [constructor|].
  inversion HP; inversion HT; subst. cbn [forallb] in *. apply andb_true_iff in O1, O2. destruct O1, O2. constructor; [|eauto].
  match goal with HX : Ps _ |- _ => eapply HX; eassumption end.
Qed.
Lemma ps_members K T (l : list (val * val)) : Forall (fun kv => Ps (snd kv)) l -> Forall (fun kv => has_type E T (snd kv)) l -> Forall (fun kv => key_ok K (fst kv) = true) l -> forall ts1 ts2 ds1 ds2 ws,
  forallb (fun kt => str_ok (fst kt) && stree_ok (snd kt)) ts1 = true -> forallb (fun kt => str_ok (fst kt) && stree_ok (snd kt)) ts2 = true ->
  Forall2 (fun kv kt => fst kt = key_to_string (fst kv) /\ Writes E T (snd kv) (snd kt)) l ts1 ->
  Forall2 (fun kv kt => fst kt = key_to_string (fst kv) /\ Writes E T (snd kv) (snd kt)) l ts2 ->
  Forall2 (fun kt kd => fst kt = fst kd /\ RDoc (snd kt) (snd kd)) ts1 ds1 -> Forall2 (fun kt kd => fst kt = fst kd /\ RDoc (snd kt) (snd kd)) ts2 ds2 ->
  Forall2 (fun kd kv => KeyReads K (fst kd) (fst kv) /\ Reads E T (snd kd) (snd kv)) ds1 ws ->
  Forall2 (fun kd kv => KeyReads K (fst kd) (fst kv) /\ Reads E T (snd kd) (snd kv)) ds2 ws /\ map fst ws = map fst l.
Proof.
  intros HP HT HK. induction l as [|v l IH]; intros ts1 ts2 ds1 ds2 ws O1 O2 H1 H2 D1 D2 R; inversion H1 as [|? ? ? ? [A1 A2]]; subst; inversion H2 as [|? ? ? ? [B1 B2]]; subst;
    inversion D1 as [|? ? ? ? [C1 C2]]; subst; inversion D2 as [|? ? ? ? [F1 F2]]; subst; inversion R as [|? ? ? ? [G1 G2]]; subst; [split; [constructor|reflexivity]|].
  inversion HP; inversion HT; inversion HK; subst. cbn [forallb] in *. apply andb_true_iff in O1, O2. destruct O1 as [O1 O1'], O2 as [O2 O2']. apply andb_true_iff in O1, O2. destruct O1, O2.
  edestruct IH as [I1 I2]; [assumption..| | | | | | | |]; [exact O1'|exact O2'|eassumption..|].
  split; [|cbn [map]; f_equal; [|exact I2]].
  - constructor; [|assumption]. split; [congruence|]. match goal with HX : Ps _ |- _ => eapply HX; eassumption end.
  - apply key_reads_iff in G1. rewrite <- C1, A1, key_back in G1 by assumption. congruence.
Qed.
Lemma ps_fields (fs : list (bytes * ty)) : forall vs, Forall Ps vs -> Forall2 (fun f v => has_type E (snd f) v) fs vs -> forall ts1 ts2 ds1 ds2,
  forallb (fun kt => str_ok (fst kt) && stree_ok (snd kt)) ts1 = true -> forallb (fun kt => str_ok (fst kt) && stree_ok (snd kt)) ts2 = true ->
  Forall2 (fun fv kt => fst kt = fst (fst fv) /\ Writes E (snd (fst fv)) (snd fv) (snd kt)) (combine fs vs) ts1 ->
  Forall2 (fun fv kt => fst kt = fst (fst fv) /\ Writes E (snd (fst fv)) (snd fv) (snd kt)) (combine fs vs) ts2 ->
  Forall2 (fun kt kd => fst kt = fst kd /\ RDoc (snd kt) (snd kd)) ts1 ds1 -> Forall2 (fun kt kd => fst kt = fst kd /\ RDoc (snd kt) (snd kd)) ts2 ds2 ->
  map fst ds1 = map fst fs /\ map fst ds2 = map fst fs /\
  forall i n T, nth_error fs i = Some (n, T) -> exists d1 d2, nth_error ds1 i = Some (n, d1) /\ nth_error ds2 i = Some (n, d2) /\ forall w, Reads E T d1 w -> Reads E T d2 w.
Proof.
  induction fs as [|[n T] fs IH]; intros vs HP HT ts1 ts2 ds1 ds2 O1 O2 H1 H2 D1 D2; inversion HT; subst; cbn [combine] in *.
  - inversion H1; subst; inversion H2; subst. inversion D1; inversion D2; subst. repeat split. intros [|i]; discriminate.
  - inversion H1 as [|? ? ? ? [A1 A2]]; subst; inversion H2 as [|? ? ? ? [B1 B2]]; subst; inversion D1 as [|? [k1 e1] ? ? [C1 C2]]; subst; inversion D2 as [|? [k2 e2] ? ? [F1 F2]]; subst.
    cbn [map fst snd forallb] in *. inversion HP; subst. apply andb_true_iff in O1, O2. destruct O1 as [O1 O1'], O2 as [O2 O2']. apply andb_true_iff in O1, O2. destruct O1, O2.
    match goal with HA : Forall2 _ (combine fs ?vs) ?ta, HB : Forall2 _ ?ta ?da, HA' : Forall2 _ (combine fs ?vs) ?tb, HB' : Forall2 _ ?tb ?db |- _ :: map fst ?da = _ /\ _ :: map fst ?db = _ /\ _ =>
      destruct (IH vs) with (ts1 := ta) (ts2 := tb) (ds1 := da) (ds2 := db) as (I1 & I2 & I3); auto end. split; [congruence|]. split; [congruence|].
    intros [|i] n' T' Hi; cbn [nth_error] in *.
    + injection Hi as <- <-. exists e1, e2. split; [congruence|]. split; [congruence|]. intros w Hw. match goal with HX : Ps _ |- _ => eapply HX; eassumption end.
    + apply I3, Hi.
Qed.
Theorem same_type_reads v : Ps v.
Proof.
  induction v as [|b|s|z|f|f|v IH| |v IH|a b IHa IHb|l IH|l IH|j|m|l|l|l IH|i] using val_ind'; intros T t1 t2 d1 d2 w HW D1 D2 H1 H2 O1 O2 HT;
    pose proof (same_value_teq E _ _ _ _ HT H1 H2) as HQT; pose proof (teq_deq ryu _ _ _ _ HQT D1 D2) as HQ; inversion H1; subst; inversion H2; subst;
    try (match goal with HX : RDoc ?t d1, HY : RDoc ?t d2 |- _ => rewrite <- (rdoc_fun t ltac:(assumption) d1 d2 HX HY) end; assumption).
  - inversion HT; subst. inversion HW; subst. constructor. eapply IH; eassumption.
  - inversion HT; subst. inversion HW; subst.
    + rewrite (proj1 (deq_null _ _ HQ) eq_refl). constructor.
    + constructor; [rewrite <- (deq_null _ _ HQ); assumption|]. eapply IH; eassumption.
  - inversion HT; subst. inversion D1 as [| | | | | | |? ds1 L1|]; subst. inversion D2 as [| | | | | | |? ds2 L2|]; subst. inversion HW; subst. cbn [stree_ok forallb] in *.
    apply andb_true_iff in O1, O2. destruct O1 as [O1 O1'], O2 as [O2 O2']. apply andb_true_iff in O1', O2'. destruct O1' as [O1' _], O2' as [O2' _].
    inversion L1 as [|? ? ? ? A1 L1']; subst. inversion L1' as [|? ? ? ? A2 L1'']; subst. inversion L2 as [|? ? ? ? B1 L2']; subst. inversion L2' as [|? ? ? ? B2 L2'']; subst. inversion L2''; subst.
    constructor; [eapply IHa; eassumption|eapply IHb; eassumption].
  - inversion HT; subst. inversion D1 as [| | | | | | |? ds1 L1|]; subst. inversion D2 as [| | | | | | |? ds2 L2|]; subst. inversion HW; subst. constructor.
    eapply (ps_list T0 l); eassumption.
  - inversion HT; subst. inversion D1 as [| | | | | | |? ds1 L1|]; subst. inversion D2 as [| | | | | | |? ds2 L2|]; subst. inversion HW; subst. constructor.
    + repeat match goal with HX : Forall2 _ _ _ |- _ => apply forall2_len in HX end. congruence.
    + eapply (ps_list T0 l); eassumption.
  - inversion HT as [| | | | | | | | | | | |? ? ? ? HS HK Hv| | | | | |]; subst.
    rename l0 into la, l1 into lb. rename ts0 into tb, ts into ta.
    assert (Pa : Permutation l la) by (destruct h; [assumption|subst; apply Permutation_refl]).
    assert (Pb : Permutation l lb) by (destruct h; [assumption|subst; apply Permutation_refl]).
    assert (Pab : Permutation la lb) by (eapply Permutation_trans; [apply Permutation_sym, Pa|exact Pb]).
    match goal with HX : Forall2 _ la ta |- _ => rename HX into Wa end. match goal with HX : Forall2 _ lb tb |- _ => rename HX into Wb end.
    inversion D1 as [| | | | | | | |? ds1 L1]; subst. inversion D2 as [| | | | | | | |? ds2 L2]; subst. inversion HW as [| | | | | | | | | | | | | |? ? ? ? kvs ? RM MM| | | | | | | |]; subst.
    destruct (Permutation_Forall2 Pab Wa) as (ta' & P1 & Wa'). destruct (Permutation_Forall2 P1 L1) as (ds1' & P2 & L1'). destruct (Permutation_Forall2 P2 RM) as (kvs' & P3 & RM').
    cbn [stree_ok] in O1, O2.
    assert (O1' : forallb (fun kt => str_ok (fst kt) && stree_ok (snd kt)) ta' = true).
    { apply forallb_forall. rewrite forallb_forall in O1. intros x Hx. apply O1. eapply Permutation_in; [apply Permutation_sym, P1|exact Hx]. }
    destruct (ps_members K T0 lb) with (ts1 := ta') (ts2 := tb) (ds1 := ds1') (ds2 := ds2) (ws := kvs') as [R2 K2]; auto; try (eapply Permutation_Forall; [exact Pb|assumption]).
    econstructor; [exact R2|]. eapply mapof_perm; [|exact P3|exact MM].
    eapply Permutation_NoDup; [apply Permutation_map, Permutation_sym, P3|]. rewrite K2. eapply Permutation_NoDup; [apply Permutation_map, Pb|]. eapply sorted_keys_nodup; eassumption.
  - inversion HT as [| | | | | | | | | | | | | | | | |? fs' ? EN HTs|]; subst.
    repeat match goal with HX : nth_error E id = Some (DStruct ?x), HY : nth_error E id = Some (DStruct ?y) |- _ => first [constr_eq x y; fail 1|rewrite HX in HY; injection HY as ->] end.
    inversion D1 as [| | | | | | | |? ds1 L1]; subst. inversion D2 as [| | | | | | | |? ds2 L2]; subst. cbn [stree_ok] in O1, O2.
    match goal with HX : nth_error E id = Some (DStruct ?x) |- _ => rename HX into EN; rename x into gs end.
    destruct (ps_fields gs l) with (ts1 := ts) (ts2 := ts0) (ds1 := ds1) (ds2 := ds2) as (K1 & K2 & KF); auto.
    pose proof (names_struct E HN id gs EN) as ND.
    assert (N1 : NoDup (map fst ds1)) by (rewrite K1; exact ND). assert (N2 : NoDup (map fst ds2)) by (rewrite K2; exact ND).
    assert (ALL : forall k d, In (k, d) ds2 -> exists i T d', nth_error gs i = Some (k, T) /\ In (k, d') ds1 /\ nth_error ds1 i = Some (k, d') /\ nth_error ds2 i = Some (k, d) /\ forall w, Reads E T d' w -> Reads E T d w).
    { intros k d Hin. apply In_nth_error in Hin. destruct Hin as [i Hi]. assert (Hk : nth_error (map fst gs) i = Some k) by (rewrite <- K2; apply (map_nth_error fst) in Hi; exact Hi).
      destruct (nth_error gs i) as [[k' T]|] eqn:Eg; [|apply nth_error_None in Eg; assert (nth_error (map fst gs) i = None) by (apply nth_error_None; rewrite map_length; exact Eg); congruence].
      apply (map_nth_error fst) in Eg as Eg'. rewrite Hk in Eg'. injection Eg' as ->. cbn [fst] in *. destruct (KF i _ _ Eg) as (e1 & e2 & X1 & X2 & X3).
      rewrite Hi in X2. injection X2 as <-. exists i, T, e1. split; [exact Eg|]. split; [eapply nth_error_In, X1|]. auto. }
    inversion HW as [| | | | | | | | | | | | | | | | | | | | |? gs' ? vs EN' F1 F2 F3 F4|]; subst. rewrite EN in EN'. injection EN' as <-.
    econstructor; [exact EN| | |exact F3|].
    + pose proof (fun d1 Hd => proj1 (Forall_forall _ _) F1 d1 Hd) as F1'. apply Forall_forall. intros [k d] Hin. cbn [snd].
      inversion HQ as [|?|? lp ? HP HD HFQ]; subst; [apply (F1' (k, d)), Hin|]. destruct (deq_in ds1 lp ds2 k d HP HFQ Hin) as (e & He & Q). eapply readable_deq; [exact Q|]. exact (F1' _ He).
    + intros k d i T Hin HFA. destruct (ALL k d Hin) as (j & T' & d' & Hj & Hin' & _ & _ & Tr). destruct HFA as [Hi HFA].
      assert (i = j) by exact (nodup_fst_nth _ _ _ _ _ _ ND Hi Hj). subst j. assert (T' = T) by congruence. subst T'.
      destruct (F2 k d' i T Hin' (conj Hi HFA)) as (x & Hx). exists x. apply Tr, Hx.
    + intros i n T x Hi Hx. destruct (KF i n T Hi) as (e1 & e2 & X1 & X2 & X3). destruct (F4 i n T x Hi Hx) as [(FA & d & HL & RR)|([N|N] & RR)].
      * left. split; [exact FA|]. exists e2. split; [apply nodup_last; [exact N2|eapply nth_error_In, X2]|]. apply X3.
        apply nodup_last in HL; [|exact N1]. apply In_nth_error in HL. destruct HL as [j Hj]. pose proof (nodup_fst_nth _ _ _ _ _ _ N1 Hj X1) as ->. congruence.
      * right. auto.
      * exfalso. apply (N e1). eapply nth_error_In, X1.
  - repeat match goal with HX : nth_error E id = Some ?x, HY : nth_error E id = Some ?y |- _ => first [constr_eq x y; fail 1|rewrite HX in HY; injection HY as ->] end.
    assert (s = s0) as -> by congruence. rewrite <- (rdoc_fun _ O1 d1 d2 D1 D2). exact HW.
Qed.
End Typed.
