(** The denotation [de] of an event tree is the reading relation on documents. *)
From Coq Require Import String ZArith List Bool Lia Floats.SpecFloat.
From Verif Require Import Base Utf8 F64 Lexer Driver Grammar LexSpec LexFacts RunFacts LexNumFacts Types Impls Tree DriverFacts
  GrammarFacts Denote HeapFacts HeapSeq HeapMap Reading MapFacts.
Import ListNotations.
Open Scope Z_scope.

(** ** Well-formed documents: digits are digits *)
Definition num_ok (n : numlit) : Prop := Forall digit (n_int n).
Fixpoint doc_ok (d : doc) : Prop :=
  match d with
  | DNum n => num_ok n
  | DArr l => (fix go l := match l with [] => True | d :: l' => doc_ok d /\ go l' end) l
  | DObj l => (fix go l := match l with [] => True | (_, d) :: l' => doc_ok d /\ go l' end) l
  | _ => True
  end.
Lemma doc_ok_arr l : doc_ok (DArr l) <-> Forall doc_ok l.
Proof. induction l as [|d l IH]; [split; constructor|]. split.
  - intros [H1 H2]. constructor; [exact H1|apply IH, H2].
  - intros H. inversion H; subst. split; [assumption|apply IH; assumption]. Qed.
Lemma doc_ok_obj l : doc_ok (DObj l) <-> Forall (fun kd => doc_ok (snd kd)) l.
Proof. induction l as [|[k d] l IH]; [split; constructor|]. split.
  - intros [H1 H2]. constructor; [exact H1|apply IH, H2].
  - intros H. inversion H; subst. split; [assumption|apply IH; assumption]. Qed.

Lemma text_doc_ok :
  (forall d s, VText d s -> doc_ok d) /\
  (forall l s, EText l s -> Forall doc_ok l) /\
  (forall l s, MText l s -> Forall (fun kd => doc_ok (snd kd)) l).
Proof.
  apply Text_mutind; intros; try exact I.
  - match goal with H : NumText _ _ |- _ => inversion H; subst end. apply IntDigits_digit. assumption.
  - apply doc_ok_arr. assumption.
  - apply doc_ok_obj. assumption.
  - constructor; [assumption|constructor].
  - constructor; assumption.
  - constructor; [assumption|constructor].
  - constructor; assumption.
Qed.
Lemma JText_doc_ok d s : JText d s -> doc_ok d.
Proof. intros (w1 & t & w2 & _ & _ & H & _). eapply text_doc_ok, H. Qed.

Lemma doc_ind' (P : doc -> Prop) :
  P DNull -> (forall b, P (DBool b)) -> (forall s, P (DStr s)) -> (forall n, P (DNum n)) ->
  (forall l, Forall P l -> P (DArr l)) ->
  (forall l, Forall (fun kd => P (snd kd)) l -> P (DObj l)) ->
  forall d, P d.
Proof.
  intros H1 H2 H3 H4 H5 H6. fix IH 1. intros [|b|s|n|l|l]; [exact H1|apply H2|apply H3|apply H4| |].
  - apply H5. induction l as [|t l IHl]; constructor; [apply IH|exact IHl].
  - apply H6. induction l as [|[k t] l IHl]; constructor; [apply IH|exact IHl].
Qed.

(** ** Integer literals *)
Lemma digits_acc r ds : Forall digit ds -> 0 <= r -> r <= fold_left (fun a d => a * 10 + d) ds r.
Proof.
  revert r. induction ds as [|d ds IH]; intros r H Hr; cbn [fold_left]; [lia|].
  inversion H as [|? ? Hd H']; subst. unfold digit in Hd. specialize (IH (r * 10 + d) H'). lia.
Qed.

Lemma acc_int_cases r ds : Forall digit ds -> 0 <= r ->
  let v := fold_left (fun a d => a * 10 + d) ds r in
  (v <= u64_MAX -> acc_int r ds = (v, [])) /\
  (u64_MAX < v -> r <= u64_MAX -> exists r' d rest, acc_int r ds = (r', d :: rest)).
Proof.
  revert r. induction ds as [|d ds IH]; intros r H Hr; cbn [fold_left acc_int].
  - split; [reflexivity|lia].
  - inversion H as [|? ? Hd H']; subst. unfold digit in Hd.
    assert (Hr' : 0 <= r * 10 + d) by lia.
    pose proof (digits_acc _ _ H' Hr') as L. destruct (IH _ H' Hr') as [IH1 IH2].
    assert (U : 0 <= u64_MAX) by (unfold u64_MAX; lia).
    split.
    + intros HV. rewrite (proj2 (overflow_false r d u64_MAX U Hd)) by lia. apply IH1, HV.
    + intros HV Hru. destruct (overflow r d u64_MAX) eqn:EO; [eauto|].
      apply (overflow_false r d u64_MAX U Hd) in EO. apply IH2; assumption.
Qed.

Lemma wrap_neg r : 0 <= r <= u64_MAX ->
  (r <= 9223372036854775808 -> wrap_s 64 (- wrap_s 64 r) = - r) /\
  (9223372036854775808 < r -> 0 < wrap_s 64 (- wrap_s 64 r)).
Proof.
  intros [H0 H1]. unfold wrap_s, u64_MAX in *. change (64 - 1) with 63.
  change (2 ^ 63) with 9223372036854775808. change (2 ^ 64) with 18446744073709551616.
  split; intros H.
  - destruct (Z.eq_dec r 9223372036854775808) as [->|]; [reflexivity|].
    rewrite (Z.mod_small (r + _)) by lia.
    rewrite Z.mod_small; lia.
  - replace (r + 9223372036854775808) with ((r - 9223372036854775808) + 1 * 18446744073709551616) by lia.
    rewrite Z_mod_plus_full. rewrite (Z.mod_small (r - _)) by lia.
    rewrite Z.mod_small by lia. lia.
Qed.

Lemma float_event_inv r ev : float_event r = Ok ev -> exists f, ev = EFloat f.
Proof. destruct r; cbn; intros H; try discriminate. injection H as <-. eauto. Qed.

Lemma lit_event_cases n : num_ok n ->
  (exists f, lit_event n = Ok (EFloat f)) \/ lit_event n = Err \/
  (n_neg n = false /\ lit_event n = Ok (ENonneg (lit_int n)) /\ reads_u n (lit_int n)) \/
  (n_neg n = true /\ lit_event n = Ok (ENeg (lit_int n)) /\ reads_i n (lit_int n)).
Proof.
  intros HN. pose proof (lit_event_nofault n) as NF.
  assert (FE : forall r, lit_event n = float_event r -> (exists f, lit_event n = Ok (EFloat f)) \/ lit_event n = Err).
  { intros r EQ. rewrite EQ in *. destruct r; cbn in *; eauto. destruct (NF f eq_refl). }
  destruct (acc_int_cases 0 (n_int n) HN ltac:(lia)) as [A1 A2].
  fold (digits_val (n_int n)) in *.
  destruct (Z_le_gt_dec (digits_val (n_int n)) u64_MAX) as [L|L].
  - specialize (A1 L). pose proof (digits_acc 0 _ HN ltac:(lia)) as L0. fold (digits_val (n_int n)) in L0.
    destruct (n_frac n) eqn:EF; [|destruct (n_exp n) eqn:EE].
    1,2: unfold lit_event in *; rewrite A1, EF in *; try rewrite EE in *;
      destruct (FE _ eq_refl); auto.
    destruct (wrap_neg (digits_val (n_int n)) ltac:(lia)) as [W1 W2].
    unfold lit_event. rewrite A1, EF, EE.
    unfold reads_u, reads_i, is_int_lit, lit_int. rewrite EF, EE.
    destruct (n_neg n) eqn:EN; cbn [negb].
    + destruct (Z_le_gt_dec (digits_val (n_int n)) 9223372036854775808) as [L1|L1].
      * rewrite W1 by exact L1. destruct (Z.ltb_spec 0 (- digits_val (n_int n))); [lia|].
        right. right. right. unfold i64_MIN. repeat split; lia.
      * specialize (W2 ltac:(lia)). destruct (Z.ltb_spec 0 (wrap_s 64 (- wrap_s 64 (digits_val (n_int n))))); [|lia].
        left. eauto.
    + right. right. left. repeat split; lia.
  - destruct A2 as (r' & d & rest & A2); [lia|unfold u64_MAX; lia|].
    unfold lit_event in *. rewrite A2 in *. destruct (FE _ eq_refl); auto.
Qed.

Lemma lit_event_u n z : num_ok n -> (lit_event n = Ok (ENonneg z) <-> reads_u n z).
Proof.
  intros HN. split.
  - intros HE. destruct (lit_event_cases n HN) as [[f H]|[H|[(_ & H & R)|(_ & H & _)]]]; rewrite H in HE; try discriminate.
    injection HE as <-. exact R.
  - intros ([E1 E2] & EN & -> & L). unfold lit_event, lit_int in *. rewrite EN in *. cbn [negb].
    rewrite (proj1 (acc_int_cases 0 (n_int n) HN ltac:(lia)) L). rewrite E1, E2. reflexivity.
Qed.
Lemma lit_event_i n z : num_ok n -> (lit_event n = Ok (ENeg z) <-> reads_i n z).
Proof.
  intros HN. split.
  - intros HE. destruct (lit_event_cases n HN) as [[f H]|[H|[(_ & H & _)|(_ & H & R)]]]; rewrite H in HE; try discriminate.
    injection HE as <-. exact R.
  - intros ([E1 E2] & EN & -> & L). unfold lit_event, lit_int in *. rewrite EN in *. cbn [negb].
    pose proof (digits_acc 0 _ HN ltac:(lia)) as L0. fold (digits_val (n_int n)) in L0.
    assert (L1 : digits_val (n_int n) <= u64_MAX) by (unfold i64_MIN, u64_MAX in *; lia).
    rewrite (proj1 (acc_int_cases 0 (n_int n) HN ltac:(lia)) L1). rewrite E1, E2.
    fold (digits_val (n_int n)). rewrite (proj1 (wrap_neg _ (conj L0 L1))) by (unfold i64_MIN in *; lia).
    destruct (Z.ltb_spec 0 (- digits_val (n_int n))); [lia|reflexivity].
Qed.

(** ** Lists *)
Lemma mapM_iff {A B} (f : A -> option B) l bs : mapM f l = Some bs <-> Forall2 (fun a b => f a = Some b) l bs.
Proof.
  revert bs. induction l as [|a l IH]; intros bs; cbn [mapM].
  - split; [intros [= <-]; constructor|]. intros H. inversion H. reflexivity.
  - split.
    + destruct (f a) as [b|] eqn:EF; [|discriminate]. destruct (mapM f l) as [bs'|]; [|discriminate].
      intros [= <-]. constructor; [exact EF|]. apply IH. reflexivity.
    + intros H. inversion H as [|? b ? bs' Hb Hbs]; subst. rewrite Hb. apply IH in Hbs. rewrite Hbs. reflexivity.
Qed.
Lemma trees_iff l ts : trees_of l = Some ts <-> Forall2 (fun d t => tree_of d = Some t) l ts.
Proof.
  revert ts. induction l as [|a l IH]; intros ts; cbn [trees_of].
  - split; [intros [= <-]; constructor|]. intros H. inversion H. reflexivity.
  - split.
    + destruct (tree_of a) as [b|] eqn:EF; [|discriminate]. destruct (trees_of l) as [bs'|]; [|discriminate].
      intros [= <-]. constructor; [exact EF|]. apply IH. reflexivity.
    + intros H. inversion H as [|? b ? bs' Hb Hbs]; subst. rewrite Hb. apply IH in Hbs. rewrite Hbs. reflexivity.
Qed.
Lemma mtrees_iff l ts : mtrees_of l = Some ts <->
  Forall2 (fun kd kt => fst kd = fst kt /\ tree_of (snd kd) = Some (snd kt)) l ts.
Proof.
  revert ts. induction l as [|[k a] l IH]; intros ts; cbn [mtrees_of].
  - split; [intros [= <-]; constructor|]. intros H. inversion H. reflexivity.
  - split.
    + destruct (tree_of a) as [b|] eqn:EF; [|discriminate]. destruct (mtrees_of l) as [bs'|]; [|discriminate].
      intros [= <-]. constructor; [split; [reflexivity|exact EF]|]. apply IH. reflexivity.
    + intros H. inversion H as [|? [k' b] ? bs' [Hk Hb] Hbs]; subst. cbn in Hk, Hb. subst k'. rewrite Hb.
      apply IH in Hbs. rewrite Hbs. reflexivity.
Qed.

Lemma forall2_trees {B} (R : doc -> B -> Prop) (f : ptree -> option B) l : forall bs,
  Forall (fun d => forall b, R d b <-> exists t, tree_of d = Some t /\ f t = Some b) l ->
  (Forall2 R l bs <-> exists ts, trees_of l = Some ts /\ mapM f ts = Some bs).
Proof.
  induction l as [|d l IH]; intros bs HF.
  - split.
    + intros H. inversion H. exists []. auto.
    + intros (ts & [= <-] & [= <-]). constructor.
  - inversion HF as [|? ? Hd HF']; subst. split.
    + intros H. inversion H as [|? b ? bs' Hb Hbs]; subst.
      apply Hd in Hb. destruct Hb as (t & Ht & Hf). apply IH in Hbs; [|exact HF'].
      destruct Hbs as (ts & Hts & Hm). exists (t :: ts). cbn [trees_of mapM].
      rewrite Ht, Hts, Hf, Hm. auto.
    + intros (ts & Hts & Hm). apply trees_cons in Hts. destruct Hts as (t & ts' & -> & Ht & Hts).
      cbn [mapM] in Hm. destruct (f t) as [b|] eqn:Ef; [|discriminate].
      destruct (mapM f ts') as [bs'|] eqn:Em; [|discriminate]. injection Hm as <-.
      constructor; [apply Hd; eauto|]. apply IH; [exact HF'|]. eauto.
Qed.
Lemma forall2_mtrees {B} (R : bytes * doc -> B -> Prop) (f : bytes * ptree -> option B) l : forall bs,
  Forall (fun kd => forall b, R kd b <-> exists t, tree_of (snd kd) = Some t /\ f (fst kd, t) = Some b) l ->
  (Forall2 R l bs <-> exists ts, mtrees_of l = Some ts /\ mapM f ts = Some bs).
Proof.
  induction l as [|[k d] l IH]; intros bs HF.
  - split.
    + intros H. inversion H. exists []. auto.
    + intros (ts & [= <-] & [= <-]). constructor.
  - inversion HF as [|? ? Hd HF']; subst. cbn [fst snd] in Hd. split.
    + intros H. inversion H as [|? b ? bs' Hb Hbs]; subst.
      apply Hd in Hb. destruct Hb as (t & Ht & Hf). apply IH in Hbs; [|exact HF'].
      destruct Hbs as (ts & Hts & Hm). exists ((k, t) :: ts). cbn [mtrees_of mapM].
      rewrite Ht, Hts, Hf, Hm. auto.
    + intros (ts & Hts & Hm). apply mtrees_cons in Hts. destruct Hts as (t & ts' & -> & Ht & Hts).
      cbn [mapM] in Hm. destruct (f (k, t)) as [b|] eqn:Ef; [|discriminate].
      destruct (mapM f ts') as [bs'|] eqn:Em; [|discriminate]. injection Hm as <-.
      constructor; [apply Hd; eauto|]. apply IH; [exact HF'|]. eauto.
Qed.

Lemma tree_complete d : forall t, tree_of d = Some t -> complete t = true.
Proof.
  induction d as [|b|s|n|l IH|l IH] using doc_ind'; intros t Ht.
  - injection Ht as <-. reflexivity.
  - injection Ht as <-. reflexivity.
  - injection Ht as <-. reflexivity.
  - cbn [tree_of] in Ht. destruct (lit_event n) as [ev| |] eqn:El; try discriminate. injection Ht as <-.
    apply lit_event_leaf in El. exact El.
  - rewrite tree_of_arr in Ht. destruct (trees_of l) as [ts|] eqn:Ets; [|discriminate]. injection Ht as <-.
    cbn [complete]. rewrite andb_true_r. apply trees_iff in Ets.
    induction Ets as [|d t l ts Hd _ IHl]; [reflexivity|]. inversion IH; subst. cbn [forallb].
    rewrite IHl by assumption. rewrite andb_true_r. auto.
  - rewrite tree_of_obj in Ht. destruct (mtrees_of l) as [ts|] eqn:Ets; [|discriminate]. injection Ht as <-.
    cbn [complete]. rewrite andb_true_r. apply mtrees_iff in Ets.
    induction Ets as [|d t l ts Hd _ IHl]; [reflexivity|]. inversion IH; subst. cbn [forallb].
    rewrite IHl by assumption. rewrite andb_true_r. destruct Hd. auto.
Qed.

Section Read.
Variable E : env.

Lemma de_value_seq ts : de E (PSeq ts true) TValue =
  option_map (fun l => VJson (JvArr l)) (mapM (fun x => obind (de E x TValue) as_json) ts).
Proof. reflexivity. Qed.
Lemma de_value_map ts : de E (PMap ts true) TValue = option_map (fun l => VJson (JvObj l)) (de_jobj (de E) ts).
Proof. reflexivity. Qed.

(** *** json::Value *)
Definition Pj (d : doc) : Prop := forall j,
  JReads d j <-> exists t, tree_of d = Some t /\ obind (de E t TValue) as_json = Some j.

Lemma jobj_iff l js : Forall (fun kd => Pj (snd kd)) l ->
  ((exists kvs, Forall2 (fun kd kj => fst kd = fst kj /\ JReads (snd kd) (snd kj)) l kvs /\ MapOf bytes_cmp kvs js)
   <-> exists ts, mtrees_of l = Some ts /\ de_jobj (de E) ts = Some js).
Proof.
  intros HP. unfold de_jobj.
  set (f := fun m : bytes * ptree => option_map (fun j => (fst m, j)) (obind (de E (snd m) TValue) as_json)).
  assert (K : forall kvs, Forall2 (fun (kd : bytes * doc) kj => fst kd = fst kj /\ JReads (snd kd) (snd kj)) l kvs <->
      exists ts, mtrees_of l = Some ts /\ mapM f ts = Some kvs).
  { intros kvs. apply forall2_mtrees. eapply Forall_impl; [|exact HP]. intros [k d] Hd [k' j]. cbn [fst snd].
    cbn [snd] in Hd. unfold f. cbn [fst snd]. rewrite (Hd j). split.
    - intros [<- (t & Ht & Hj)]. exists t. rewrite Hj. auto.
    - intros (t & Ht & Hj). destruct (obind (de E t TValue) as_json) as [j'|] eqn:Eo; [|discriminate]. injection Hj as <- <-.
      split; [reflexivity|]. exists t. split; [exact Ht|exact Eo]. }
  split.
  - intros (kvs & HF & HM). apply K in HF. destruct HF as (ts & Hts & Hm). exists ts. split; [exact Hts|].
    rewrite Hm. cbn. f_equal. symmetry. apply MapOf_bytes, HM.
  - intros (ts & Hts & Hm). destruct (mapM f ts) as [kvs|] eqn:EM; [|discriminate]. injection Hm as <-.
    exists kvs. split; [apply K; eauto|apply MapOf_bytes; reflexivity].
Qed.

Lemma jreads_de d : doc_ok d -> Pj d.
Proof.
  induction d as [|b|s|n|l IH|l IH] using doc_ind'; intros HO j.
  - split; [intros H; inversion H; exists (PLeaf ENull); auto|]. intros (t & [= <-] & [= <-]). constructor.
  - split; [intros H; inversion H; eexists; split; reflexivity|]. intros (t & [= <-] & [= <-]). constructor.
  - split; [intros H; inversion H; eexists; split; reflexivity|]. intros (t & [= <-] & [= <-]). constructor.
  - split.
    + intros H. inversion H as [| | |? z Hz|? z Hz|? f Hf| |]; subst.
      * apply (lit_event_u n z HO) in Hz. cbn [tree_of]. rewrite Hz. eexists. split; reflexivity.
      * apply (lit_event_i n z HO) in Hz. cbn [tree_of]. rewrite Hz. eexists. split; reflexivity.
      * cbn [tree_of]. rewrite Hf. eexists. split; reflexivity.
    + intros (t & Ht & Hd). cbn [tree_of] in Ht. destruct (lit_event n) as [ev| |] eqn:El; try discriminate.
      injection Ht as <-. destruct (lit_event_cases n HO) as [[f H]|[H|[(_ & H & R)|(_ & H & R)]]]; rewrite El in H;
        try discriminate; injection H as ->; injection Hd as <-.
      * apply jr_f. exact El.
      * apply jr_u, R.
      * apply jr_i, R.
  - apply doc_ok_arr in HO.
    assert (HP : Forall Pj l).
    { rewrite Forall_forall in *. intros d Hd. apply IH; auto. }
    pose proof (forall2_trees JReads (fun x => obind (de E x TValue) as_json) l) as K.
    rewrite tree_of_arr. split.
    + intros H. inversion H as [| | | | | |? js HF|]; subst. apply K in HF; [|exact HP].
      destruct HF as (ts & Hts & Hm). exists (PSeq ts true). rewrite Hts. split; [reflexivity|].
      rewrite de_value_seq, Hm. reflexivity.
    + intros (t & Ht & Hd). destruct (trees_of l) as [ts|] eqn:Ets; [|discriminate]. injection Ht as <-.
      rewrite de_value_seq in Hd. destruct (mapM _ ts) as [js|] eqn:Em; [|discriminate]. injection Hd as <-.
      apply jr_arr. apply K; eauto.
  - apply doc_ok_obj in HO.
    assert (HP : Forall (fun kd => Pj (snd kd)) l).
    { rewrite Forall_forall in *. intros d Hd. apply IH; auto. }
    rewrite tree_of_obj. split.
    + intros H. inversion H as [| | | | | | |? kvs m HF HM]; subst.
      destruct (proj1 (jobj_iff l m HP)) as (ts & Hts & Hm); [eauto|].
      exists (PMap ts true). rewrite Hts. split; [reflexivity|].
      rewrite de_value_map, Hm. reflexivity.
    + intros (t & Ht & Hd). destruct (mtrees_of l) as [ts|] eqn:Ets; [|discriminate]. injection Ht as <-.
      rewrite de_value_map in Hd. destruct (de_jobj _ ts) as [m|] eqn:Em; [|discriminate]. injection Hd as <-.
      destruct (proj2 (jobj_iff l m HP)) as (kvs & HF & HM); [eauto|].
      eapply jr_obj; eassumption.
Qed.

(** A document with a tree is readable. *)
Lemma mapM_total {A B} (f : A -> option B) l : Forall (fun a => exists b, f a = Some b) l -> exists bs, mapM f l = Some bs.
Proof.
  induction 1 as [|a l [b Hb] _ [bs IH]]; [exists []; reflexivity|].
  exists (b :: bs). cbn [mapM]. rewrite Hb, IH. reflexivity.
Qed.
Lemma tree_value d : forall t, tree_of d = Some t -> exists j, obind (de E t TValue) as_json = Some j.
Proof.
  induction d as [|b|s|n|l IH|l IH] using doc_ind'; intros t Ht.
  - injection Ht as <-. eexists. reflexivity.
  - injection Ht as <-. eexists. reflexivity.
  - injection Ht as <-. eexists. reflexivity.
  - cbn [tree_of] in Ht. destruct (lit_event n) as [ev| |] eqn:El; try discriminate. injection Ht as <-.
    apply lit_event_leaf in El. destruct ev; try discriminate; eexists; reflexivity.
  - rewrite tree_of_arr in Ht. destruct (trees_of l) as [ts|] eqn:Ets; [|discriminate]. injection Ht as <-.
    rewrite de_value_seq. destruct (mapM_total (fun x => obind (de E x TValue) as_json) ts) as [js Hjs].
    { apply trees_iff in Ets. induction Ets as [|d t l ts Hd _ IHl]; [constructor|]. inversion IH; subst.
      constructor; [auto|apply IHl; assumption]. }
    rewrite Hjs. eexists. reflexivity.
  - rewrite tree_of_obj in Ht. destruct (mtrees_of l) as [ts|] eqn:Ets; [|discriminate]. injection Ht as <-.
    rewrite de_value_map. unfold de_jobj.
    destruct (mapM_total (fun m : bytes * ptree => option_map (fun j => (fst m, j)) (obind (de E (snd m) TValue) as_json)) ts) as [js Hjs].
    { apply mtrees_iff in Ets. induction Ets as [|d t l ts Hd _ IHl]; [constructor|]. inversion IH; subst.
      constructor; [|apply IHl; assumption]. destruct Hd as [_ Hd]. destruct (H1 _ Hd) as [j ->]. eexists. reflexivity. }
    rewrite Hjs. eexists. reflexivity.
Qed.
Lemma readable_iff d : doc_ok d -> (readable d <-> exists t, tree_of d = Some t).
Proof.
  intros HO. split.
  - intros [j Hj]. apply jreads_de in Hj; [|exact HO]. destruct Hj as (t & Ht & _). eauto.
  - intros [t Ht]. destruct (tree_value d t Ht) as [j Hj]. exists j. apply jreads_de; eauto.
Qed.

(** *** Fields *)
Lemma find_name_spec k ns : forall i0 i, find_name k ns i0 = Some i <->
  exists m, i = (i0 + m)%nat /\ nth_error ns m = Some k /\ forall j, (j < m)%nat -> nth_error ns j <> Some k.
Proof.
  induction ns as [|n ns IH]; intros i0 i; cbn [find_name].
  - split; [discriminate|]. intros (m & _ & H & _). destruct m; discriminate.
  - destruct (bytes_eqb k n) eqn:EB.
    + apply bytes_eqb_eq in EB. subst n. split.
      * intros [= <-]. exists O. rewrite Nat.add_0_r. repeat split. intros j Hj. lia.
      * intros (m & -> & Hm & HN). destruct m as [|m]; [rewrite Nat.add_0_r; reflexivity|].
        destruct (HN O ltac:(lia)). reflexivity.
    + assert (k <> n) by (intros ->; rewrite (proj2 (bytes_eqb_eq n n) eq_refl) in EB; discriminate).
      rewrite IH. split.
      * intros (m & -> & Hm & HN). exists (S m). repeat split; [lia|exact Hm|].
        intros [|j] Hj; cbn; [congruence|]. apply HN. lia.
      * intros (m & -> & Hm & HN). destruct m as [|m]; [cbn in Hm; congruence|].
        exists m. repeat split; [lia|exact Hm|]. intros j Hj. apply (HN (S j)). lia.
Qed.
Lemma nth_map_fst {A B} (fs : list (A * B)) i k : nth_error (map fst fs) i = Some k <-> exists T, nth_error fs i = Some (k, T).
Proof.
  rewrite nth_error_map. destruct (nth_error fs i) as [[k' T]|]; cbn; split.
  - intros [= ->]. eauto.
  - intros [T' [= -> ->]]. reflexivity.
  - discriminate.
  - intros [T' H]. discriminate.
Qed.
Lemma find_name_field fs k i T : nth_error fs i = Some (k, T) ->
  (find_name k (map fst fs) 0 = Some i <-> FieldAt fs k i T).
Proof.
  intros HN. rewrite find_name_spec. unfold FieldAt. split.
  - intros (m & -> & Hm & HL). cbn in *. split; [exact HN|]. intros j T' Hj EQ.
    apply (HL j Hj). apply nth_map_fst. eauto.
  - intros [_ HL]. exists i. split; [reflexivity|]. split; [apply nth_map_fst; eauto|].
    intros j Hj EQ. apply nth_map_fst in EQ. destruct EQ as [T' EQ]. exact (HL _ _ Hj EQ).
Qed.
Lemma find_name_some fs k i : find_name k (map fst fs) 0 = Some i -> exists T, FieldAt fs k i T.
Proof.
  intros H. pose proof H as H'. apply find_name_spec in H'. destruct H' as (m & -> & Hm & _). cbn in *.
  apply nth_map_fst in Hm. destruct Hm as [T HT]. exists T. apply (find_name_field fs k m T HT). exact H.
Qed.
Lemma FieldAt_find fs k i T : FieldAt fs k i T -> find_name k (map fst fs) 0 = Some i /\ nth_error fs i = Some (k, T).
Proof. intros H. pose proof H as [HN _]. split; [apply (find_name_field _ _ _ _ HN), H|exact HN]. Qed.
Lemma find_name_variant ns k i : find_name k ns 0 = Some i <-> VariantAt ns k i.
Proof.
  rewrite find_name_spec. unfold VariantAt. split.
  - intros (m & -> & H). exact H.
  - intros H. exists i. auto.
Qed.

Lemma last_binding_cons {K A} (k : K) (a : A) l k1 a1 :
  last_binding ((k, a) :: l) k1 a1 <->
  last_binding l k1 a1 \/ (k1 = k /\ a1 = a /\ Forall (fun kv => fst kv <> k1) l).
Proof.
  split.
  - intros (l1 & l2 & EQ & HF). destruct l1 as [|x l1]; cbn in EQ; injection EQ.
    + intros -> -> ->. right. auto.
    + intros -> _ . left. exists l1, l2. auto.
  - intros [(l1 & l2 & -> & HF)|(-> & -> & HF)].
    + exists ((k, a) :: l1), l2. auto.
    + exists [], l. auto.
Qed.
Lemma last_binding_dec {A} (l : list (bytes * A)) k : (exists a, last_binding l k a) \/ Forall (fun kv => fst kv <> k) l.
Proof.
  induction l as [|[k' a'] l IH]; [right; constructor|].
  destruct IH as [[a H]|H].
  - left. exists a. apply last_binding_cons. auto.
  - destruct (bytes_eqb k k') eqn:EB.
    + apply bytes_eqb_eq in EB. subst k'. left. exists a'. apply last_binding_cons. auto.
    + right. constructor; [|exact H]. cbn. intros ->. rewrite (proj2 (bytes_eqb_eq k k) eq_refl) in EB. discriminate.
Qed.

Definition Pd (d : doc) : Prop := forall T v, ty_ok T = true ->
  (Reads E T d v <-> exists t, tree_of d = Some t /\ de E t T = Some v).

Lemma Pd_fun d T v v' : Pd d -> ty_ok T = true -> Reads E T d v -> Reads E T d v' -> v = v'.
Proof.
  intros HP HT H H'. apply HP in H; [|exact HT]. apply HP in H'; [|exact HT].
  destruct H as (t & Ht & H), H' as (t' & Ht' & H'). congruence.
Qed.

Section Struct.
Variable fs : list (bytes * ty).
Hypothesis Hfs : Forall (fun f => ty_ok (snd f) = true) fs.

Lemma field_ty_ok k i T : nth_error fs i = Some (k, T) -> ty_ok T = true.
Proof. intros H. apply nth_error_In in H. rewrite Forall_forall in Hfs. apply (Hfs _ H). Qed.

Definition members_readable (l : list (bytes * doc)) : Prop :=
  forall k d i T, In (k, d) l -> FieldAt fs k i T -> exists v, Reads E T d v.

Lemma de_fields_total l : forall mts st, mtrees_of l = Some mts -> Forall (fun kd => Pd (snd kd)) l ->
  members_readable l -> exists st', de_fields (de E) fs mts st = Some st'.
Proof.
  induction l as [|[k d] l IH]; intros mts st Hm HP HR.
  - injection Hm as <-. cbn. eauto.
  - apply mtrees_cons in Hm. destruct Hm as (t & ts & -> & Ht & Hts). inversion HP as [|? ? HPd HP']; subst. cbn [snd] in HPd.
    assert (HR' : members_readable l) by (intros k1 d1 i T Hin; apply HR; right; exact Hin).
    cbn [de_fields]. destruct (find_name k (map fst fs) 0) as [i|] eqn:EF.
    + destruct (find_name_some _ _ _ EF) as [T HF]. destruct (HR k d i T (or_introl eq_refl) HF) as [v Hv].
      pose proof (proj1 HF) as HN. rewrite HN.
      apply HPd in Hv; [|eapply field_ty_ok, HN]. destruct Hv as (t' & Ht' & Hv).
      rewrite Ht in Ht'. injection Ht' as <-. rewrite Hv. apply IH; assumption.
    + rewrite (tree_complete _ _ Ht). apply IH; assumption.
Qed.

Lemma de_fields_spec l : forall mts st st', mtrees_of l = Some mts -> Forall (fun kd => Pd (snd kd)) l ->
  List.length st = List.length fs ->
  de_fields (de E) fs mts st = Some st' ->
  List.length st' = List.length fs /\ members_readable l /\
  forall i n T, nth_error fs i = Some (n, T) ->
    (FieldAt fs n i T /\ exists d v, last_binding l n d /\ Reads E T d v /\ nth_error st' i = Some (Some v)) \/
    ((~ FieldAt fs n i T \/ forall d, ~ In (n, d) l) /\ nth_error st' i = nth_error st i).
Proof.
  induction l as [|[k d] l IH]; intros mts st st' Hm HP HL HD.
  - injection Hm as <-. cbn in HD. injection HD as <-. split; [exact HL|]. split; [intros k d i T []|].
    intros i n T HN. right. split; [right; intros d []|reflexivity].
  - apply mtrees_cons in Hm. destruct Hm as (t & ts & -> & Ht & Hts). inversion HP as [|? ? HPd HP']; subst. cbn [snd] in HPd.
    cbn [de_fields] in HD. destruct (find_name k (map fst fs) 0) as [i0|] eqn:EF.
    + destruct (find_name_some _ _ _ EF) as [T0 HF0]. pose proof (proj1 HF0) as HN0. rewrite HN0 in HD.
      destruct (de E t T0) as [v0|] eqn:EV; [|discriminate].
      assert (Hv0 : Reads E T0 d v0) by (apply HPd; [eapply field_ty_ok, HN0|eauto]).
      assert (L0 : (i0 < List.length st)%nat) by (rewrite HL; apply nth_error_Some; congruence).
      destruct (IH ts (upd st i0 (Some v0)) st' Hts HP') as (HL' & HR & HS); [rewrite upd_length; exact HL|exact HD|].
      split; [exact HL'|]. split.
      { intros k1 d1 i T [EQ|Hin] HF; [|eapply HR; eassumption]. injection EQ as <- <-.
        apply FieldAt_find in HF. destruct HF as [HF HN]. rewrite EF in HF. injection HF as <-.
        rewrite HN0 in HN. injection HN as <-. eauto. }
      intros i n T HN. destruct (HS i n T HN) as [(HF & d1 & v1 & HB & HV & HST)|(HO & HST)].
      * left. split; [exact HF|]. exists d1, v1. split; [apply last_binding_cons; auto|]. auto.
      * destruct (Nat.eq_dec i0 i) as [->|NE].
        -- rewrite HN0 in HN. injection HN as <- <-. left. split; [exact HF0|]. exists d, v0.
           split; [|split; [exact Hv0|rewrite HST; apply nth_upd, L0]].
           apply last_binding_cons. right. repeat split. destruct HO as [HO|HO]; [contradiction|].
           apply Forall_forall. intros [k1 d1] Hin. cbn. intros ->. exact (HO _ Hin).
        -- right. split; [|rewrite HST; apply nth_upd_other, NE].
           destruct HO as [HO|HO]; [left; exact HO|].
           destruct (bytes_eqb k n) eqn:EB.
           { apply bytes_eqb_eq in EB. subst n. left. intros HF. apply FieldAt_find in HF. destruct HF as [HF _]. congruence. }
           right. intros d1 [EQ|Hin]; [|exact (HO _ Hin)]. injection EQ as -> ->.
           rewrite (proj2 (bytes_eqb_eq n n) eq_refl) in EB. discriminate.
    + rewrite (tree_complete _ _ Ht) in HD.
      destruct (IH ts st st' Hts HP' HL HD) as (HL' & HR & HS).
      split; [exact HL'|]. split.
      { intros k1 d1 i T [EQ|Hin] HF; [|eapply HR; eassumption]. injection EQ as <- <-.
        apply FieldAt_find in HF. destruct HF as [HF _]. congruence. }
      intros i n T HN. destruct (HS i n T HN) as [(HF & d1 & v1 & HB & HV & HST)|(HO & HST)].
      * left. split; [exact HF|]. exists d1, v1. split; [apply last_binding_cons; auto|]. auto.
      * right. split; [|exact HST]. destruct HO as [HO|HO]; [left; exact HO|].
        destruct (bytes_eqb k n) eqn:EB.
        { apply bytes_eqb_eq in EB. subst n. left. intros HF. apply FieldAt_find in HF. destruct HF as [HF _]. congruence. }
        right. intros d1 [EQ|Hin]; [|exact (HO _ Hin)]. injection EQ as -> ->.
        rewrite (proj2 (bytes_eqb_eq n n) eq_refl) in EB. discriminate.
Qed.

Lemma read_all_iff st vs : read_all st = Some vs <-> st = map Some vs.
Proof.
  revert vs. induction st as [|[v|] st IH]; intros vs; cbn [read_all].
  - split; [intros [= <-]; reflexivity|]. destruct vs; [reflexivity|discriminate].
  - split.
    + destruct (read_all st) as [vs'|]; [|discriminate]. intros [= <-]. cbn. f_equal. apply IH. reflexivity.
    + destruct vs as [|v' vs]; [discriminate|]. cbn. intros [= -> EQ]. apply IH in EQ. rewrite EQ. reflexivity.
  - split; [discriminate|]. destruct vs; discriminate.
Qed.
Lemma nth_ext_eq {A} (l1 l2 : list A) : List.length l1 = List.length l2 ->
  (forall i a, nth_error l2 i = Some a -> nth_error l1 i = Some a) -> l1 = l2.
Proof.
  revert l2. induction l1 as [|a l1 IH]; intros [|b l2] HL H; try discriminate; [reflexivity|].
  f_equal.
  - specialize (H O b eq_refl). cbn in H. congruence.
  - apply IH; [cbn in HL; lia|]. intros i x Hx. apply (H (S i) x Hx).
Qed.

Lemma struct_iff l vs mts : mtrees_of l = Some mts -> Forall (fun kd => Pd (snd kd)) l ->
  (members_readable l /\ List.length vs = List.length fs /\
   (forall i n T v, nth_error fs i = Some (n, T) -> nth_error vs i = Some v ->
       (FieldAt fs n i T /\ exists d, last_binding l n d /\ Reads E T d v) \/
       ((~ FieldAt fs n i T \/ forall d, ~ In (n, d) l) /\
        (exists T', T = TOption T') /\ v = VNone))
   <-> obind (de_fields (de E) fs mts (map (fun f => default_slot (snd f)) fs)) read_all = Some vs).
Proof.
  intros Hm HP. set (st := map (fun f => default_slot (snd f)) fs).
  assert (HL : List.length st = List.length fs) by apply map_length.
  assert (Hst : forall i n T, nth_error fs i = Some (n, T) -> nth_error st i = Some (default_slot T)).
  { intros i n T HN. unfold st. rewrite nth_error_map, HN. reflexivity. }
  split.
  - intros (HR & HLv & HV). destruct (de_fields_total l mts st Hm HP HR) as [st' HD].
    rewrite HD. cbn [obind]. apply read_all_iff.
    destruct (de_fields_spec l mts st st' Hm HP HL HD) as (HL' & _ & HS).
    apply nth_ext_eq; [rewrite map_length; congruence|]. intros i ov Hov.
    rewrite nth_error_map in Hov. destruct (nth_error vs i) as [v|] eqn:EV; [|discriminate]. injection Hov as <-.
    assert (exists nT, nth_error fs i = Some nT) as [[n T] HN].
    { destruct (nth_error fs i) eqn:EN; [eauto|]. apply nth_error_None in EN.
      assert (nth_error vs i <> None) as K by congruence. apply nth_error_Some in K. lia. }
    destruct (HS i n T HN) as [(HF & d1 & v1 & HB & HV1 & HST)|(HO & HST)];
      destruct (HV i n T v HN EV) as [(HF' & d2 & HB' & HV2)|(HO' & [T' ->] & ->)].
    + rewrite HST. f_equal. f_equal. pose proof (last_binding_unique _ _ _ _ HB HB') as ->.
      eapply Pd_fun; [|eapply field_ty_ok, HN|eassumption|eassumption].
      apply last_binding_in in HB'. rewrite Forall_forall in HP. apply (HP _ HB').
    + exfalso. destruct HO' as [HO'|HO']; [contradiction|]. apply last_binding_in in HB. exact (HO' _ HB).
    + exfalso. destruct HO as [HO|HO]; [contradiction|]. apply last_binding_in in HB'. exact (HO _ HB').
    + rewrite HST, (Hst _ _ _ HN). reflexivity.
  - intros HD. destruct (de_fields (de E) fs mts st) as [st'|] eqn:ED; [|discriminate]. cbn [obind] in HD.
    destruct (de_fields_spec l mts st st' Hm HP HL ED) as (HL' & HR & HS).
    apply read_all_iff in HD. split; [exact HR|]. split; [subst st'; rewrite map_length in HL'; exact HL'|].
    intros i n T v HN HV. assert (HST' : nth_error st' i = Some (Some v)) by (subst st'; rewrite nth_error_map, HV; reflexivity).
    destruct (HS i n T HN) as [(HF & d1 & v1 & HB & HV1 & HST)|(HO & HST)].
    + left. split; [exact HF|]. exists d1. split; [exact HB|]. congruence.
    + right. split; [exact HO|]. rewrite HST, (Hst _ _ _ HN) in HST'.
      destruct T; try discriminate. injection HST' as <-. eauto.
Qed.
End Struct.

(** *** All types *)
Lemma wrap_lift d :
  (forall T v, wraps T = O -> ty_ok T = true -> (Reads E T d v <-> exists t, tree_of d = Some t /\ de E t T = Some v)) ->
  Pd d.
Proof.
  intros HC T. induction T; intros v HT; try (apply HC; [reflexivity|exact HT]).
  - (* Box *) cbn [ty_ok] in HT. split.
    + intros H. inversion H as [| | | | | | | |? ? v' Hv| | | | | | | | | | | | | |]; subst.
      apply IHT in Hv; [|exact HT]. destruct Hv as (t & Ht & Hd). exists t. split; [exact Ht|].
      destruct t; cbn [de de_wrap is_null] in *; rewrite Hd; reflexivity.
    + intros (t & Ht & Hd).
      assert (exists v', de E t T = Some v' /\ v = VBox v') as (v' & Hv' & ->).
      { destruct t; cbn [de de_wrap is_null] in *;
          match type of Hd with option_map VBox ?x = _ => destruct x; [|discriminate] end;
          injection Hd as <-; eauto. }
      apply rd_box. apply IHT; eauto.
  - (* Option *) cbn [ty_ok] in HT.
    assert (NUL : forall t, tree_of d = Some t -> is_null t = true <-> d = DNull).
    { intros t Ht. destruct d; cbn [tree_of] in Ht;
        try (injection Ht as <-; cbn; split; (reflexivity || discriminate)).
      - destruct (lit_event n) as [ev| |] eqn:El; try discriminate. injection Ht as <-.
        split; [|discriminate]. destruct ev; try discriminate. exfalso. clear -El. revert El. unfold lit_event.
        destruct (acc_int 0 (n_int n)) as [r [|d0 rest]].
        + destruct (n_frac n), (n_exp n); try (unfold float_event; destruct (frac_float _ _ _ _ _); discriminate).
          destruct (negb (n_neg n)); [discriminate|]. destruct (0 <? _); discriminate.
        + unfold float_event; destruct (frac_float _ _ _ _ _); discriminate.
      - fold (trees_of l) in Ht. match type of Ht with option_map _ ?x = _ => destruct x; [|discriminate] end.
        injection Ht as <-. split; discriminate.
      - match type of Ht with option_map _ ?x = _ => destruct x; [|discriminate] end.
        injection Ht as <-. split; discriminate. }
    split.
    + intros H. inversion H as [| | | | | | | | | |? ? v' ND Hv| | | | | | | | | | | |]; subst.
      * exists (PLeaf ENull). split; reflexivity.
      * apply IHT in Hv; [|exact HT]. destruct Hv as (t & Ht & Hd). exists t. split; [exact Ht|].
        assert (is_null t = false).
        { destruct (is_null t) eqn:EN; [|reflexivity]. apply (NUL t Ht) in EN. contradiction. }
        destruct t; cbn [de de_wrap is_null] in *; try rewrite H0 in *; rewrite Hd; reflexivity.
    + intros (t & Ht & Hd). destruct (is_null t) eqn:EN.
      * pose proof (proj1 (NUL t Ht) EN) as ->. injection Ht as <-. injection Hd as <-. apply rd_none.
      * assert (exists v', de E t T = Some v' /\ v = VSome v') as (v' & Hv' & ->).
        { destruct t; cbn [de de_wrap is_null] in *; try rewrite EN in *;
            match type of Hd with option_map VSome ?x = _ => destruct x; [|discriminate] end;
            injection Hd as <-; eauto. }
        apply rd_some; [|apply IHT; eauto]. intros ->. injection Ht as <-. discriminate.
Qed.
End Read.
