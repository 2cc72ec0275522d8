(** [de] on the tree of a document is the relation [Reads]. *)
From Coq Require Import String ZArith List Bool Lia Floats.SpecFloat.
From Verif Require Import Base Utf8 F64 Lexer Driver Grammar LexSpec LexFacts RunFacts LexNumFacts Types Impls Tree DriverFacts
  GrammarFacts Denote HeapFacts HeapSeq HeapMap Reading MapFacts ReadFacts.
Import ListNotations.
Open Scope Z_scope.

Lemma bits_ok_cases b : bits_ok b = true -> b = 8 \/ b = 16 \/ b = 32 \/ b = 64.
Proof. unfold bits_ok. rewrite !orb_true_iff, !Z.eqb_eq. tauto. Qed.

Lemma wrap_s_id b z : bits_ok b = true -> int_min true b <= z <= int_max true b -> wrap_s b z = z.
Proof.
  intros HB [H1 H2]. unfold wrap_s, int_min, int_max in *.
  apply bits_ok_cases in HB. destruct HB as [->|[->|[->| ->]]];
    cbn [Z.sub Z.pos_sub Z.add Z.opp Pos.pred_double] in *;
    match goal with |- context [2 ^ ?x] => let v := eval compute in (2 ^ x) in change (2 ^ x) with v in * end;
    match goal with |- context [2 ^ ?x] => let v := eval compute in (2 ^ x) in change (2 ^ x) with v in * end;
    rewrite Z.mod_small by lia; lia.
Qed.
Lemma wrap_u_id b z : bits_ok b = true -> 0 <= z <= int_max false b -> wrap_u b z = z.
Proof.
  intros HB [H1 H2]. unfold wrap_u, int_max in *. apply Z.mod_small. lia.
Qed.
Lemma int_range sg b : bits_ok b = true -> i64_MIN <= int_min sg b <= 0 /\ 0 < int_max sg b <= u64_MAX.
Proof.
  intros HB. unfold int_min, int_max, i64_MIN, u64_MAX. apply bits_ok_cases in HB.
  destruct HB as [->|[->|[->| ->]]]; destruct sg; cbn; lia.
Qed.

Section Main.
Variable E : env.
Hypothesis HE : env_ok E = true.

Lemma env_fields id fs : nth_error E id = Some (DStruct fs) -> Forall (fun f => ty_ok (snd f) = true) fs.
Proof.
  intros H. apply nth_error_In in H. unfold env_ok in HE. rewrite forallb_forall in HE. apply HE in H.
  rewrite forallb_forall in H. apply Forall_forall. exact H.
Qed.

(** Number literals as integers: what the event says. *)
Lemma int_lit_iff sg b n z : num_ok n -> bits_ok b = true ->
  (exists ev, lit_event n = Ok ev /\ leaf_prim E (TInt sg b) ev = Ok (VInt z)) <->
  (is_int_lit n /\ (n_neg n = true -> sg = true) /\ z = lit_int n /\ int_min sg b <= z <= int_max sg b).
Proof.
  intros HN HB. pose proof (int_range sg b HB) as HR.
  pose proof (digits_acc 0 (n_int n) HN ltac:(lia)) as HD. fold (digits_val (n_int n)) in HD.
  split.
  - intros (ev & He & Hl).
    destruct (lit_event_cases n HN) as [[f H]|[H|[(Hn & H & R)|(Hn & H & R)]]]; rewrite He in H; try discriminate;
      injection H as ->.
    + destruct sg; discriminate.
    + destruct R as (HI & _ & _ & HM). unfold lit_int in *. rewrite Hn in *.
      destruct sg; cbn [leaf_prim] in Hl.
      * destruct (Z.leb_spec (digits_val (n_int n)) (int_max true b)) as [L|]; [|discriminate].
        rewrite wrap_s_id in Hl by (auto; lia). injection Hl as <-. repeat split; try apply HI; try discriminate; lia.
      * destruct (Z.leb_spec (digits_val (n_int n)) (int_max false b)) as [L|]; [|discriminate].
        rewrite wrap_u_id in Hl by (auto; lia). injection Hl as <-. repeat split; try apply HI; try discriminate; lia.
    + destruct R as (HI & _ & _ & HM). unfold lit_int in *. rewrite Hn in *.
      destruct sg; cbn [leaf_prim] in Hl; [|discriminate].
      destruct (Z.leb_spec (int_min true b) (- digits_val (n_int n))) as [L|]; [|discriminate].
      rewrite wrap_s_id in Hl by (auto; lia). injection Hl as <-. repeat split; try apply HI; lia.
  - intros (HI & HS & -> & HM). unfold lit_int in *. destruct (n_neg n) eqn:Hn.
    + rewrite HS in * by reflexivity.
      exists (ENeg (- digits_val (n_int n))). split.
      * apply lit_event_i; [exact HN|]. unfold reads_i, lit_int. rewrite Hn. repeat split; try apply HI. lia.
      * cbn [leaf_prim]. destruct (Z.leb_spec (int_min true b) (- digits_val (n_int n))); [|lia].
        rewrite wrap_s_id by assumption. reflexivity.
    + exists (ENonneg (digits_val (n_int n))). split.
      * apply lit_event_u; [exact HN|]. unfold reads_u, lit_int. rewrite Hn. repeat split; try apply HI. lia.
      * destruct sg; cbn [leaf_prim].
        -- destruct (Z.leb_spec (digits_val (n_int n)) (int_max true b)); [|lia].
           rewrite wrap_s_id by assumption. reflexivity.
        -- destruct (Z.leb_spec (digits_val (n_int n)) (int_max false b)); [|lia].
           rewrite wrap_u_id by (auto; lia). reflexivity.
Qed.

Lemma de_leaf ev T : wraps T = O -> de E (PLeaf ev) T = opt (leaf_prim E T ev).
Proof. destruct T; try discriminate; reflexivity. Qed.

Lemma num_core n T v : num_ok n -> wraps T = O -> ty_ok T = true ->
  (Reads E T (DNum n) v <-> exists t, tree_of (DNum n) = Some t /\ de E t T = Some v).
Proof.
  intros HN HW HT.
  assert (TR : (exists t, tree_of (DNum n) = Some t /\ de E t T = Some v) <->
               exists ev, lit_event n = Ok ev /\ leaf_prim E T ev = Ok v).
  { cbn [tree_of]. split.
    - intros (t & Ht & Hd). destruct (lit_event n) as [ev| |]; try discriminate. injection Ht as <-.
      rewrite de_leaf in Hd by exact HW. destruct (leaf_prim E T ev) eqn:El; try discriminate. injection Hd as <-. eauto.
    - intros (ev & He & Hl). rewrite He. exists (PLeaf ev). split; [reflexivity|]. rewrite de_leaf by exact HW.
      rewrite Hl. reflexivity. }
  rewrite TR. clear TR. split.
  - intros H. inversion H; subst; try discriminate HW;
      repeat match goal with
      | H : reads_u _ _ |- _ => apply (lit_event_u _ _ HN) in H
      | H : reads_i _ _ |- _ => apply (lit_event_i _ _ HN) in H
      | H : _ \/ _ |- _ => destruct H
      end; try (eexists; split; [eassumption|reflexivity]).
    + apply (int_lit_iff sg b n (lit_int n) HN HT). auto.
    + inversion H0; subst;
      repeat match goal with
      | H : reads_u _ _ |- _ => apply (lit_event_u _ _ HN) in H
      | H : reads_i _ _ |- _ => apply (lit_event_i _ _ HN) in H
      end; eexists; (split; [eassumption|reflexivity]).
  - intros (ev & He & Hl).
    destruct T; try discriminate HW; try (exfalso; revert He Hl;
      destruct (lit_event_cases n HN) as [[f ->]|[->|[(_ & -> & _)|(_ & -> & _)]]]; intros [= <-]; discriminate).
    + assert (exists z, v = VInt z) as [z ->].
      { clear He. cbn in Hl. destruct signed, ev; try discriminate;
          destruct (_ <=? _); try discriminate; injection Hl as <-; eauto. }
      destruct (proj1 (int_lit_iff signed bits n z HN HT)) as (HI & HS & -> & HR); [eauto|].
      apply rd_int; assumption.
    + destruct (lit_event_cases n HN) as [[f H]|[H|[(_ & H & R)|(_ & H & R)]]]; rewrite He in H; try discriminate;
        injection H as ->; injection Hl as <-.
      * apply rd_f32. exact He.
      * apply rd_f32_int. auto.
      * apply rd_f32_int. auto.
    + destruct (lit_event_cases n HN) as [[f H]|[H|[(_ & H & R)|(_ & H & R)]]]; rewrite He in H; try discriminate;
        injection H as ->; injection Hl as <-.
      * apply rd_f64. exact He.
      * apply rd_f64_int. auto.
      * apply rd_f64_int. auto.
    + destruct (lit_event_cases n HN) as [[f H]|[H|[(_ & H & R)|(_ & H & R)]]]; rewrite He in H; try discriminate;
        injection H as ->; injection Hl as <-.
      * apply rd_value, jr_f. exact He.
      * apply rd_value, jr_u. exact R.
      * apply rd_value, jr_i. exact R.
    + destruct (lit_event_cases n HN) as [[f H]|[H|[(_ & H & R)|(_ & H & R)]]]; rewrite He in H; try discriminate;
        injection H as ->; injection Hl as <-.
      * apply rd_num_f. exact He.
      * apply rd_num_u. exact R.
      * apply rd_num_i. exact R.
Qed.

Lemma value_core d v : doc_ok d -> (Reads E TValue d v <-> exists t, tree_of d = Some t /\ de E t TValue = Some v).
Proof.
  intros HO. split.
  - intros H. inversion H; subst. match goal with HJ : JReads _ _ |- _ => apply (jreads_de E d HO) in HJ; destruct HJ as (t & Ht & Hj) end. exists t.
    split; [exact Ht|]. destruct (de E t TValue) as [w|]; [|discriminate]. destruct w; try discriminate.
    injection Hj as ->. reflexivity.
  - intros (t & Ht & Hd). destruct (tree_value E d t Ht) as [j Hj].
    rewrite Hd in Hj. destruct v; try discriminate. injection Hj as ->.
    apply rd_value. apply (jreads_de E d HO). exists t. rewrite Hd. auto.
Qed.

Lemma arr_core l T v : Forall doc_ok l -> Forall (Pd E) l -> wraps T = O -> ty_ok T = true ->
  (Reads E T (DArr l) v <-> exists t, tree_of (DArr l) = Some t /\ de E t T = Some v).
Proof.
  intros HO HP HW HT.
  assert (TR : (exists t, tree_of (DArr l) = Some t /\ de E t T = Some v) <->
               exists ts, trees_of l = Some ts /\ de_seq (de E) T ts = Some v).
  { rewrite tree_of_arr. split.
    - intros (t & Ht & Hd). destruct (trees_of l) as [ts|]; [|discriminate]. injection Ht as <-.
      exists ts. split; [reflexivity|]. destruct T; try discriminate HW; exact Hd.
    - intros (ts & Hts & Hd). rewrite Hts. exists (PSeq ts true). split; [reflexivity|].
      destruct T; try discriminate HW; exact Hd. }
  assert (K : forall t, ty_ok t = true -> forall vs, Forall2 (Reads E t) l vs <->
     exists ts, trees_of l = Some ts /\ mapM (fun x => de E x t) ts = Some vs).
  { intros t Ht vs. apply forall2_trees. eapply Forall_impl; [|exact HP]. intros d Hd b. apply Hd, Ht. }
  destruct (Z.eq_dec 0 0); [|lia].
  destruct T; try discriminate HW;
    try (rewrite TR; split; [intros H; inversion H|intros (ts & _ & Hd); discriminate Hd]; fail).
  - (* pair *) cbn [ty_ok] in HT. apply andb_true_iff in HT. destruct HT as [HT1 HT2].
    rewrite TR. split.
    + intros H. inversion H as [| | | | | | | | | | |? ? d1 d2 a b Ha Hb| | | | | | | | | | |]; subst.
      inversion HP as [|? ? P1 HP']; subst. inversion HP' as [|? ? P2 _]; subst.
      apply P1 in Ha; [|exact HT1]. apply P2 in Hb; [|exact HT2].
      destruct Ha as (t1 & Ht1 & Ha), Hb as (t2 & Ht2 & Hb).
      exists [t1; t2]. cbn [trees_of de_seq]. rewrite Ht1, Ht2, Ha, Hb. auto.
    + intros (ts & Hts & Hd). destruct ts as [|t1 [|t2 [|]]]; try discriminate. cbn [de_seq] in Hd.
      destruct l as [|d1 [|d2 [|d3 l]]].
      * discriminate.
      * cbn in Hts. destruct (tree_of d1); discriminate.
      * apply trees_cons in Hts. destruct Hts as (x1 & ts1 & EQ & Ht1 & Hts).
        apply trees_cons in Hts. destruct Hts as (x2 & ts2 & EQ2 & Ht2 & Hts).
        injection Hts as <-. subst ts1. injection EQ as <- <-.
        destruct (de E t1 T1) as [a|] eqn:Ea; [|discriminate]. destruct (de E t2 T2) as [b|] eqn:Eb; [|discriminate].
        injection Hd as <-.
        inversion HP as [|? ? P1 HP']; subst. inversion HP' as [|? ? P2 _]; subst.
        apply rd_pair; [apply P1|apply P2]; eauto.
      * exfalso. apply trees_cons in Hts. destruct Hts as (x1 & ts1 & EQ & _ & Hts).
        apply trees_cons in Hts. destruct Hts as (x2 & ts2 & EQ2 & _ & Hts).
        apply trees_cons in Hts. destruct Hts as (x3 & ts3 & EQ3 & _). subst. discriminate.
  - (* vec *) cbn [ty_ok] in HT. rewrite TR. split.
    + intros H. inversion H as [| | | | | | | | | | | |? ? vs HF| | | | | | | | | |]; subst. apply (K T HT) in HF.
      destruct HF as (ts & Hts & Hm). exists ts. split; [exact Hts|]. cbn [de_seq]. rewrite Hm. reflexivity.
    + intros (ts & Hts & Hd). cbn [de_seq] in Hd. destruct (mapM _ ts) as [vs|] eqn:Em; [|discriminate].
      injection Hd as <-. apply rd_vec. apply (K T HT). eauto.
  - (* array *) cbn [ty_ok] in HT. rewrite TR.
    assert (LEN : forall ts, trees_of l = Some ts -> List.length ts = List.length l).
    { intros ts Hts. apply trees_iff in Hts. clear -Hts. induction Hts; cbn [List.length]; congruence. }
    split.
    + intros H. inversion H as [| | | | | | | | | | | | |? ? ? vs HL HF| | | | | | | | |]; subst. apply (K T HT) in HF.
      destruct HF as (ts & Hts & Hm). exists ts. split; [exact Hts|]. cbn [de_seq].
      rewrite (LEN _ Hts), Nat.eqb_refl, Hm. reflexivity.
    + intros (ts & Hts & Hd). cbn [de_seq] in Hd. rewrite (LEN _ Hts) in Hd.
      destruct (Nat.eqb_spec (List.length l) n); [|discriminate].
      destruct (mapM _ ts) as [vs|] eqn:Em; [|discriminate].
      injection Hd as <-. apply rd_arr; [assumption|]. apply (K T HT). eauto.
  - apply value_core. apply doc_ok_arr, HO.
  - (* Array *) rewrite TR. pose proof (jreads_de E (DArr l) (proj2 (doc_ok_arr l) HO)) as HJ. split.
    + intros H. inversion H as [| | | | | | | | | | | | | | | | | | |? js HF| | |]; subst. apply HJ in HF.
      destruct HF as (t & Ht & Hd). rewrite tree_of_arr in Ht. destruct (trees_of l) as [ts|]; [|discriminate].
      injection Ht as <-. exists ts. split; [reflexivity|]. rewrite de_value_seq in Hd. cbn [de_seq].
      destruct (mapM _ ts); [|discriminate]. injection Hd as ->. reflexivity.
    + intros (ts & Hts & Hd). cbn [de_seq] in Hd. destruct (mapM _ ts) as [js|] eqn:Em; [|discriminate].
      injection Hd as <-. apply rd_array. apply HJ. exists (PSeq ts true). rewrite tree_of_arr, Hts.
      split; [reflexivity|]. rewrite de_value_seq, Em. reflexivity.
Qed.

Lemma obj_core l T v : Forall (fun kd => doc_ok (snd kd)) l -> Forall (fun kd => Pd E (snd kd)) l -> wraps T = O -> ty_ok T = true ->
  (Reads E T (DObj l) v <-> exists t, tree_of (DObj l) = Some t /\ de E t T = Some v).
Proof.
  intros HO HP HW HT.
  assert (TR : (exists t, tree_of (DObj l) = Some t /\ de E t T = Some v) <->
               exists ts, mtrees_of l = Some ts /\ de_map E (de E) T ts = Some v).
  { rewrite tree_of_obj. split.
    - intros (t & Ht & Hd). destruct (mtrees_of l) as [ts|]; [|discriminate]. injection Ht as <-.
      exists ts. split; [reflexivity|]. destruct T; try discriminate HW; exact Hd.
    - intros (ts & Hts & Hd). rewrite Hts. exists (PMap ts true). split; [reflexivity|].
      destruct T; try discriminate HW; exact Hd. }
  destruct T; try discriminate HW;
    try (rewrite TR; split; [intros H; inversion H|intros (ts & _ & Hd); discriminate Hd]; fail).
  - (* map *) cbn [ty_ok] in HT. apply andb_true_iff in HT. destruct HT as [_ HT].
    rewrite TR. cbn [de_map].
    set (f := fun m : bytes * ptree => match key_from_str k (fst m), de E (snd m) T with
                                       | Some k, Some v => Some (k, v) | _, _ => None end).
    assert (K : forall kvs, Forall2 (fun (kd : bytes * doc) kv => KeyReads k (fst kd) (fst kv) /\ Reads E T (snd kd) (snd kv)) l kvs
       <-> exists ts, mtrees_of l = Some ts /\ mapM f ts = Some kvs).
    { intros kvs. apply forall2_mtrees. eapply Forall_impl; [|exact HP]. intros [k0 d] Hd [kv w]. cbn [fst snd] in *.
      rewrite (Hd T w HT). unfold f. cbn [fst snd]. split.
      - intros [Hk (t & Ht & Hw)]. exists t. apply key_reads_iff in Hk. rewrite Hk, Hw. auto.
      - intros (t & Ht & Hw). destruct (key_from_str k k0) as [kv'|] eqn:EK; [|discriminate].
        destruct (de E t T) as [w'|] eqn:Ew; [|discriminate]. injection Hw as -> ->. apply key_reads_iff in EK. eauto. }
    assert (KK : forall kvs, Forall2 (fun (kd : bytes * doc) kv => KeyReads k (fst kd) (fst kv) /\ Reads E T (snd kd) (snd kv)) l kvs
       -> Forall (fun kv => key_kind k (fst kv)) kvs).
    { intros kvs HF. clear -HF. induction HF as [|x y l kvs [Hk _] _ IH]; constructor; [eapply key_from_str_kind, key_reads_iff, Hk|exact IH]. }
    split.
    + intros H. inversion H as [| | | | | | | | | | | | | |? ? ? ? kvs m HF HM| | | | | | | |]; subst.
      pose proof (KK _ HF) as HKK. apply K in HF. destruct HF as (ts & Hts & Hm). exists ts. split; [exact Hts|].
      rewrite Hm. cbn [option_map]. f_equal. f_equal. symmetry. apply (MapOf_key k); assumption.
    + intros (ts & Hts & Hd). destruct (mapM f ts) as [kvs|] eqn:Em; [|discriminate]. injection Hd as <-.
      assert (HF : Forall2 (fun (kd : bytes * doc) kv => KeyReads k (fst kd) (fst kv) /\ Reads E T (snd kd) (snd kv)) l kvs)
        by (apply K; eauto).
      eapply rd_map; [exact HF|]. apply (MapOf_key k); [apply KK, HF|reflexivity].
  - apply value_core. apply doc_ok_obj, HO.
  - (* Object *) rewrite TR. pose proof (jreads_de E (DObj l) (proj2 (doc_ok_obj l) HO)) as HJ. cbn [de_map]. split.
    + intros H. inversion H as [| | | | | | | | | | | | | | | | | | | |? m HF| |]; subst. apply HJ in HF.
      destruct HF as (t & Ht & Hd). rewrite tree_of_obj in Ht. destruct (mtrees_of l) as [ts|]; [|discriminate].
      injection Ht as <-. exists ts. split; [reflexivity|]. rewrite de_value_map in Hd.
      destruct (de_jobj _ ts); [|discriminate]. injection Hd as ->. reflexivity.
    + intros (ts & Hts & Hd). destruct (de_jobj _ ts) as [m|] eqn:Em; [|discriminate].
      injection Hd as <-. apply rd_object. apply HJ. exists (PMap ts true). rewrite tree_of_obj, Hts.
      split; [reflexivity|]. rewrite de_value_map, Em. reflexivity.
  - (* derived *) rewrite TR. cbn [de_map]. split.
    + intros H. inversion H as [| | | | | | | | | | | | | | | | | | | | |? fs ? vs HN HRd HR HL HV|]; subst.
      rewrite HN.
      assert (exists ts, mtrees_of l = Some ts) as [ts Hts].
      { clear -E HO HRd. induction l as [|[k d] l IH]; [exists []; reflexivity|].
        inversion HO; subst. inversion HRd; subst. destruct IH as [ts Hts]; try assumption.
        cbn [snd] in *. apply (readable_iff E) in H3; [|assumption]. destruct H3 as [t Ht].
        exists ((k, t) :: ts). cbn. rewrite Ht, Hts. reflexivity. }
      exists ts. split; [exact Hts|].
      pose proof (proj1 (struct_iff E fs (env_fields _ _ HN) l vs ts Hts HP) (conj HR (conj HL HV))) as HD.
      destruct (de_fields (de E) fs ts _) as [st|]; [|discriminate]. cbn [obind] in *. rewrite HD. reflexivity.
    + intros (ts & Hts & Hd). destruct (nth_error E id) as [[fs|ns]|] eqn:HN; try discriminate.
      destruct (de_fields (de E) fs ts _) as [st|] eqn:ED; [|discriminate]. cbn [obind] in Hd.
      destruct (read_all st) as [vs|] eqn:ER; [|discriminate]. injection Hd as <-.
      destruct (proj2 (struct_iff E fs (env_fields _ _ HN) l vs ts Hts HP)) as (HR & HL & HV).
      { rewrite ED. exact ER. }
      eapply rd_struct; try eassumption.
      apply mtrees_iff in Hts. clear -E Hts HO. induction Hts as [|[k d] [k' t] l ts [_ Ht] _ IH]; [constructor|].
      inversion HO; subst. constructor; [|apply IH; assumption]. apply (readable_iff E); [assumption|]. cbn in *. eauto.
Qed.

Theorem reads_de d : doc_ok d -> Pd E d.
Proof.
  induction d as [|b|s|n|l IH|l IH] using doc_ind'; intros HO; apply wrap_lift; intros T v HW HT.
  - split.
    + intros H. exists (PLeaf ENull). split; [reflexivity|]. inversion H; subst; try discriminate HW; try reflexivity.
      match goal with HJ : JReads _ _ |- _ => inversion HJ; subst end. reflexivity.
    + intros (t & [= <-] & Hd). rewrite de_leaf in Hd by exact HW.
      destruct T; try discriminate; try (destruct signed; discriminate); injection Hd as <-.
      * apply rd_unit.
      * apply rd_value, jr_null.
  - split.
    + intros H. exists (PLeaf (EBool b)). split; [reflexivity|]. inversion H; subst; try discriminate HW; try reflexivity.
      match goal with HJ : JReads _ _ |- _ => inversion HJ; subst end. reflexivity.
    + intros (t & [= <-] & Hd). rewrite de_leaf in Hd by exact HW.
      destruct T; try discriminate; try (destruct signed; discriminate); injection Hd as <-.
      * apply rd_bool.
      * apply rd_value, jr_bool.
  - split.
    + intros H. exists (PLeaf (EStr s)). split; [reflexivity|]. rewrite de_leaf by exact HW.
      inversion H; subst; try discriminate HW; try reflexivity.
      * match goal with HJ : JReads _ _ |- _ => inversion HJ; subst end. reflexivity.
      * cbn [leaf_prim].
        match goal with HN : nth_error _ _ = _, HV : VariantAt _ _ _ |- _ =>
          rewrite HN; apply find_name_variant in HV; rewrite HV end. reflexivity.
    + intros (t & [= <-] & Hd). rewrite de_leaf in Hd by exact HW.
      destruct T; try discriminate; try (destruct signed; discriminate); cbn [leaf_prim opt] in Hd.
      * injection Hd as <-. apply rd_string.
      * injection Hd as <-. apply rd_value, jr_str.
      * destruct (nth_error E id) as [[fs|ns]|] eqn:HN; try discriminate.
        destruct (find_name s ns 0) as [i|] eqn:EF; [|discriminate]. injection Hd as <-.
        eapply rd_enum; [exact HN|]. apply find_name_variant, EF.
  - apply num_core; assumption.
  - apply doc_ok_arr in HO. apply arr_core; auto.
    rewrite Forall_forall in *. auto.
  - apply doc_ok_obj in HO. apply obj_core; auto.
    rewrite Forall_forall in *. auto.
Qed.
End Main.
