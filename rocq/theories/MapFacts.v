(** Finite maps: insertion into a sorted list, last binding wins. *)
From Coq Require Import String ZArith List Bool Lia Floats.SpecFloat.
From Verif Require Import Base Utf8 F64 Lexer Grammar LexSpec Types Reading.
Import ListNotations.
Open Scope Z_scope.

Section Maps.
Context {K A : Type}.
Variable cmp : K -> K -> comparison.
Variable P : K -> Prop.
Hypothesis cmp_eq : forall a b, P a -> P b -> cmp a b = Eq -> a = b.
Hypothesis cmp_refl : forall a, P a -> cmp a a = Eq.
Hypothesis cmp_anti : forall a b, P a -> P b -> cmp b a = CompOpp (cmp a b).
Hypothesis cmp_trans : forall a b c, P a -> P b -> P c -> cmp a b = Lt -> cmp b c = Lt -> cmp a c = Lt.

Definition below (k : K) (m : list (K * A)) : Prop := Forall (fun kv => cmp k (fst kv) = Lt) m.
Definition keysP (m : list (K * A)) : Prop := Forall (fun kv => P (fst kv)) m.

Lemma sorted_cons k v m : keysP ((k, v) :: m) ->
  (sorted_keys cmp ((k, v) :: m) = true <-> below k m /\ sorted_keys cmp m = true).
Proof.
  revert k v. induction m as [|[k' v'] m IH]; intros k v HP; cbn [sorted_keys].
  - split; [split; [constructor|reflexivity]|reflexivity].
  - assert (HP' : keysP ((k', v') :: m)) by (inversion HP; assumption).
    assert (Pk : P k) by (inversion HP; assumption).
    assert (Pk' : P k') by (inversion HP'; assumption).
    specialize (IH k' v' HP').
    destruct (cmp k k') eqn:EC.
    + split; [discriminate|]. intros [HB _]. inversion HB. cbn in *. congruence.
    + split.
      * intros H. split; [|exact H]. constructor; [exact EC|].
        apply IH in H. destruct H as [HB _].
        assert (HM : keysP m) by (inversion HP'; assumption).
        unfold below in *. rewrite Forall_forall in *. intros x Hx.
        unfold keysP in HM. rewrite Forall_forall in HM.
        apply (cmp_trans k k' (fst x)); auto.
      * intros [_ H]. exact H.
    + split; [discriminate|]. intros [HB _]. inversion HB. cbn in *. congruence.
Qed.

Lemma minsert_keysP k (v : A) m : P k -> keysP m -> keysP (minsert cmp k v m).
Proof.
  intros Hk. induction m as [|[k' v'] m IH]; intros HM; cbn [minsert].
  - constructor; [exact Hk|constructor].
  - inversion HM; subst. destruct (cmp k k').
    + constructor; assumption.
    + constructor; [exact Hk|exact HM].
    + constructor; [assumption|apply IH; assumption].
Qed.

Lemma below_not_in k m v : P k -> keysP m -> below k m -> ~ In (k, v) m.
Proof.
  intros Hk HM HB HI. unfold below in HB. rewrite Forall_forall in HB. apply HB in HI. cbn in HI.
  rewrite cmp_refl in HI by exact Hk. discriminate.
Qed.

Lemma minsert_spec k (v : A) m : P k -> keysP m -> sorted_keys cmp m = true ->
  sorted_keys cmp (minsert cmp k v m) = true /\
  forall k1 v1, In (k1, v1) (minsert cmp k v m) <-> (k1 = k /\ v1 = v) \/ (k1 <> k /\ In (k1, v1) m).
Proof.
  intros Hk. induction m as [|[k' v'] m IH]; intros HM HS.
  - cbn [minsert]. split; [reflexivity|]. intros k1 v1. cbn. split.
    + intros [H|[]]. injection H as -> ->. auto.
    + intros [[-> ->]|[_ []]]. auto.
  - assert (HM' : keysP m) by (inversion HM; assumption).
    assert (Hk' : P k') by (inversion HM; assumption).
    pose proof (proj1 (sorted_cons _ _ _ HM) HS) as [HB HS'].
    cbn [minsert]. destruct (cmp k k') eqn:EC.
    + apply cmp_eq in EC; auto. subst k'. split.
      * apply sorted_cons; [constructor; assumption|]. auto.
      * intros k1 v1. cbn. split.
        -- intros [H|H]; [injection H as -> ->; auto|]. right. split; [|auto].
           intros ->. exact (below_not_in _ _ _ Hk HM' HB H).
        -- intros [[-> ->]|[N [H|H]]]; [auto|injection H; congruence|auto].
    + split.
      * apply sorted_cons; [constructor; assumption|]. split; [|exact HS].
        constructor; [exact EC|]. unfold below in *. rewrite Forall_forall in *. intros x Hx.
        unfold keysP in HM'. rewrite Forall_forall in HM'. apply (cmp_trans k k' (fst x)); auto.
      * intros k1 v1. cbn. split.
        -- intros [H|H]; [injection H as -> ->; auto|]. right. split; [|exact H].
           intros ->. destruct H as [H|H].
           { injection H as -> ->. rewrite cmp_refl in EC by exact Hk. discriminate. }
           apply (below_not_in k m v1 Hk HM'); [|exact H].
           unfold below in *. rewrite Forall_forall in *. intros x Hx.
           unfold keysP in HM'. rewrite Forall_forall in HM'. apply (cmp_trans k k' (fst x)); auto.
        -- intros [[-> ->]|[N H]]; auto.
    + destruct (IH HM' HS') as [IS II]. split.
      * apply sorted_cons; [constructor; [assumption|apply minsert_keysP; assumption]|].
        split; [|exact IS]. unfold below. rewrite Forall_forall. intros [k1 v1] HI. cbn.
        apply II in HI. destruct HI as [[-> ->]|[_ HI]].
        -- rewrite cmp_anti, EC by auto. reflexivity.
        -- unfold below in HB. rewrite Forall_forall in HB. apply (HB _ HI).
      * intros k1 v1. cbn. rewrite II. split.
        -- intros [H|[[-> ->]|[N H]]]; [|auto|auto]. injection H as -> ->. right. split; [|auto].
           intros ->. rewrite cmp_refl in EC by exact Hk. discriminate.
        -- intros [[-> ->]|[N [H|H]]]; auto.
Qed.

Lemma last_binding_snoc (l : list (K * A)) k v k1 v1 :
  last_binding (l ++ [(k, v)]) k1 v1 <-> (k1 = k /\ v1 = v) \/ (k1 <> k /\ last_binding l k1 v1).
Proof.
  split.
  - intros (l1 & l2 & EQ & HF). destruct l2 as [|x l2' _] using rev_ind.
    + apply app_inj_tail in EQ. destruct EQ as [_ EQ]. injection EQ as -> ->. auto.
    + rewrite app_comm_cons, app_assoc in EQ. apply app_inj_tail in EQ. destruct EQ as [-> <-].
      apply Forall_app in HF. destruct HF as [HF1 HF2]. inversion HF2; subst. cbn in *.
      right. split; [congruence|]. exists l1, l2'. auto.
  - intros [[-> ->]|[N (l1 & l2 & -> & HF)]].
    + exists l, []. auto.
    + exists l1, (l2 ++ [(k, v)]). rewrite <- app_assoc. split; [reflexivity|].
      apply Forall_app. split; [exact HF|]. constructor; [cbn; congruence|constructor].
Qed.

Lemma fold_minsert (kvs : list (K * A)) : keysP kvs ->
  keysP (fold_left (fun m kv => minsert cmp (fst kv) (snd kv) m) kvs []) /\
  MapOf cmp kvs (fold_left (fun m kv => minsert cmp (fst kv) (snd kv) m) kvs []).
Proof.
  induction kvs as [|[k v] kvs IH] using rev_ind; intros HK.
  - cbn. split; [constructor|]. split; [reflexivity|]. intros k v. split; [intros []|].
    intros (l1 & l2 & EQ & _). destruct l1; discriminate.
  - apply Forall_app in HK. destruct HK as [HK HK1]. inversion HK1; subst.
    destruct (IH HK) as [HP [HS HI]]. rewrite fold_left_app. cbn [fold_left fst snd].
    split; [apply minsert_keysP; assumption|].
    destruct (minsert_spec k v _ H1 HP HS) as [S1 I1]. split; [exact S1|].
    intros k1 v1. rewrite I1, last_binding_snoc, HI. reflexivity.
Qed.

Lemma sorted_ext (m1 m2 : list (K * A)) : keysP m1 -> keysP m2 ->
  sorted_keys cmp m1 = true -> sorted_keys cmp m2 = true ->
  (forall k v, In (k, v) m1 <-> In (k, v) m2) -> m1 = m2.
Proof.
  revert m2. induction m1 as [|[k1 v1] m1 IH]; intros [|[k2 v2] m2] P1 P2 S1 S2 HI.
  - reflexivity.
  - destruct (proj2 (HI k2 v2)). left. reflexivity.
  - destruct (proj1 (HI k1 v1)). left. reflexivity.
  - pose proof (proj1 (sorted_cons _ _ _ P1) S1) as [B1 S1'].
    pose proof (proj1 (sorted_cons _ _ _ P2) S2) as [B2 S2'].
    assert (PK1 : P k1) by (inversion P1; assumption).
    assert (PK2 : P k2) by (inversion P2; assumption).
    assert (PM1 : keysP m1) by (inversion P1; assumption).
    assert (PM2 : keysP m2) by (inversion P2; assumption).
    assert (EQ : (k1, v1) = (k2, v2)).
    { destruct (proj1 (HI k1 v1) (or_introl eq_refl)) as [H|H]; [symmetry; exact H|].
      destruct (proj2 (HI k2 v2) (or_introl eq_refl)) as [H'|H']; [exact H'|].
      unfold below in *. rewrite Forall_forall in B1, B2. apply B2 in H. apply B1 in H'. cbn in *.
      rewrite cmp_anti, H in H' by auto. discriminate. }
    injection EQ as -> ->. f_equal. apply IH; auto. intros k v. split; intros H.
    + destruct (proj1 (HI k v) (or_intror H)) as [H'|H']; [|exact H']. injection H' as <- <-.
      destruct (below_not_in _ _ _ PK1 PM1 B1 H).
    + destruct (proj2 (HI k v) (or_intror H)) as [H'|H']; [|exact H']. injection H' as <- <-.
      destruct (below_not_in _ _ _ PK2 PM2 B2 H).
Qed.

Lemma last_binding_in (l : list (K * A)) k v : last_binding l k v -> In (k, v) l.
Proof. intros (l1 & l2 & -> & _). apply in_elt. Qed.
Lemma last_binding_unique (l : list (K * A)) k v v' : last_binding l k v -> last_binding l k v' -> v = v'.
Proof.
  intros (l1 & l2 & -> & H) (l1' & l2' & EQ & H').
  revert l1' EQ. induction l1 as [|x l1 IH]; intros [|x' l1'] EQ; cbn in EQ.
  - injection EQ as -> _. reflexivity.
  - injection EQ as _ EQ. rewrite EQ in H. apply Forall_app in H. destruct H as [_ H]. inversion H. cbn in *. congruence.
  - injection EQ as _ EQ. rewrite <- EQ in H'. apply Forall_app in H'. destruct H' as [_ H']. inversion H'. cbn in *. congruence.
  - injection EQ as _ EQ. eapply IH, EQ.
Qed.

Lemma MapOf_keysP kvs m : keysP kvs -> MapOf cmp kvs m -> keysP m.
Proof.
  intros HK [_ HI]. unfold keysP in *. rewrite Forall_forall in *. intros [k v] H.
  apply HI, last_binding_in in H. apply (HK _ H).
Qed.

Lemma MapOf_fold kvs m : keysP kvs ->
  (MapOf cmp kvs m <-> m = fold_left (fun m kv => minsert cmp (fst kv) (snd kv) m) kvs []).
Proof.
  intros HK. destruct (fold_minsert kvs HK) as [FP [FS FI]]. split.
  - intros HM. pose proof (MapOf_keysP _ _ HK HM) as HP. destruct HM as [HS HI].
    apply sorted_ext; auto. intros k v. rewrite HI, FI. reflexivity.
  - intros ->. split; assumption.
Qed.
End Maps.

(** ** The orders used *)
Lemma bytes_cmp_refl a : bytes_cmp a a = Eq.
Proof. induction a as [|x a IH]; cbn; [reflexivity|]. rewrite Z.compare_refl. exact IH. Qed.
Lemma bytes_cmp_eq a b : bytes_cmp a b = Eq -> a = b.
Proof.
  revert b. induction a as [|x a IH]; intros [|y b]; cbn; try discriminate; [reflexivity|].
  destruct (Z.compare_spec x y); try discriminate. intros H1. subst. f_equal. apply IH, H1.
Qed.
Lemma bytes_cmp_anti a b : bytes_cmp b a = CompOpp (bytes_cmp a b).
Proof.
  revert b. induction a as [|x a IH]; intros [|y b]; cbn; try reflexivity.
  rewrite (Z.compare_antisym x y). destruct (x ?= y); cbn; auto.
Qed.
Lemma bytes_cmp_trans a b c : bytes_cmp a b = Lt -> bytes_cmp b c = Lt -> bytes_cmp a c = Lt.
Proof.
  revert b c. induction a as [|x a IH]; intros [|y b] [|z c]; cbn; try discriminate; try reflexivity.
  destruct (Z.compare_spec x y), (Z.compare_spec y z); try discriminate; subst; intros H1 H2.
  - rewrite Z.compare_refl. eapply IH; eassumption.
  - apply Z.compare_lt_iff in H0. rewrite H0. reflexivity.
  - apply Z.compare_lt_iff in H. rewrite H. reflexivity.
  - assert (x < z) as H3 by lia. apply Z.compare_lt_iff in H3. rewrite H3. reflexivity.
Qed.
Lemma bytes_eqb_eq a b : bytes_eqb a b = true <-> a = b.
Proof.
  unfold bytes_eqb. split.
  - destruct (bytes_cmp a b) eqn:E; try discriminate. intros _. apply bytes_cmp_eq, E.
  - intros ->. rewrite bytes_cmp_refl. reflexivity.
Qed.

(** Keys of one key type. *)
Definition key_kind (K : kty) (v : val) : Prop :=
  match K, v with KString, VStr _ => True | KInt _ _, VInt _ => True | KBool, VBool _ => True | _, _ => False end.
Lemma key_cmp_refl K a : key_kind K a -> key_cmp a a = Eq.
Proof.
  destruct K, a; cbn; try contradiction; intros _.
  - apply bytes_cmp_refl.
  - apply Z.compare_refl.
  - destruct b; reflexivity.
Qed.
Lemma key_cmp_eq K a b : key_kind K a -> key_kind K b -> key_cmp a b = Eq -> a = b.
Proof.
  destruct K, a, b; cbn; try contradiction; intros _ _ H.
  - f_equal. apply bytes_cmp_eq, H.
  - f_equal. apply Z.compare_eq, H.
  - destruct b0, b; try discriminate; reflexivity.
Qed.
Lemma key_cmp_anti K a b : key_kind K a -> key_kind K b -> key_cmp b a = CompOpp (key_cmp a b).
Proof.
  destruct K, a, b; cbn; try contradiction; intros _ _.
  - apply bytes_cmp_anti.
  - apply Z.compare_antisym.
  - destruct b0, b; reflexivity.
Qed.
Lemma key_cmp_trans K a b c : key_kind K a -> key_kind K b -> key_kind K c ->
  key_cmp a b = Lt -> key_cmp b c = Lt -> key_cmp a c = Lt.
Proof.
  destruct K, a, b, c; cbn; try contradiction; intros _ _ _.
  - apply bytes_cmp_trans.
  - rewrite !Z.compare_lt_iff. lia.
  - destruct b0, b, b1; cbn; auto; discriminate.
Qed.
(** The key parser of the model is the specification's. *)
Lemma digits_value_dtext ds : forall a, Forall digit ds -> digits_value a (dtext ds) = Some (fold_left (fun a d => a * 10 + d) ds a).
Proof.
  induction ds as [|d ds IH]; intros a HD; [reflexivity|]. inversion HD; subst. unfold dtext. cbn [map digits_value].
  assert (is_digit (48 + d) = true) as -> by (unfold is_digit, digit in *; apply andb_true_intro; split; apply Z.leb_le; lia).
  replace (48 + d - 48) with d by lia. apply IH. assumption.
Qed.
Lemma digits_value_inv s : forall a n, digits_value a s = Some n -> exists ds, s = dtext ds /\ Forall digit ds.
Proof.
  induction s as [|c s IH]; intros a n H; [exists []; split; [reflexivity|constructor]|]. cbn [digits_value] in H.
  destruct (is_digit c) eqn:E; [|discriminate]. apply IH in H. destruct H as (ds & -> & HD). exists ((c - 48) :: ds). unfold is_digit in E.
  apply andb_true_iff in E. rewrite !Z.leb_le in E. split; [unfold dtext; cbn [map]; f_equal; lia|]. constructor; [unfold digit; lia|exact HD].
Qed.
Lemma int_ok_iff sg b z : int_ok sg b z = true <-> int_min sg b <= z <= int_max sg b.
Proof. unfold int_ok. rewrite andb_true_iff, !Z.leb_le. reflexivity. Qed.
Lemma int_key_sign sg b sign neg d ds : KeySign sg sign neg -> Forall digit (d :: ds) ->
  int_from_str sg b (sign ++ dtext (d :: ds)) =
  (let z := if neg then - digits_val (d :: ds) else digits_val (d :: ds) in if int_ok sg b z then Some z else None).
Proof.
  intros HS HD. pose proof (digits_value_dtext (d :: ds) 0 HD) as HV. unfold int_from_str. inversion HD; subst. unfold digit in *.
  destruct HS as [| |HG].
  - cbn [app]. unfold dtext in *. cbn [map] in *. rewrite (proj2 (Z.eqb_neq (48 + d) 43)) by lia. rewrite (proj2 (Z.eqb_neq (48 + d) 45)) by lia.
    cbn [andb]. rewrite HV. reflexivity.
  - cbn [app]. change (43 =? 43) with true. cbv iota. unfold dtext in *. cbn [map] in *. rewrite HV. reflexivity.
  - subst sg. cbn [app]. change (45 =? 43) with false. change (45 =? 45) with true. cbn [andb]. unfold dtext in *. cbn [map] in *. rewrite HV. reflexivity.
Qed.
Lemma key_reads_iff K s v : KeyReads K s v <-> key_from_str K s = Some v.
Proof.
  split.
  - intros H. destruct H as [s|sg b sign neg d ds z HS HD -> HB| |]; cbn [key_from_str]; try reflexivity.
    rewrite (int_key_sign sg b sign neg d ds HS HD). cbv zeta. rewrite (proj2 (int_ok_iff _ _ _) HB). reflexivity.
  - destruct K as [|sg b|]; cbn [key_from_str].
    + intros [= <-]. constructor.
    + intros H. destruct (int_from_str sg b s) as [z|] eqn:EI; [|discriminate]. cbn [option_map] in H. injection H as <-.
      assert (HS : exists sign neg r, s = sign ++ r /\ KeySign sg sign neg /\
        match r with [] => None | _ => match digits_value 0 r with Some n => let z := if neg then - n else n in if int_ok sg b z then Some z else None | None => None end end = Some z).
      { unfold int_from_str in EI. destruct s as [|c r]; [discriminate|]. destruct (c =? 43) eqn:E1.
        - apply Z.eqb_eq in E1. subst c. exists [43], false, r. split; [reflexivity|]. split; [constructor|exact EI].
        - destruct (c =? 45) eqn:E2; [destruct sg|]; cbn [andb] in EI.
          + apply Z.eqb_eq in E2. subst c. exists [45], true, r. split; [reflexivity|]. split; [constructor; reflexivity|exact EI].
          + exists [], false, (c :: r). split; [reflexivity|]. split; [constructor|exact EI].
          + exists [], false, (c :: r). split; [reflexivity|]. split; [constructor|exact EI]. }
      destruct HS as (sign & neg & r & -> & HS & HR). destruct r as [|c r]; [discriminate|].
      destruct (digits_value 0 (c :: r)) as [n|] eqn:ED; [|discriminate]. destruct (digits_value_inv _ _ _ ED) as (ds & EQ & HD).
      destruct ds as [|d ds]; [discriminate|]. rewrite EQ in ED |- *. rewrite digits_value_dtext in ED by exact HD.
      assert (n = digits_val (d :: ds)) as -> by (unfold digits_val; congruence). cbv zeta in HR.
      destruct (int_ok sg b (if neg then - digits_val (d :: ds) else digits_val (d :: ds))) eqn:EO; [|discriminate].
      apply (kr_int sg b sign neg d ds); [exact HS|exact HD|congruence|]. apply int_ok_iff in EO.
      assert (z = if neg then - digits_val (d :: ds) else digits_val (d :: ds)) as -> by congruence. exact EO.
    + destruct (bytes_eqb s (bs "true")) eqn:E1.
      * intros [= <-]. apply bytes_eqb_eq in E1. subst s. constructor.
      * destruct (bytes_eqb s (bs "false")) eqn:E2; [|discriminate]. intros [= <-]. apply bytes_eqb_eq in E2. subst s. constructor.
Qed.
Lemma key_from_str_kind K s v : key_from_str K s = Some v -> key_kind K v.
Proof.
  destruct K; cbn [key_from_str].
  - intros [= <-]. exact I.
  - destruct (int_from_str signed bits s); [|discriminate]. intros [= <-]. exact I.
  - destruct (bytes_eqb s _); [intros [= <-]; exact I|].
    destruct (bytes_eqb s _); [intros [= <-]; exact I|discriminate].
Qed.

Lemma MapOf_bytes {A} (kvs m : list (bytes * A)) :
  MapOf bytes_cmp kvs m <-> m = fold_left (fun m kv => minsert bytes_cmp (fst kv) (snd kv) m) kvs [].
Proof.
  apply (MapOf_fold bytes_cmp (fun _ => True)).
  - intros a b _ _. apply bytes_cmp_eq.
  - intros a _. apply bytes_cmp_refl.
  - intros a b _ _. apply bytes_cmp_anti.
  - intros a b c _ _ _. apply bytes_cmp_trans.
  - apply Forall_forall. auto.
Qed.
Lemma MapOf_key K {A} (kvs m : list (val * A)) : Forall (fun kv => key_kind K (fst kv)) kvs ->
  (MapOf key_cmp kvs m <-> m = fold_left (fun m kv => minsert key_cmp (fst kv) (snd kv) m) kvs []).
Proof.
  intros H. apply (MapOf_fold key_cmp (key_kind K)).
  - apply key_cmp_eq.
  - apply key_cmp_refl.
  - apply key_cmp_anti.
  - apply key_cmp_trans.
  - exact H.
Qed.
