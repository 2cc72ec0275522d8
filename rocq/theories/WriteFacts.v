(** The crate's Serialize impls: every well-typed value describes a tree. *)
From Coq Require Import String ZArith List Bool Lia Permutation Floats.SpecFloat.
From Flocq Require Import Core.Core IEEE754.BinarySingleNaN.
From Verif Require Import Base Utf8 Utf8Facts F64 Lexer Grammar Types Ser Reading HeapSeq FromStr FloatOps DocSpec SerSpec SerFacts RenderFacts NumFacts.
Import ListNotations.
Open Scope Z_scope.

Lemma jval_ind' (P : jval -> Prop) :
  P JvNull -> (forall b, P (JvBool b)) -> (forall n, P (JvNum n)) -> (forall s, P (JvStr s)) ->
  (forall l, Forall P l -> P (JvArr l)) -> (forall l, Forall (fun kj => P (snd kj)) l -> P (JvObj l)) -> forall j, P j.
Proof.
  intros H1 H2 H3 H4 H5 H6. fix IH 1. intros [|b|n|s|l|l].
  - exact H1. - apply H2. - apply H3. - apply H4.
  - apply H5. induction l as [|t l IHl]; constructor; [apply IH|exact IHl].
  - apply H6. induction l as [|[k t] l IHl]; constructor; [apply IH|exact IHl].
Qed.
Lemma val_ind' (P : val -> Prop) :
  P VUnit -> (forall b, P (VBool b)) -> (forall s, P (VStr s)) -> (forall z, P (VInt z)) -> (forall f, P (VF32 f)) -> (forall f, P (VF64 f)) ->
  (forall v, P v -> P (VBox v)) -> P VNone -> (forall v, P v -> P (VSome v)) -> (forall a b, P a -> P b -> P (VPair a b)) ->
  (forall l, Forall P l -> P (VSeq l)) -> (forall l, Forall (fun kv => P (snd kv)) l -> P (VMap l)) ->
  (forall j, P (VJson j)) -> (forall n, P (VNum n)) -> (forall l, P (VJArr l)) -> (forall l, P (VJObj l)) ->
  (forall l, Forall P l -> P (VStruct l)) -> (forall i, P (VEnum i)) -> forall v, P v.
Proof.
  intros H1 H2 H3 H4 H5 H6 H7 H8 H9 H10 H11 H12 H13 H14 H15 H16 H17 H18. fix IH 1.
  intros [|b|s|z|f|f|v| |v|a b|l|l|j|n|l|l|l|i].
  - exact H1. - apply H2. - apply H3. - apply H4. - apply H5. - apply H6.
  - apply H7, IH. - exact H8. - apply H9, IH. - apply H10; apply IH.
  - apply H11. induction l as [|t l IHl]; constructor; [apply IH|exact IHl].
  - apply H12. induction l as [|[k t] l IHl]; constructor; [apply IH|exact IHl].
  - apply H13. - apply H14. - apply H15. - apply H16.
  - apply H17. induction l as [|t l IHl]; constructor; [apply IH|exact IHl].
  - apply H18.
Qed.

Lemma jtree_ok j : jval_ok j = true -> stree_ok (jtree j) = true.
Proof.
  induction j as [|b|n|s|l IH|l IH] using jval_ind'; cbn [jval_ok jtree stree_ok]; intros H; try assumption; try reflexivity.
  - destruct n; exact H.
  - rewrite forallb_forall in *. intros x Hx. apply in_map_iff in Hx. destruct Hx as (j & <- & Hj). rewrite Forall_forall in IH. auto.
  - apply andb_true_iff in H. destruct H as [_ H]. rewrite forallb_forall in *. intros x Hx. apply in_map_iff in Hx. destruct Hx as (j & <- & Hj).
    specialize (H _ Hj). apply andb_true_iff in H. destruct H as [H1 H2]. cbn [fst snd]. rewrite H1. rewrite Forall_forall in IH. cbn [andb]. apply IH; assumption.
Qed.
Lemma key_str_ok K v : key_ok K v = true -> str_ok (key_to_string v) = true.
Proof.
  destruct K as [|sg b|], v; cbn [key_ok key_to_string]; intros H; try discriminate.
  - exact H.
  - destruct (itoa_spec z) as (n & A & _). apply (ascii_printable (itoa z)). eapply NumText_ascii, A.
  - destruct b; reflexivity.
Qed.
Lemma int64_id sg b z : bits_ok b = true -> int_ok sg b z = true ->
  if sg then i64_MIN <= z <= i64_MAX /\ wrap_s 64 z = z else 0 <= z <= u64_MAX /\ wrap_u 64 z = z.
Proof.
  intros HB H. unfold int_ok, int_min, int_max in H. apply andb_true_iff in H. rewrite !Z.leb_le in H.
  assert (b = 8 \/ b = 16 \/ b = 32 \/ b = 64) as Hb.
  { unfold bits_ok in HB. rewrite !orb_true_iff, !Z.eqb_eq in HB. tauto. }
  destruct sg.
  - assert (i64_MIN <= z <= i64_MAX) by (unfold i64_MIN, i64_MAX; destruct Hb as [->|[->|[->| ->]]]; cbn in H; lia).
    split; [assumption|]. unfold wrap_s. change (2 ^ (64 - 1)) with 9223372036854775808. change (2 ^ 64) with 18446744073709551616.
    unfold i64_MIN, i64_MAX in *. rewrite Z.mod_small; lia.
  - assert (0 <= z <= u64_MAX) by (unfold u64_MAX; destruct Hb as [->|[->|[->| ->]]]; cbn in H; lia).
    split; [assumption|]. unfold wrap_u. change (2 ^ 64) with 18446744073709551616. unfold u64_MAX in *. rewrite Z.mod_small; lia.
Qed.

Section Impls.
Variable E : env.
Variable hm : nat -> list (val * val) -> list (val * val).
Variable K : nat.
Hypothesis HN : names_ok E = true.
Hypothesis HE : env_ok E = true.
Hypothesis HH : orders hm.
Hypothesis HF : forall id fs, nth_error E id = Some (DStruct fs) -> Forall (fun f => (maxw (snd f) < K)%nat) fs.
Hypothesis HK : (0 < K)%nat.
Notation I := (val_iface E hm K).
Hypothesis f32_wide : forall f, f32_ok f = true -> f64_ok (f64_of_f32 f) = true.

(** json::Value and friends *)
Lemma json_describes j : forall n, FragDescribes I (value_begin j) n (jtree j) n.
Proof.
  assert (B : forall j n, i_begin I (TValue, VJson j) n = (Ok (value_begin j), n)).
  { intros j0 n. cbn [i_begin val_iface fst snd]. destruct K; [lia|]. reflexivity. }
  induction j as [|b|m|s|l IH|l IH] using jval_ind'; intros n; cbn [value_begin jtree]; try constructor.
  - destruct m; constructor.
  - induction IH as [|j l Hj IH IHl]; cbn [map].
    + apply (qd_nil I (QJson []) n (QJson []) n (Ok tt)); reflexivity.
    + eapply (qd_cons I (QJson (j :: l)) n _ (QJson l) n (jtree j) n); [reflexivity| |exact IHl]. econstructor; [apply B|apply Hj].
  - induction IH as [|[k j] l Hj IH IHl]; cbn [map fst snd].
    + apply (pd_nil I (PObject []) n (PObject []) n (Ok tt)); reflexivity.
    + eapply (pd_cons I (PObject ((k, j) :: l)) n k _ (PObject l) n (jtree j) n); [reflexivity| |exact IHl]. econstructor; [apply B|apply Hj].
Qed.

Definition Pv (v : val) : Prop := forall T k0 n,
  has_type E T v -> ty_ok T = true -> (maxw T < K)%nat -> (wraps T < k0)%nat ->
  exists f n1 t n2, ser_begin E hm k0 T v n = (Ok f, n1) /\ FragDescribes I f n1 t n2 /\ Writes E T v t /\ stree_ok t = true.
Lemma Pv_describes v T n : Pv v -> has_type E T v -> ty_ok T = true -> (maxw T < K)%nat ->
  exists t n2, Describes I (T, v) n t n2 /\ Writes E T v t /\ stree_ok t = true.
Proof.
  intros H HT HO HM. destruct (H T K n HT HO HM) as (f & n1 & t & n2 & A & B & C & D); [pose proof (wraps_maxw T); lia|].
  exists t, n2. split; [|auto]. econstructor; [exact A|exact B].
Qed.
Lemma slice_describes T l : ty_ok T = true -> (maxw T < K)%nat -> Forall Pv l -> Forall (has_type E T) l -> forall n,
  exists ts n2, SeqDescribes I (QSlice T l) n ts n2 /\ Forall2 (Writes E T) l ts /\ forallb stree_ok ts = true.
Proof.
  intros HO HM HP. induction HP as [|v l Hv HP IH]; intros HT n.
  - exists [], n. split; [apply (qd_nil I (QSlice T []) n (QSlice T []) n (Ok tt)); reflexivity|]. split; [constructor|reflexivity].
  - inversion HT; subst. destruct (Pv_describes v T n) as (t & n1 & A & B & C); auto.
    destruct (IH ltac:(assumption) n1) as (ts & n2 & A2 & B2 & C2). exists (t :: ts), n2. split; [|split].
    + eapply (qd_cons I (QSlice T (v :: l)) n _ (QSlice T l) n); [reflexivity|exact A|exact A2].
    + constructor; assumption.
    + cbn [forallb]. rewrite C. exact C2.
Qed.
Lemma map_describes Kt T l : ty_ok T = true -> (maxw T < K)%nat -> Forall (fun kv => Pv (snd kv)) l ->
  Forall (fun kv => key_ok Kt (fst kv) = true) l -> Forall (fun kv => has_type E T (snd kv)) l -> forall n,
  exists ts n2, MapDescribes I (PMap T l) n ts n2 /\
    Forall2 (fun kv kt => fst kt = key_to_string (fst kv) /\ Writes E T (snd kv) (snd kt)) l ts /\
    forallb (fun kt => str_ok (fst kt) && stree_ok (snd kt)) ts = true.
Proof.
  intros HO HM HP. induction HP as [|[k v] l Hv HP IH]; intros HKs HT n.
  - exists [], n. split; [apply (pd_nil I (PMap T []) n (PMap T []) n (Ok tt)); reflexivity|]. split; [constructor|reflexivity].
  - inversion HT; inversion HKs; subst. cbn [fst snd] in *. destruct (Pv_describes v T n) as (t & n1 & A & B & C); auto.
    destruct (IH ltac:(assumption) ltac:(assumption) n1) as (ts & n2 & A2 & B2 & C2). exists ((key_to_string k, t) :: ts), n2. split; [|split].
    + eapply (pd_cons I (PMap T ((k, v) :: l)) n _ _ (PMap T l) n); [reflexivity|exact A|exact A2].
    + constructor; [split; [reflexivity|exact B]|assumption].
    + cbn [forallb fst snd]. rewrite C, (key_str_ok Kt k) by assumption. exact C2.
Qed.
Lemma nth_skip {A} (l : list A) i x r : skipn i l = x :: r -> nth_error l i = Some x /\ skipn (S i) l = r.
Proof.
  revert i. induction l as [|a l IH]; intros i; [destruct i; discriminate|]. destruct i as [|i]; cbn [skipn nth_error].
  - intros [= -> ->]. auto.
  - intros H. destruct (IH _ H). auto.
Qed.
Lemma nth_skip_nil {A} (l : list A) i : skipn i l = [] -> nth_error l i = None.
Proof.
  revert i. induction l as [|a l IH]; intros i; [destruct i; reflexivity|]. destruct i as [|i]; cbn [skipn nth_error]; [discriminate|apply IH].
Qed.
Lemma struct_describes fs vs : 
  Forall (fun f => ty_ok (snd f) = true /\ (maxw (snd f) < K)%nat /\ str_ok (fst f) = true) fs -> Forall Pv vs ->
  forall fs' vs' i n, skipn i fs = fs' -> skipn i vs = vs' -> Forall2 (fun f v => has_type E (snd f) v) fs' vs' ->
  exists ts n2, MapDescribes I (PStruct fs vs i) n ts n2 /\
    Forall2 (fun fv kt => fst kt = fst (fst fv) /\ Writes E (snd (fst fv)) (snd fv) (snd kt)) (combine fs' vs') ts /\
    forallb (fun kt => str_ok (fst kt) && stree_ok (snd kt)) ts = true.
Proof.
  intros HFs HP fs'. induction fs' as [|[nm T] fs' IH]; intros vs' i n E1 E2 HT; (destruct vs' as [|v vs']; inversion HT as [|? ? ? ? HTv HT2]).
  - exists [], n. split; [|split; [constructor|reflexivity]].
    apply (pd_nil I (PStruct fs vs i) n (PStruct fs vs (S i)) n (Ok tt)); [|reflexivity..]. cbn [i_map_next val_iface map_next fst snd]. rewrite (nth_skip_nil _ _ E1). reflexivity.
  - destruct (nth_skip _ _ _ _ E1) as [N1 S1]. destruct (nth_skip _ _ _ _ E2) as [N2 S2].
    cbn [fst snd] in *.
    assert (HI : In (nm, T) fs) by (eapply nth_error_In, N1). rewrite Forall_forall in HFs. destruct (HFs _ HI) as (G1 & G2 & G3). cbn [fst snd] in *.
    assert (HPv : Pv v) by (rewrite Forall_forall in HP; apply HP; eapply nth_error_In, N2).
    destruct (Pv_describes v T n HPv HTv G1 G2) as (t & n1 & A & B & C).
    destruct (IH vs' (S i) n1 S1 S2 HT2) as (ts & n2 & A2 & B2 & C2).
    exists ((nm, t) :: ts), n2. split; [|split].
    + eapply (pd_cons I (PStruct fs vs i) n nm (T, v) (PStruct fs vs (S i)) n); [|exact A|exact A2].
      cbn [i_map_next val_iface map_next fst snd]. rewrite N1, N2. reflexivity.
    + cbn [combine]. constructor; [split; [reflexivity|exact B]|exact B2].
    + cbn [forallb fst snd]. rewrite C, G3. exact C2.
Qed.

Lemma env_struct id fs : nth_error E id = Some (DStruct fs) ->
  Forall (fun f => ty_ok (snd f) = true /\ (maxw (snd f) < K)%nat /\ str_ok (fst f) = true) fs.
Proof.
  intros H. pose proof (HF _ _ H) as H1. pose proof (nth_error_In _ _ H) as HI.
  pose proof HE as H2. unfold env_ok in H2. rewrite forallb_forall in H2. apply H2 in HI as H2'. cbn in H2'. rewrite forallb_forall in H2'.
  pose proof HN as H3. unfold names_ok in H3. rewrite forallb_forall in H3. apply H3 in HI as H3'. cbn in H3'. rewrite forallb_forall in H3'.
  rewrite Forall_forall in *. intros f Hf. auto.
Qed.

Theorem typed_describes v : Pv v.
Proof.
  induction v as [|b|s|z|f|f|v IH| |v IH|a b IHa IHb|l IH|l IH|j|m|l|l|l IH|i] using val_ind'; intros T k0 n HT HO HM Hk; inversion HT; subst;
    (destruct k0 as [|k0]; [lia|]); cbn [ser_begin].
  - do 4 eexists. split; [reflexivity|]. split; [constructor|]. split; [constructor|reflexivity].
  - do 4 eexists. split; [reflexivity|]. split; [constructor|]. split; [constructor|reflexivity].
  - do 4 eexists. split; [reflexivity|]. split; [constructor|]. split; [constructor|assumption].
  - cbn [ty_ok] in HO. pose proof (int64_id _ _ _ HO ltac:(eassumption)) as HI. destruct sg; destruct HI as [HI1 HI2]; rewrite HI2.
    + do 4 eexists. split; [reflexivity|]. split; [constructor|]. split; [constructor|]. cbn [stree_ok]. apply andb_true_iff. rewrite !Z.leb_le. exact HI1.
    + do 4 eexists. split; [reflexivity|]. split; [constructor|]. split; [constructor|]. cbn [stree_ok]. apply andb_true_iff. rewrite !Z.leb_le. exact HI1.
  - do 4 eexists. split; [reflexivity|]. split; [constructor|]. split; [constructor|]. cbn [stree_ok]. apply f32_wide. assumption.
  - do 4 eexists. split; [reflexivity|]. split; [constructor|]. split; [constructor|assumption].
  - cbn [wraps maxw ty_ok] in *. destruct (IH T0 k0 n) as (f & n1 & t & n2 & A & B & C & D); auto; [lia|lia|]. exists f, n1, t, n2. split; [exact A|]. split; [exact B|]. split; [constructor; exact C|exact D].
  - do 4 eexists. split; [reflexivity|]. split; [constructor|]. split; [constructor|reflexivity].
  - cbn [wraps maxw ty_ok] in *. destruct (IH T0 k0 n) as (f & n1 & t & n2 & A & B & C & D); auto; [lia|lia|]. exists f, n1, t, n2. split; [exact A|]. split; [exact B|]. split; [constructor; exact C|exact D].
  - cbn [maxw ty_ok] in *. apply andb_true_iff in HO. destruct HO as [HO1 HO2].
    destruct (Pv_describes a A n IHa) as (ta & n1 & A1 & B1 & C1); [assumption|assumption|lia|].
    destruct (Pv_describes b B n1 IHb) as (tb & n2 & A2 & B2 & C2); [assumption|assumption|lia|].
    exists (FSeq (QTuple (A, a) (B, b) 0)), n, (STSeq [ta; tb]), n2. split; [reflexivity|]. split; [|split].
    + constructor. eapply (qd_cons I (QTuple (A, a) (B, b) 0) n _ (QTuple (A, a) (B, b) 1) n); [reflexivity|exact A1|].
      eapply (qd_cons I (QTuple (A, a) (B, b) 1) n1 _ (QTuple (A, a) (B, b) 2) n1); [reflexivity|exact A2|].
      apply (qd_nil I (QTuple (A, a) (B, b) 2) n2 (QTuple (A, a) (B, b) 3) n2 (Ok tt)); reflexivity.
    + constructor; assumption.
    + cbn [stree_ok forallb]. rewrite C1, C2. reflexivity.
  - cbn [maxw ty_ok] in *. destruct (slice_describes T0 l HO HM IH ltac:(assumption) n) as (ts & n2 & A & B & C).
    do 4 eexists. split; [reflexivity|]. split; [constructor; exact A|]. split; [constructor; exact B|exact C].
  - cbn [maxw ty_ok] in *. destruct (slice_describes T0 l HO HM IH ltac:(assumption) n) as (ts & n2 & A & B & C).
    do 4 eexists. split; [reflexivity|]. split; [constructor; exact A|]. split; [constructor; exact B|exact C].
  - cbn [maxw ty_ok] in *. apply andb_true_iff in HO. destruct HO as [_ HO]. destruct h.
    + pose proof (HH n l) as HP.
      destruct (map_describes K0 T0 (hm n l) HO HM) with (n := S n) as (ts & n2 & A & B & C); try (eapply Permutation_Forall; [exact HP|assumption]).
      do 4 eexists. split; [reflexivity|]. split; [constructor; exact A|]. split; [|exact C]. eapply (wr_map E true); [exact HP|exact B].
    + destruct (map_describes K0 T0 l HO HM) with (n := n) as (ts & n2 & A & B & C); try assumption.
      do 4 eexists. split; [reflexivity|]. split; [constructor; exact A|]. split; [|exact C]. eapply (wr_map E false); [reflexivity|exact B].
  - do 4 eexists. split; [reflexivity|]. split; [apply json_describes|]. split; [constructor|apply jtree_ok; assumption].
  - do 4 eexists. split; [reflexivity|]. split; [apply (json_describes (JvNum m))|]. split; [constructor|apply (jtree_ok (JvNum m)); assumption].
  - do 4 eexists. split; [reflexivity|]. split; [apply (json_describes (JvArr l))|]. split; [constructor|apply (jtree_ok (JvArr l)); assumption].
  - do 4 eexists. split; [reflexivity|]. split; [apply (json_describes (JvObj l))|]. split; [constructor|apply (jtree_ok (JvObj l)); assumption].
  - match goal with HX : nth_error E _ = Some (DStruct _) |- _ => rename HX into Hid end. match goal with HX : Forall2 _ fs l |- _ => rename HX into HF2 end.
    rewrite Hid. destruct (struct_describes fs l (env_struct _ _ Hid) IH fs l 0 n eq_refl eq_refl ltac:(assumption)) as (ts & n2 & A & B & C).
    do 4 eexists. split; [reflexivity|]. split; [constructor; exact A|]. split; [|exact C]. eapply wr_struct; [exact Hid| |exact B].
    clear -HF2. induction HF2; cbn [List.length]; congruence.
  - match goal with HX : nth_error E _ = Some (DEnum _) |- _ => rename HX into Hid end.
    rewrite Hid. destruct (nth_error ns i) as [s|] eqn:EN; [|apply nth_error_None in EN; lia].
    do 4 eexists. split; [reflexivity|]. split; [constructor|]. split; [eapply wr_enum; eassumption|]. cbn [stree_ok].
    pose proof HN as H3. unfold names_ok in H3. rewrite forallb_forall in H3. specialize (H3 _ (nth_error_In _ _ Hid)). cbn in H3. rewrite forallb_forall in H3.
    apply H3. eapply nth_error_In, EN.
Qed.
End Impls.
