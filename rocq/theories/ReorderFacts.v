(** C73: reordered documents are read alike. *)
From Coq Require Import String ZArith List Bool Lia Permutation Floats.SpecFloat.
From Verif Require Import Base Utf8 F64 Lexer Grammar LexSpec Types Reading MapFacts NumValue ReadFacts ReadMain TypedFacts NormFacts RoundTrip ThroughSpec ThroughFacts WideFacts ClaimsTypes ReorderSpec.
Import ListNotations.
Open Scope Z_scope.

Lemma members_app k l1 l2 : members k (l1 ++ l2) = members k l1 ++ members k l2.
Proof. unfold members. rewrite filter_app, map_app. reflexivity. Qed.
Lemma in_members k l c : In c (members k l) <-> In (k, c) l.
Proof.
  unfold members. rewrite in_map_iff. split.
  - intros ([k' c'] & <- & H). apply filter_In in H. destruct H as [H E]. apply bytes_eqb_eq in E. cbn in *. subst. exact H.
  - intros H. exists (k, c). split; [reflexivity|]. apply filter_In. split; [exact H|]. apply bytes_eqb_eq. reflexivity.
Qed.
Lemma members_none k l : Forall (fun kd => fst kd <> k) l -> members k l = [].
Proof.
  intros H. destruct (members k l) as [|c r] eqn:E; [reflexivity|]. assert (I : In c (members k l)) by (rewrite E; left; reflexivity).
  apply in_members in I. rewrite Forall_forall in H. destruct (H _ I). reflexivity.
Qed.
Lemma last_members k l c : last_binding l k c <-> exists x, members k l = x ++ [c].
Proof.
  assert (A : forall c, last_binding l k c -> exists x, members k l = x ++ [c]).
  { clear c. intros c (l1 & l2 & -> & H). exists (members k l1). rewrite members_app. f_equal. change ((k, c) :: l2) with ([(k, c)] ++ l2).
    rewrite members_app, (members_none k l2 H), app_nil_r. unfold members. cbn [filter fst]. rewrite (proj2 (bytes_eqb_eq k k) eq_refl). reflexivity. }
  split; [apply A|]. intros (x & EQ). assert (I : In c (members k l)) by (rewrite EQ; apply in_elt). apply in_members in I.
  destruct (last_binding_exists l k c I) as (w & L). destruct (A w L) as (y & EQ'). rewrite EQ in EQ'. apply app_inj_tail in EQ'. destruct EQ' as [_ ->]. exact L.
Qed.

Lemma forall2_last {A B} (P : A -> B -> Prop) x a m : Forall2 P (x ++ [a]) m -> exists y b, m = y ++ [b] /\ P a b.
Proof.
  intros H. apply Forall2_app_inv_l in H. destruct H as (y & z & _ & H & ->). inversion H as [|? b ? ? Hb Hn]; subst. inversion Hn; subst.
  exists y, b. auto.
Qed.
Lemma forall2_flip {A B} (P : A -> B -> Prop) l m : Forall2 P l m -> Forall2 (fun b a => P a b) m l.
Proof. induction 1; constructor; assumption. Qed.
Section Members.
Context (P : doc -> doc -> Prop) (l l' : list (bytes * doc)).
Hypothesis H : forall k, Forall2 P (members k l) (members k l').
Lemma last_over k c : last_binding l k c -> exists c', last_binding l' k c' /\ P c c'.
Proof.
  intros L. apply last_members in L. destruct L as (x & EQ). pose proof (H k) as F. rewrite EQ in F. apply forall2_last in F.
  destruct F as (y & b & E & Hb). exists b. split; [|exact Hb]. apply last_members. eauto.
Qed.
Lemma in_over k c : In (k, c) l -> exists c', In (k, c') l' /\ P c c'.
Proof. intros I. apply in_members in I. destruct (forall2_in_l _ _ _ _ (H k) I) as (b & Ib & Hb). apply in_members in Ib. eauto. Qed.
Lemma in_back k c' : In (k, c') l' -> exists c, In (k, c) l /\ P c c'.
Proof. intros I. apply in_members in I. destruct (forall2_in_r _ _ _ _ (H k) I) as (b & Ib & Hb). apply in_members in Ib. eauto. Qed.
End Members.
Lemma last_back (P : doc -> doc -> Prop) l l' k c' : (forall k, Forall2 P (members k l) (members k l')) ->
  last_binding l' k c' -> exists c, last_binding l k c /\ P c c'.
Proof. intros H L. apply (last_over (fun a b => P b a) l' l); [|exact L]. intros j. apply forall2_flip. exact (H j). Qed.

Lemma reordered_sym d : forall d', Reordered d d' -> Reordered d' d.
Proof.
  induction d as [d IHd] using doc_child_ind. intros d' H. inversion H as [|l l' HF|l l' HF]; subst; [constructor| |]; constructor.
  - clear H. induction HF as [|x y l l' HX HF IH]; constructor; [apply IHd; [left; reflexivity|exact HX]|]. apply IH. intros c Hc. apply IHd. right. exact Hc.
  - intros k. specialize (HF k). assert (IM : forall c, In c (members k l) -> forall d', Reordered c d' -> Reordered d' c).
    { intros c Hc. apply IHd. exists k. apply in_members, Hc. }
    clear -HF IM. induction HF as [|x y r r' HX HF IH]; constructor; [apply IM; [left; reflexivity|exact HX]|]. apply IH. intros c Hc. apply IM. right. exact Hc.
Qed.

(** ** json::Value *)
Lemma reordered_value d : forall d' j, doc_ok d' -> Reordered d d' -> JReads d j -> JReads d' j.
Proof.
  induction d as [d IHd] using doc_child_ind. intros d' j O' H R. inversion H as [|l l' HF|l l' HF]; subst; [exact R| |].
  - inversion R as [| | | | | |? js HJ|]; subst. constructor. apply doc_ok_arr in O'. clear H R. revert js O' HJ. induction HF as [|x y l l' HX HF IH]; intros js O' HJ; inversion HJ; subst; constructor.
    + inversion O'; subst. eapply IHd; [left; reflexivity|assumption|exact HX|assumption].
    + inversion O'; subst. apply IH; try assumption. intros c Hc. apply IHd. right. exact Hc.
  - inversion R as [| | | | | | |? kvs m HJ HM]; subst.
    assert (IH2 : forall k c c' w, In (k, c) l -> In (k, c') l' -> Reordered c c' -> JReads c w -> JReads c' w).
    { intros k c c' w I1 I2 C. apply (IHd c (ex_intro _ k I1)); [exact (doc_ok_in _ _ _ O' I2)|exact C]. }
    destruct (forall2_exists (fun (kd : bytes * doc) (kj : bytes * jval) => fst kd = fst kj /\ JReads (snd kd) (snd kj)) l') as (kvs' & HK).
    { intros [k c'] I'. destruct (in_back _ _ _ HF k c' I') as (c & I & C). destruct (forall2_in_l _ _ _ _ HJ I) as (kj & _ & _ & RJ). exists (k, snd kj). split; [reflexivity|]. exact (IH2 _ _ _ _ I I' C RJ). }
    econstructor; [exact HK|]. destruct HM as [HS HM]. split; [exact HS|]. intros k w. rewrite (HM k w). split.
    + intros L. destruct (proj2 (last_read l kvs k HJ) w L) as (c & LC & RC). destruct (last_over _ _ _ HF k c LC) as (c' & LC' & C). destruct (proj1 (last_read l' kvs' k HK) c' LC') as (w' & LW & RW).
      rewrite (JReads_fun c' w w' (doc_ok_in _ _ _ O' (last_in _ _ _ LC')) (IH2 _ _ _ _ (last_in _ _ _ LC) (last_in _ _ _ LC') C RC) RW). exact LW.
    + intros L. destruct (proj2 (last_read l' kvs' k HK) w L) as (c' & LC' & RC'). destruct (last_back _ _ _ k c' HF LC') as (c & LC & C). destruct (proj1 (last_read l kvs k HJ) c LC) as (w' & LW & RW).
      rewrite (JReads_fun c' w w' (doc_ok_in _ _ _ O' (last_in _ _ _ LC')) RC' (IH2 _ _ _ _ (last_in _ _ _ LC) (last_in _ _ _ LC') C RW)). exact LW.
Qed.

(** ** All types *)
Section Typed.
Context (E : env) (HE : env_ok E = true) (HKE : in_fields faithful_keys E = true).
Definition good (T : ty) : Prop := ty_ok T = true /\ faithful_keys T = true.
Lemma good_field id fs k i T : nth_error E id = Some (DStruct fs) -> nth_error fs i = Some (k, T) -> good T.
Proof using HE HKE. intros H1 H2. rewrite env_ok_fields in HE. split; [exact (field_ty E ty_ok id fs k i T HE H1 H2)|exact (field_ty E _ id fs k i T HKE H1 H2)]. Qed.

Theorem reordered_reads d : forall d', doc_ok d' -> Reordered d d' -> forall T v, good T -> Reads E T d v -> Reads E T d' v.
Proof using HE HKE.
  induction d as [d IHd] using doc_child_ind. intros d' O' H T v G R. revert d' O' H G.
  induction R as [|b|s|sg b n HI HS HB|n z HN|n f HN|n z HN|n f HN|T d v R IHR|T|T d v ND R IHR|A B d1 d2 a b R1 IH1 R2 IH2|T l vs HF|T n l vs HL HF|h K T l kvs m HF HM|d j J|n z HN|n z HN|n f HN|l js J|l m J|id fs l vs Hid HR HMM HL HV|id ns k i Hid HV];
    intros d' O' H G; try (inversion H; subst; econstructor; eassumption).
  - constructor. apply IHR; try assumption.
  - constructor; [|apply IHR; assumption]. intros ->. apply ND. inversion H; reflexivity.
  - destruct G as [G1 G2]. cbn in G1, G2. apply andb_true_iff in G1, G2. inversion H as [|? l' HF|]; subst; [constructor; assumption|].
    inversion HF as [|? c1 ? ? C1 HF1]; subst. inversion HF1 as [|? c2 ? ? C2 HF2]; subst. inversion HF2; subst. apply doc_ok_arr in O'. inversion O' as [|? ? O1 OR]; subst. inversion OR as [|? ? O2 _]; subst.
    constructor; [apply (IHd d1 (or_introl eq_refl) c1 O1 C1); [split; tauto|exact R1]|apply (IHd d2 (or_intror (or_introl eq_refl)) c2 O2 C2); [split; tauto|exact R2]].
  - assert (X : forall l', Forall doc_ok l' -> Forall2 Reordered l l' -> Forall2 (Reads E T) l' vs).
    { clear H O' d'. intros l' O' C. revert vs HF. induction C as [|x y l l' HX HC IH]; intros vs HF; inversion HF; subst; constructor; inversion O'; subst.
      - apply (IHd x (or_introl eq_refl) y); assumption.
      - apply IH; try assumption. intros c Hc. apply IHd. right. exact Hc. }
    inversion H as [|? l' HC|]; subst; [constructor; exact HF|]. constructor. apply X; [apply doc_ok_arr, O'|exact HC].
  - assert (X : forall l', Forall doc_ok l' -> Forall2 Reordered l l' -> Forall2 (Reads E T) l' vs).
    { clear H O' d' HL. intros l' O' C. revert vs HF. induction C as [|x y l l' HX HC IH]; intros vs HF; inversion HF; subst; constructor; inversion O'; subst.
      - apply (IHd x (or_introl eq_refl) y); assumption.
      - apply IH; try assumption. intros c Hc. apply IHd. right. exact Hc. }
    inversion H as [|? l' HC|]; subst; [constructor; [reflexivity|exact HF]|]. constructor; [exact (forall2_len _ _ _ HC)|]. apply X; [apply doc_ok_arr, O'|exact HC].
  - inversion H as [| |? l' HC]; subst; [econstructor; eassumption|]. destruct G as [G1 G2]. cbn in G1, G2. apply andb_true_iff in G1, G2. destruct G1 as [_ OT], G2 as [HK KT].
    assert (IH2 : forall k c c' w, In (k, c) l -> In (k, c') l' -> Reordered c c' -> Reads E T c w -> Reads E T c' w).
    { intros k c c' w I1 I2 C. apply (IHd c (ex_intro _ k I1) c' (doc_ok_in _ _ _ O' I2) C). split; assumption. }
    destruct (last_read_key E K T l kvs HK HF) as [L1 L2].
    destruct (forall2_exists (fun (kd : bytes * doc) (kv : val * val) => KeyReads K (fst kd) (fst kv) /\ Reads E T (snd kd) (snd kv)) l') as (kvs' & HF').
    { intros [k c'] I'. destruct (in_back _ _ _ HC k c' I') as (c & I & C). destruct (forall2_in_l _ _ _ _ HF I) as ([a w] & _ & KA & RW). exists (a, w). split; [exact KA|]. exact (IH2 _ _ _ _ I I' C RW). }
    destruct (last_read_key E K T l' kvs' HK HF') as [L1' L2']. econstructor; [exact HF'|]. destruct HM as [HS HM]. split; [exact HS|]. intros a w. rewrite (HM a w). split.
    + intros L. destruct (L2 a w L) as (k & c & LC & KA & RC). destruct (last_over _ _ _ HC k c LC) as (c' & LC' & C). destruct (L1' k c' LC') as (a' & w' & LA & KA' & RC').
      rewrite (KeyReads_fun K k a a' KA KA'). rewrite (Pd_fun E c' T w w' (reads_de E HE c' (doc_ok_in _ _ _ O' (last_in _ _ _ LC'))) OT (IH2 _ _ _ _ (last_in _ _ _ LC) (last_in _ _ _ LC') C RC) RC'). exact LA.
    + intros L. destruct (L2' a w L) as (k & c' & LC' & KA & RC'). destruct (last_back _ _ _ k c' HC LC') as (c & LC & C). destruct (L1 k c LC) as (a' & w' & LA & KA' & RC).
      rewrite (KeyReads_fun K k a a' KA KA'). rewrite (Pd_fun E c' T w w' (reads_de E HE c' (doc_ok_in _ _ _ O' (last_in _ _ _ LC'))) OT RC' (IH2 _ _ _ _ (last_in _ _ _ LC) (last_in _ _ _ LC') C RC)). exact LA.
  - constructor. eapply reordered_value; eassumption.
  - inversion H as [|? l' HC|]; subst; constructor; [exact J|]. eapply reordered_value; eassumption.
  - inversion H as [| |? l' HC]; subst; constructor; [exact J|]. eapply reordered_value; eassumption.
  - inversion H as [| |? l' HC]; subst; [eapply rd_struct; eassumption|].
    assert (IH2 : forall k c c' i T w, FieldAt fs k i T -> In (k, c) l -> In (k, c') l' -> Reordered c c' -> Reads E T c w -> Reads E T c' w).
    { intros k c c' i T w FA I1 I2 C. apply (IHd c (ex_intro _ k I1) c' (doc_ok_in _ _ _ O' I2) C). eapply good_field; [exact Hid|exact (proj1 FA)]. }
    eapply rd_struct; [exact Hid| | |exact HL|].
    + apply Forall_forall. intros [k c'] I'. destruct (in_back _ _ _ HC k c' I') as (c & I & C). rewrite Forall_forall in HR. destruct (HR _ I) as (j & J). exists j.
      apply (reordered_value c c' j (doc_ok_in _ _ _ O' I') C J).
    + intros k c' i T I' FA. destruct (in_back _ _ _ HC k c' I') as (c & I & C). destruct (HMM k c i T I FA) as (w & RW). exists w. exact (IH2 _ _ _ _ _ _ FA I I' C RW).
    + intros i n T w Hi Hw. destruct (HV i n T w Hi Hw) as [(FA & c & LC & RC)|(AB & OP & ->)].
      * left. split; [exact FA|]. destruct (last_over _ _ _ HC n c LC) as (c' & LC' & C). exists c'. split; [exact LC'|]. exact (IH2 _ _ _ _ _ _ FA (last_in _ _ _ LC) (last_in _ _ _ LC') C RC).
      * right. split; [|split; [exact OP|reflexivity]]. destruct AB as [AB|AB]; [left; exact AB|right]. intros c' I'. destruct (in_back _ _ _ HC n c' I') as (c & I & _). exact (AB c I).
Qed.
End Typed.
