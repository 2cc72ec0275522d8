(** C66: what a type reads does not change when a document is cleaned up. *)
From Coq Require Import String ZArith List Bool Lia Floats.SpecFloat.
From Verif Require Import Base Utf8 F64 Lexer Grammar LexSpec Types Reading MapFacts NumValue ReadFacts ReadMain TypedFacts Ser SerSpec RenderFacts WriteFacts NormFacts ThroughSpec.
Import ListNotations.
Open Scope Z_scope.

(** ** A document and its cleaned-up version: members of objects in another order, superseded
    members gone, integers spelled canonically. [fl]: floats may have changed, too, and -0 may
    have become 0. *)
Inductive cleaned (fl : bool) : doc -> doc -> Prop :=
| cl_null : cleaned fl DNull DNull
| cl_bool b : cleaned fl (DBool b) (DBool b)
| cl_str s : cleaned fl (DStr s) (DStr s)
| cl_int n n' : is_int_lit n -> is_int_lit n' -> lit_int n = lit_int n' -> i64_MIN <= lit_int n <= u64_MAX ->
    n_neg n' = (lit_int n' <? 0) -> (fl = false -> n_neg n = (lit_int n <? 0)) -> cleaned fl (DNum n) (DNum n')
| cl_float n n' f f' : fl = true -> reads_f n f -> reads_f n' f' -> cleaned fl (DNum n) (DNum n')
| cl_arr l l' : Forall2 (cleaned fl) l l' -> cleaned fl (DArr l) (DArr l')
| cl_obj l l' : NoDup (map fst l') ->
    (forall k d, last_binding l k d -> exists d', In (k, d') l' /\ cleaned fl d d') ->
    (forall k d', In (k, d') l' -> exists d, last_binding l k d /\ cleaned fl d d') ->
    cleaned fl (DObj l) (DObj l').

Lemma nodup_last {A} (l : list (bytes * A)) k d : NoDup (map fst l) -> (last_binding l k d <-> In (k, d) l).
Proof.
  intros N. split; [apply last_in|]. intros H. apply in_split in H. destruct H as (l1 & l2 & ->). exists l1, l2. split; [reflexivity|].
  rewrite map_app in N. apply NoDup_remove_2 in N. cbn [fst] in N. apply Forall_forall. intros [k2 d2] I1 E1. cbn [fst] in E1. subst k2. apply N.
  apply in_or_app. right. apply (in_map fst) in I1. exact I1.
Qed.
Lemma sorted_nodup {A} (m : list (bytes * A)) : sorted_keys bytes_cmp m = true -> NoDup (map fst m).
Proof.
  induction m as [|[k v] m IH]; intros S0; [constructor|]. apply sorted_below in S0. destruct S0 as [S1 B]. cbn [map fst]. constructor; [|apply IH, S1].
  intros I1. apply in_map_iff in I1. destruct I1 as (x & E1 & I1). rewrite Forall_forall in B. apply B in I1. rewrite E1, bytes_cmp_refl in I1. discriminate.
Qed.

(** An integer literal in the range of i64 and u64 is not a float. *)
Lemma int_not_float n f : num_ok n -> is_int_lit n -> i64_MIN <= lit_int n <= u64_MAX -> ~ reads_f n f.
Proof.
  intros HO HI HR HF. unfold reads_f in HF. destruct (n_neg n) eqn:NG.
  - assert (U : reads_i n (lit_int n)) by (unfold reads_i; repeat split; try apply HI; auto; lia). apply (lit_event_i n _ HO) in U. congruence.
  - assert (U : reads_u n (lit_int n)) by (unfold reads_u; repeat split; try apply HI; auto; lia). apply (lit_event_u n _ HO) in U. congruence.
Qed.
Lemma JReads_fun d j j' : doc_ok d -> JReads d j -> JReads d j' -> j = j'.
Proof.
  intros HD H H'. assert (HE : env_ok [] = true) by reflexivity. pose proof (Pd_fun [] d TValue (VJson j) (VJson j') (reads_de [] HE d HD) eq_refl (rd_value [] d j H) (rd_value [] d j' H')) as E1. congruence.
Qed.
Lemma zero_sign n : n_neg n = true -> Forall digit (n_int n) -> lit_int n <= 0.
Proof. unfold lit_int. intros -> H. pose proof (proj1 (int_digits_upper (n_int n) H)). lia. Qed.
Lemma pos_sign n : n_neg n = false -> Forall digit (n_int n) -> 0 <= lit_int n.
Proof. unfold lit_int. intros -> H. pose proof (proj1 (int_digits_upper (n_int n) H)). lia. Qed.

Lemma doc_ok_in l k d : doc_ok (DObj l) -> In (k, d) l -> doc_ok d.
Proof. intros H I1. apply doc_ok_obj in H. rewrite Forall_forall in H. apply (H _ I1). Qed.

Lemma forall2_len {A B} (P : A -> B -> Prop) l r : Forall2 P l r -> List.length r = List.length l.
Proof. induction 1; cbn [List.length]; congruence. Qed.
Lemma forall2_exists {A B} (P : A -> B -> Prop) l : (forall x, In x l -> exists y, P x y) -> exists r, Forall2 P l r.
Proof.
  induction l as [|x l IH]; intros H; [exists []; constructor|]. destruct (H x (or_introl eq_refl)) as (y & Hy). destruct IH as (r & Hr); [intros z Hz; apply H; right; exact Hz|].
  exists (y :: r). constructor; assumption.
Qed.
Lemma mapof_exists {A} (kvs : list (bytes * A)) : exists m, MapOf bytes_cmp kvs m.
Proof. eexists. apply MapOf_bytes. reflexivity. Qed.

(** ** Cleaned documents are readable. *)
Lemma cleaned_readable fl d : forall d', doc_ok d' -> cleaned fl d d' -> readable d'.
Proof.
  induction d as [|b|s|n|l IH|l IH] using doc_ind'; intros d' O H; inversion H as [| | |? n' I1 I2 EQ RG SG SG'|? n' f f' HF R R'|? l' HF|? l' N H1 H2]; subst.
  - eexists. constructor. - eexists. constructor. - eexists. constructor.
  - cbn [doc_ok] in O. destruct (n_neg n') eqn:NG.
    + exists (JvNum (NI64 (lit_int n'))). constructor. unfold reads_i. repeat split; try apply I2; auto. lia.
    + exists (JvNum (NU64 (lit_int n'))). constructor. unfold reads_u. repeat split; try apply I2; auto. lia.
  - eexists. apply jr_f, R'.
  - apply doc_ok_arr in O. assert (X : exists js, Forall2 JReads l' js).
    { clear H. revert O IH. induction HF as [|x y l l' HX HF IHF]; intros O IH; [exists []; constructor|]. inversion O; inversion IH; subst. destruct (IHF ltac:(assumption) ltac:(assumption)) as (js & HJ).
      match goal with HH : forall d', doc_ok d' -> cleaned fl x d' -> readable d' |- _ => destruct (HH y ltac:(assumption) HX) as (j & Hj) end. exists (j :: js). constructor; assumption. }
    destruct X as (js & X). eexists. constructor. exact X.
  - destruct (forall2_exists (fun (kd : bytes * doc) (kj : bytes * jval) => fst kd = fst kj /\ JReads (snd kd) (snd kj)) l') as (kvs & HK).
    { intros [k d'] I1. destruct (H2 k d' I1) as (d & L & C). apply last_in in L. rewrite Forall_forall in IH. destruct (IH _ L d' (doc_ok_in _ _ _ O I1) C) as (j & Hj). exists (k, j). split; [reflexivity|exact Hj]. }
    destruct (mapof_exists kvs) as (m & HM). eexists. econstructor; eassumption.
Qed.

(** ** json::Value *)
Lemma cleaned_value d : forall d' j, doc_ok d -> doc_ok d' -> cleaned false d d' -> JReads d j -> JReads d' j.
Proof.
  induction d as [|b|s|n|l IH|l IH] using doc_ind'; intros d' j O O' H R; inversion H as [| | |? n' I1 I2 EQ RG SG SG'|? n' f f' HF|? l' HF|? l' N H1 H2]; subst; try discriminate; try assumption.
  - specialize (SG' eq_refl). assert (NN : n_neg n' = n_neg n) by congruence.
    inversion R as [| | |? z U|? z U|? f F| |]; subst.
    + constructor. destruct U as (A & B & -> & C). unfold reads_u. split; [exact I2|]. split; [congruence|]. split; [congruence|lia].
    + constructor. destruct U as (A & B & -> & C). unfold reads_i. split; [exact I2|]. split; [congruence|]. split; [congruence|lia].
    + destruct (int_not_float n f O I1 RG F).
  - inversion R as [| | | | | |? js HJ|]; subst. constructor. apply doc_ok_arr in O, O'. clear H R. revert js HJ O O' IH. induction HF as [|x y l l' HX HF IHF]; intros js HJ O O' IH; inversion HJ; subst; [constructor|].
    inversion O; inversion O'; inversion IH; subst. constructor; [|apply IHF; assumption].
    match goal with HH : forall d' j, doc_ok x -> _ |- _ => apply HH; assumption end.
  - inversion R as [| | | | | | |? kvs m HF [HS HM]]; subst. rewrite Forall_forall in IH.
    assert (IH2 : forall k d0 d1 j, In (k, d0) l -> In (k, d1) l' -> cleaned false d0 d1 -> JReads d0 j -> JReads d1 j).
    { intros k d0 d1 j J1 J2 C0 R0. apply (IH _ J1 d1 j (doc_ok_in _ _ _ O J1) (doc_ok_in _ _ _ O' J2) C0 R0). }
    destruct (forall2_exists (fun (kd : bytes * doc) (kj : bytes * jval) => fst kd = fst kj /\ JReads (snd kd) (snd kj)) l') as (kvs' & HK).
    { intros [k d'] I1. destruct (H2 k d' I1) as (d & L & C). destruct (proj1 (last_read l kvs k HF) d L) as (j & _ & RJ). apply last_in in L. exists (k, j). split; [reflexivity|]. exact (IH2 _ _ _ _ L I1 C RJ). }
    econstructor; [exact HK|]. split; [exact HS|]. intros k j. rewrite (HM k j). split.
    + intros L. destruct (proj2 (last_read l kvs k HF) j L) as (d & LD & RJ). destruct (H1 k d LD) as (d' & I1 & C).
      pose proof (proj2 (nodup_last l' k d' N) I1) as L'. destruct (proj1 (last_read l' kvs' k HK) d' L') as (j' & LJ & RJ').
      rewrite (JReads_fun d' j j' (doc_ok_in _ _ _ O' I1) (IH2 _ _ _ _ (last_in _ _ _ LD) I1 C RJ) RJ'). exact LJ.
    + intros L. destruct (proj2 (last_read l' kvs' k HK) j L) as (d' & LD & RJ). apply last_in in LD. destruct (H2 k d' LD) as (d & L2 & C).
      destruct (proj1 (last_read l kvs k HF) d L2) as (j' & LJ & RJ'). rewrite (JReads_fun d' j j' (doc_ok_in _ _ _ O' LD) RJ (IH2 _ _ _ _ (last_in _ _ _ L2) LD C RJ')). exact LJ.
Qed.

(** ** All types *)
Section Reads.
Variable E : env.
Variable fl : bool.
Hypothesis HE : env_ok E = true.
Hypothesis HKE : in_fields faithful_keys E = true.
Hypothesis HFE : fl = true -> in_fields integers_at_most E = true.

Lemma field_ty (p : ty -> bool) id fs k i T : in_fields p E = true -> nth_error E id = Some (DStruct fs) -> nth_error fs i = Some (k, T) -> p T = true.
Proof.
  unfold in_fields. rewrite forallb_forall. intros H H1 H2. specialize (H _ (nth_error_In _ _ H1)). cbv beta iota in H. rewrite forallb_forall in H. exact (H _ (nth_error_In _ _ H2)).
Qed.
Lemma env_ok_fields : env_ok E = in_fields ty_ok E.
Proof. reflexivity. Qed.
Definition fine (T : ty) : Prop := ty_ok T = true /\ faithful_keys T = true /\ (fl = true -> integers_at_most T = true).
Lemma fine_field id fs k i T : nth_error E id = Some (DStruct fs) -> nth_error fs i = Some (k, T) -> fine T.
Proof. intros H1 H2. split; [exact (field_ty ty_ok id fs k i T HE H1 H2)|]. split; [exact (field_ty _ id fs k i T HKE H1 H2)|]. intros F. exact (field_ty _ id fs k i T (HFE F) H1 H2). Qed.
Definition keeps (d d' : doc) : Prop := forall T v, fine T -> Reads E T d v -> Reads E T d' v.

Lemma faithful K k v k' : (match K with KInt _ _ => false | _ => true end) = true -> KeyReads K k v -> KeyReads K k' v -> k = k'.
Proof. intros HK H H'. destruct K; try discriminate; inversion H; subst; inversion H'; subst; reflexivity. Qed.
Lemma KeyReads_fun K k v v' : KeyReads K k v -> KeyReads K k v' -> v = v'.
Proof. rewrite !key_reads_iff. congruence. Qed.
Lemma last_read_key K T l kvs : (match K with KInt _ _ => false | _ => true end) = true ->
  Forall2 (fun kd kv => KeyReads K (fst kd) (fst kv) /\ Reads E T (snd kd) (snd kv)) l kvs ->
  (forall k d, last_binding l k d -> exists a v, last_binding kvs a v /\ KeyReads K k a /\ Reads E T d v) /\
  (forall a v, last_binding kvs a v -> exists k d, last_binding l k d /\ KeyReads K k a /\ Reads E T d v).
Proof.
  intros HK H.
  assert (NB : forall k a, KeyReads K k a -> forall l kvs, Forall2 (fun kd kv => KeyReads K (fst kd) (fst kv) /\ Reads E T (snd kd) (snd kv)) l kvs ->
    (Forall (fun kv => fst kv <> k) l <-> Forall (fun kv => fst kv <> a) kvs)).
  { clear - HK. intros k a KA l kvs H. induction H as [|x y l kvs [R1 _] H IH]; [split; constructor|]. rewrite !Forall_cons_iff, IH. assert (fst x = k <-> fst y = a); [|tauto].
    split; intros EQ; [rewrite EQ in R1; exact (KeyReads_fun K k (fst y) a R1 KA)|rewrite EQ in R1; exact (faithful K (fst x) a k HK R1 KA)]. }
  split.
  - intros k d (l1 & l2 & -> & N). apply Forall2_app_inv_l in H. destruct H as (k1 & k2 & H1 & H2 & ->). inversion H2 as [|? [a v] ? k2' [R1 R2] H3]; subst. cbn [fst snd] in *.
    exists a, v. split; [|split; assumption]. exists k1, k2'. split; [reflexivity|]. apply (NB k a R1 _ _ H3), N.
  - intros a v (l1 & l2 & -> & N). apply Forall2_app_inv_r in H. destruct H as (k1 & k2 & H1 & H2 & ->). inversion H2 as [|[k d] ? k2' ? [R1 R2] H3]; subst. cbn [fst snd] in *.
    exists k, d. split; [|split; assumption]. exists k1, k2'. split; [reflexivity|]. apply (NB k a R1 _ _ H3), N.
Qed.

Lemma obj_not_null l l' : cleaned fl (DObj l) (DObj l') -> DObj l' <> DNull.
Proof. discriminate. Qed.
Lemma cleaned_null d d' : cleaned fl d d' -> (d = DNull <-> d' = DNull).
Proof. intros H. inversion H; subst; split; intros X; try discriminate; reflexivity. Qed.


Definition below (d : doc) : list doc := match d with DArr l => l | DObj l => map snd l | _ => [] end.
Lemma int_signed sg b z : int_min sg b <= z -> z < 0 -> sg = true.
Proof. destruct sg; [reflexivity|]. cbn [int_min]. lia. Qed.

Lemma map_keeps h K T l l' v : doc_ok (DObj l) -> doc_ok (DObj l') -> cleaned fl (DObj l) (DObj l') ->
  (forall k d d', In (k, d) l -> In (k, d') l' -> cleaned fl d d' -> keeps d d') ->
  fine (TMap h K T) -> Reads E (TMap h K T) (DObj l) v -> Reads E (TMap h K T) (DObj l') v.
Proof.
  intros O O' C IH (OT & KT & FT) R. cbn [ty_ok faithful_keys integers_at_most] in *. apply andb_true_iff in OT, KT. destruct OT as [_ OT], KT as [HK KT].
  assert (FN : fine T) by (split; [exact OT|split; [exact KT|exact FT]]).
  inversion R as [| | | | | | | | | | | | | |? ? ? ? kvs m HF HM| | | | | | | |]; subst. inversion C as [| | | | | |? ? N H1 H2]; subst.
  destruct (last_read_key K T l kvs HK HF) as [L1 L2].
  destruct (forall2_exists (fun (kd : bytes * doc) (kv : val * val) => KeyReads K (fst kd) (fst kv) /\ Reads E T (snd kd) (snd kv)) l') as (kvs' & HF').
  { intros [k d'] I1. destruct (H2 k d' I1) as (d & L & CC). destruct (L1 k d L) as (a & x & _ & KA & RX). exists (a, x). split; [exact KA|]. exact (IH k d d' (last_in _ _ _ L) I1 CC T x FN RX). }
  destruct (last_read_key K T l' kvs' HK HF') as [L1' L2']. econstructor; [exact HF'|]. destruct HM as [HS HM]. split; [exact HS|]. intros a x. rewrite (HM a x). split.
  - intros L. destruct (L2 a x L) as (k & d & LD & KA & RX). destruct (H1 k d LD) as (d' & I1 & CC). pose proof (IH k d d' (last_in _ _ _ LD) I1 CC T x FN RX) as RX'.
    destruct (L1' k d' (proj2 (nodup_last l' k d' N) I1)) as (a' & x' & LA & KA' & RX2). rewrite (KeyReads_fun K k a a' KA KA').
    rewrite (Pd_fun E d' T x x' (reads_de E HE d' (doc_ok_in _ _ _ O' I1)) OT RX' RX2). exact LA.
  - intros L. destruct (L2' a x L) as (k & d' & LD & KA & RX). apply last_in in LD. destruct (H2 k d' LD) as (d & L3 & CC). destruct (L1 k d L3) as (a' & x' & LA & KA' & RX2).
    pose proof (IH k d d' (last_in _ _ _ L3) LD CC T x' FN RX2) as RX3. rewrite (KeyReads_fun K k a a' KA KA').
    rewrite (Pd_fun E d' T x x' (reads_de E HE d' (doc_ok_in _ _ _ O' LD)) OT RX RX3). exact LA.
Qed.
Lemma struct_keeps id fs l l' vs : doc_ok (DObj l) -> doc_ok (DObj l') -> cleaned fl (DObj l) (DObj l') ->
  (forall k d d', In (k, d) l -> In (k, d') l' -> cleaned fl d d' -> keeps d d') ->
  nth_error E id = Some (DStruct fs) -> Reads E (TNamed id) (DObj l) (VStruct vs) -> Reads E (TNamed id) (DObj l') (VStruct vs).
Proof.
  intros O O' C IH HN R. inversion R as [| | | | | | | | | | | | | | | | | | | | |? fs0 ? ? HN0 HR HM HL HF|]; subst. assert (fs0 = fs) as -> by congruence.
  inversion C as [| | | | | |? ? N H1 H2]; subst.
  assert (FF : forall k i T, FieldAt fs k i T -> fine T) by (intros k i T [FA _]; eapply fine_field; eassumption).
  eapply rd_struct; [exact HN| | |exact HL|].
  - apply Forall_forall. intros [k d'] I1. destruct (H2 k d' I1) as (d & _ & CC). exact (cleaned_readable fl d d' (doc_ok_in _ _ _ O' I1) CC).
  - intros k d' i T I1 FA. destruct (H2 k d' I1) as (d & L & CC). destruct (HM k d i T (last_in _ _ _ L) FA) as (v & RV). exists v.
    exact (IH k d d' (last_in _ _ _ L) I1 CC T v (FF _ _ _ FA) RV).
  - intros i n T v HI HV. destruct (HF i n T v HI HV) as [(FA & d & L & RV)|(AB & OP & ->)].
    + left. split; [exact FA|]. destruct (H1 n d L) as (d' & I1 & CC). exists d'. split; [apply nodup_last; assumption|]. exact (IH n d d' (last_in _ _ _ L) I1 CC T v (FF _ _ _ FA) RV).
    + right. split; [|split; [exact OP|reflexivity]]. destruct AB as [AB|AB]; [left; exact AB|right]. intros d' I1. destruct (H2 n d' I1) as (d & L & _). exact (AB d (last_in _ _ _ L)).
Qed.
Lemma seq_keeps T l l' vs : Forall doc_ok l -> Forall doc_ok l' -> Forall2 (cleaned fl) l l' ->
  (forall x, In x l -> forall x', doc_ok x -> doc_ok x' -> cleaned fl x x' -> keeps x x') -> fine T -> Forall2 (Reads E T) l vs -> Forall2 (Reads E T) l' vs.
Proof.
  intros O O' C IH FN. revert vs. induction C as [|x y l l' HX HF IHF]; intros vs R; inversion R; subst; constructor.
  - inversion O; inversion O'; subst. apply (IH x (or_introl eq_refl) y); assumption.
  - inversion O; inversion O'; subst. apply IHF; try assumption. intros z Hz. apply IH. right. exact Hz.
Qed.

Lemma reads_step d d' : doc_ok d -> doc_ok d' -> cleaned fl d d' ->
  (forall x, In x (below d) -> forall x', doc_ok x -> doc_ok x' -> cleaned fl x x' -> keeps x x') -> keeps d d'.
Proof.
  intros O O' H SUB T. induction T as [| | |sg b0| | |T IHT|T IHT|A IHA B IHB|T IHT|T N IHT|h K T IHT| | | | |id]; intros v FN R; pose proof FN as (OT & KT & FT); cbn [ty_ok faithful_keys integers_at_most] in *.
  - inversion R; subst. inversion H; subst. constructor.
  - inversion R; subst. inversion H; subst. constructor.
  - inversion R; subst. inversion H; subst. constructor.
  - inversion R as [| | |? ? n I1 SG RG| | | | | | | | | | | | | | | | | | |]; subst. pose proof (int_range sg b0 OT) as IR. inversion H as [| | |? n' J1 J2 EQ RR SN _|? n' f f' _ RF _| |]; subst.
    + rewrite EQ. constructor; [exact J2| |lia]. intros NG. apply (int_signed sg b0 (lit_int n')); [lia|]. rewrite SN in NG. lia.
    + exfalso. refine (int_not_float n f O I1 _ RF). lia.
  - destruct fl eqn:EF; [discriminate (FT eq_refl)|]. inversion R as [| | | | | |? z U|? f F| | | | | | | | | | | | | | |]; subst; inversion H as [| | |? n' J1 J2 EQ RR SN SN'|? ? ? ? X| |]; subst; try discriminate; specialize (SN' eq_refl).
    + apply rd_f32_int. destruct U as [(U1 & U2 & -> & U3)|(U1 & U2 & -> & U3)]; [left|right]; (split; [exact J2|]; split; [congruence|]; split; [congruence|lia]).
    + destruct (int_not_float n f O J1 RR F).
  - destruct fl eqn:EF; [discriminate (FT eq_refl)|]. inversion R as [| | | |? z U|? f F| | | | | | | | | | | | | | | | |]; subst; inversion H as [| | |? n' J1 J2 EQ RR SN SN'|? ? ? ? X| |]; subst; try discriminate; specialize (SN' eq_refl).
    + apply rd_f64_int. destruct U as [(U1 & U2 & -> & U3)|(U1 & U2 & -> & U3)]; [left|right]; (split; [exact J2|]; split; [congruence|]; split; [congruence|lia]).
    + destruct (int_not_float n f O J1 RR F).
  - inversion R; subst. constructor. apply IHT; assumption.
  - inversion R as [| | | | | | | | |?|? ? v' ND R'| | | | | | | | | | | |]; subst.
    + inversion H; subst. constructor.
    + constructor; [|apply IHT; assumption]. intros X. apply ND. apply (cleaned_null d d' H). exact X.
  - inversion R; subst. apply andb_true_iff in OT, KT. inversion H as [| | | | |? l' HF|]; subst.
    inversion HF as [|? x1 ? l1 C1 HF1]; subst. inversion HF1 as [|? x2 ? l2 C2 HF2]; subst. inversion HF2; subst. apply doc_ok_arr in O, O'. inversion O as [|? ? O1 O2]; inversion O' as [|? ? O1' O2']; subst. inversion O2; inversion O2'; subst. cbn [below] in SUB.
    assert (FA : fine A) by (split; [apply OT|split; [apply KT|intros F; exact (proj1 (proj1 (andb_true_iff _ _) (FT F)))]]).
    assert (FB : fine B) by (split; [apply OT|split; [apply KT|intros F; exact (proj2 (proj1 (andb_true_iff _ _) (FT F)))]]).
    constructor; [apply (SUB d1 (or_introl eq_refl) x1); assumption|apply (SUB d2 (or_intror (or_introl eq_refl)) x2); assumption].
  - inversion R; subst. inversion H as [| | | | |? l' HF|]; subst. constructor. apply doc_ok_arr in O, O'. eapply (seq_keeps T); [exact O|exact O'|exact HF|exact SUB|split; [exact OT|split; [exact KT|exact FT]]|assumption].
  - inversion R; subst. inversion H as [| | | | |? l' HF|]; subst. apply doc_ok_arr in O, O'. apply rd_arr; [exact (forall2_len _ _ _ HF)|]. eapply (seq_keeps T); [exact O|exact O'|exact HF|exact SUB|split; [exact OT|split; [exact KT|exact FT]]|assumption].
  - assert (exists l, d = DObj l) as [l ->] by (inversion R; eauto). assert (exists l', d' = DObj l') as [l' ->] by (inversion H; eauto).
    apply (map_keeps h K T l l' v O O' H); [|exact FN|exact R]. intros k x x' I1 I2 C. apply SUB; [apply (in_map snd) in I1; exact I1|exact (doc_ok_in _ _ _ O I1)|exact (doc_ok_in _ _ _ O' I2)|exact C].
  - destruct fl eqn:EF; [discriminate (FT eq_refl)|]. inversion R; subst. constructor. apply (cleaned_value d d' _ O O' H). assumption.
  - destruct fl eqn:EF; [discriminate (FT eq_refl)|]. inversion R as [| | | | | | | | | | | | | | | |n z U|n z U|n f U| | | |]; subst; (assert (exists n', d' = DNum n') as [n' ->] by (inversion H; eauto)).
    + pose proof (cleaned_value _ _ _ O O' H (jr_u n z U)) as X. inversion X; subst. constructor. assumption.
    + pose proof (cleaned_value _ _ _ O O' H (jr_i n z U)) as X. inversion X; subst. constructor. assumption.
    + pose proof (cleaned_value _ _ _ O O' H (jr_f n f U)) as X. inversion X; subst. constructor. assumption.
  - destruct fl eqn:EF; [discriminate (FT eq_refl)|]. inversion R as [| | | | | | | | | | | | | | | | | | |? ? X| | |]; subst. pose proof (cleaned_value _ _ _ O O' H X) as Y. inversion Y; subst. constructor. assumption.
  - destruct fl eqn:EF; [discriminate (FT eq_refl)|]. inversion R as [| | | | | | | | | | | | | | | | | | | |? ? X| |]; subst. pose proof (cleaned_value _ _ _ O O' H X) as Y. inversion Y; subst. constructor. assumption.
  - inversion R as [| | | | | | | | | | | | | | | | | | | | |? fs l vs HN|? ns k i HN HV]; subst.
    + assert (exists l', d' = DObj l') as [l' ->] by (inversion H; eauto). apply (struct_keeps id fs l l' vs O O' H); [|exact HN|exact R].
      intros k x x' I1 I2 C. apply SUB; [apply (in_map snd) in I1; exact I1|exact (doc_ok_in _ _ _ O I1)|exact (doc_ok_in _ _ _ O' I2)|exact C].
    + inversion H; subst. econstructor; eassumption.
Qed.
Theorem cleaned_reads d : forall d', doc_ok d -> doc_ok d' -> cleaned fl d d' -> keeps d d'.
Proof.
  induction d as [|b|s|n|l IH|l IH] using doc_ind'; intros d' O O' H; apply reads_step; auto; cbn [below]; try (intros x []).
  - intros x I1. rewrite Forall_forall in IH. exact (IH x I1).
  - intros x I1. apply in_map_iff in I1. destruct I1 as ([k y] & <- & I1). rewrite Forall_forall in IH. exact (IH _ I1).
Qed.
End Reads.

(** ** Cleaned-up documents: those that say a value. *)
Lemma plain_arr l : plain_integers (DArr l) <-> Forall plain_integers l.
Proof. induction l as [|d l IH]; [split; constructor|]. rewrite Forall_cons_iff, <- IH. reflexivity. Qed.
Lemma plain_obj l : plain_integers (DObj l) <-> Forall (fun kd => plain_integers (snd kd)) l.
Proof. induction l as [|d l IH]; [split; constructor|]. rewrite Forall_cons_iff, <- IH. reflexivity. Qed.
Lemma distinct_arr l : distinct_keys (DArr l) <-> Forall distinct_keys l.
Proof. induction l as [|d l IH]; [split; constructor|]. rewrite Forall_cons_iff, <- IH. reflexivity. Qed.
Lemma distinct_obj l : distinct_keys (DObj l) <-> NoDup (map fst l) /\ Forall (fun kd => distinct_keys (snd kd)) l.
Proof.
  cbn [distinct_keys]. assert (X : forall l, (fix go l := match l with [] => True | x :: r => distinct_keys (snd x) /\ go r end) l <-> Forall (fun kd : bytes * doc => distinct_keys (snd kd)) l).
  { clear. induction l as [|d l IH]; [split; constructor|]. rewrite Forall_cons_iff, <- IH. reflexivity. }
  rewrite X. reflexivity.
Qed.

Lemma read_written_num fl n n' m : num_ok n -> JReads (DNum n) (JvNum m) -> Denotes (ntree m) (DNum n') -> readable (DNum n') ->
  (fl = false -> plain_integers (DNum n)) -> cleaned fl (DNum n) (DNum n').
Proof.
  intros O R D (j' & R') P. assert (PS : is_int_lit n -> lit_int n <> 0 -> n_neg n = (lit_int n <? 0)).
  { intros I1 NZ. destruct (n_neg n) eqn:NG; [pose proof (zero_sign n NG O)|pose proof (pos_sign n NG O)]; lia. }
  unfold ntree in D. inversion R as [| | |? z U|? z U|? f F| |]; subst; cbn [jtree] in D; inversion D as [| | |? ? A1 A2 A3|? ? A1 A2 A3|? ? B1 B2 B3 B4| | |]; subst.
  - destruct U as (U1 & U2 & U3 & U4). apply cl_int; try assumption; [congruence|unfold i64_MIN; pose proof (pos_sign n U2 O); lia|]. intros F. apply P in F. apply F.
  - destruct U as (U1 & U2 & U3 & U4). apply cl_int; try assumption; [congruence|unfold u64_MAX; pose proof (zero_sign n U2 O); lia|]. intros F. apply P in F. apply F.
  - destruct fl.
    + inversion R' as [| | |? ? V|? ? V|? f' F'| |]; subst; [destruct B2; apply V|destruct B2; apply V|]. eapply cl_float; [reflexivity|exact F|exact F'].
    + destruct (P eq_refl) as (P1 & P2 & _). destruct (int_not_float n f O P1 P2 F).
Qed.
Lemma read_written fl d : forall j d', doc_ok d -> dgood d -> JReads d j -> Denotes (jtree j) d' -> readable d' -> (fl = false -> plain_integers d) -> cleaned fl d d'.
Proof.
  induction d as [|b|s|n|l IH|l IH] using doc_ind'; intros j d' O G R D RD P.
  - inversion R; subst. inversion D; subst. constructor.
  - inversion R; subst. inversion D; subst. constructor.
  - inversion R; subst. inversion D; subst. constructor.
  - assert (exists m, j = JvNum m) as [m ->] by (inversion R; eauto).
    assert (exists n', d' = DNum n') as [n' ->].
    { pose proof (read_finite _ _ G R) as FIN. destruct m as [z|z|f]; cbn [jtree all_finite] in *; inversion D; subst; eauto; congruence. }
    exact (read_written_num fl n n' m O R D RD P).
  - inversion R as [| | | | | |? js HF|]; subst. cbn [jtree] in D. inversion D as [| | | | | | |? ds HD|]; subst. constructor.
    assert (RD' : Forall readable ds).
    { destruct RD as (j' & RD). inversion RD as [| | | | | |? js' HF'|]; subst. clear -HF'. induction HF'; constructor; [eexists; eassumption|assumption]. }
    apply doc_ok_arr in O. apply dgood_arr in G. assert (P' : fl = false -> Forall plain_integers l) by (intros F; apply plain_arr; auto). clear R D RD P.
    revert ds HD RD'. induction HF as [|x y l js HX HF IHF]; intros ds HD RD'; cbn [map] in HD; inversion HD; subst; constructor.
    + inversion IH; inversion O; inversion G; inversion RD'; subst. match goal with HH : forall j d', doc_ok x -> _ |- _ => apply (HH y); try assumption end. intros F. specialize (P' F). inversion P'; assumption.
    + inversion IH; inversion O; inversion G; inversion RD'; subst. apply IHF; try assumption. intros F. specialize (P' F). inversion P'; assumption.
  - inversion R as [| | | | | | |? kvs m HF [HS HM]]; subst. cbn [jtree] in D. inversion D as [| | | | | | | |? ds HD]; subst.
    assert (RD' : forall k d', In (k, d') ds -> readable d').
    { destruct RD as (j' & RD). inversion RD as [| | | | | | |? kvs' m' HF' _]; subst. clear -HF'. induction HF' as [|x y l' kvs' [_ A] HF' IH]; intros k d' []; [subst x; eexists; exact A|eapply IH; eassumption]. }
    apply doc_ok_obj in O. apply dgood_obj in G. assert (P' : fl = false -> Forall (fun kd => plain_integers (snd kd)) l) by (intros F; apply plain_obj; auto).
    assert (KE : map fst ds = map fst m).
    { clear -HD. revert ds HD. induction m as [|x m IHm]; intros ds HD; cbn [map] in HD; inversion HD as [|? ? ? ? [A _]]; subst; [reflexivity|]. cbn [map]. cbn [fst] in A. rewrite <- A. f_equal. apply IHm. assumption. }
    assert (M1 : forall k d', In (k, d') ds -> exists a, In (k, a) m /\ Denotes (jtree a) d').
    { clear -HD. revert ds HD. induction m as [|[k0 a0] m IHm]; intros ds HD k d' I1; cbn [map] in HD; inversion HD as [|? [k1 d1] ? ds' [A B]]; subst; [destruct I1|]. cbn [fst snd] in *. subst k1.
      destruct I1 as [EQ|I1]; [injection EQ as <- <-; exists a0; split; [left; reflexivity|exact B]|]. destruct (IHm ds' ltac:(assumption) k d' I1) as (a & X & Y). exists a. split; [right; exact X|exact Y]. }
    assert (M2 : forall k a, In (k, a) m -> exists d', In (k, d') ds /\ Denotes (jtree a) d').
    { clear -HD. revert ds HD. induction m as [|[k0 a0] m IHm]; intros ds HD k a I1; cbn [map] in HD; inversion HD as [|? [k1 d1] ? ds' [A B]]; subst; [destruct I1|]. cbn [fst snd] in *. subst k1.
      destruct I1 as [EQ|I1]; [injection EQ as <- <-; exists d1; split; [left; reflexivity|exact B]|]. destruct (IHm ds' ltac:(assumption) k a I1) as (x & X & Y). exists x. split; [right; exact X|exact Y]. }
    rewrite Forall_forall in IH, O, G.
    assert (IH' : forall k x x' a, In (k, x) l -> In (k, x') ds -> JReads x a -> Denotes (jtree a) x' -> cleaned fl x x').
    { intros k x x' a I1 I2 RX DX. apply (IH _ I1 a x' (O _ I1) (proj2 (G _ I1)) RX DX (RD' k x' I2)). intros F. specialize (P' F). rewrite Forall_forall in P'. exact (P' _ I1). }
    constructor.
    + rewrite KE. apply sorted_nodup, HS.
    + intros k x L. destruct (proj1 (last_read l kvs k HF) x L) as (a & LA & RX). apply HM in LA. destruct (M2 k a LA) as (x' & I2 & DX). exists x'. split; [exact I2|]. exact (IH' k x x' a (last_in _ _ _ L) I2 RX DX).
    + intros k x' I2. destruct (M1 k x' I2) as (a & IA & DX). apply HM in IA. destruct (proj2 (last_read l kvs k HF) a IA) as (x & L & RX). exists x. split; [exact L|]. exact (IH' k x x' a (last_in _ _ _ L) I2 RX DX).
Qed.

(** Without superseded members and -0, cleaning up can be undone. *)
Lemma cleaned_sym d : forall d', cleaned false d d' -> distinct_keys d -> cleaned false d' d.
Proof.
  induction d as [|b|s|n|l IH|l IH] using doc_ind'; intros d' H DK; inversion H as [| | |? n' I1 I2 EQ RG SG SG'|? n' f f' HF|? l' HF|? l' N H1 H2]; subst; try constructor; try discriminate; try assumption.
  - congruence. - lia. - apply SG'. reflexivity. - intros _. exact SG.
  - apply distinct_arr in DK. clear H. revert DK IH. induction HF as [|x y l l' HX HF IHF]; intros DK IH; [constructor|]. inversion DK; inversion IH; subst. constructor; [auto|apply IHF; assumption].
  - apply distinct_obj in DK. apply DK.
  - apply distinct_obj in DK. destruct DK as [DN DK]. rewrite Forall_forall in IH, DK. intros k d' L. apply last_in in L. destruct (H2 k d' L) as (d & L2 & C). apply last_in in L2. exists d. split; [exact L2|]. exact (IH _ L2 d' C (DK _ L2)).
  - apply distinct_obj in DK. destruct DK as [DN DK]. rewrite Forall_forall in IH, DK. intros k d I0. destruct (H1 k d (proj2 (nodup_last l k d DN) I0)) as (d' & I2 & C). exists d'. split; [apply nodup_last; assumption|]. exact (IH _ I0 d' C (DK _ I0)).
Qed.
