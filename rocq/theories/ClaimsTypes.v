(** Claims about the target types: C16 - C26. *)
From Coq Require Import String ZArith List Bool Lia Permutation Floats.SpecFloat.
From Verif Require Import Base Utf8 Utf8Facts F64 Lexer Driver Grammar LexSpec Types Impls Tree TreeFacts GrammarFacts Unambiguous HeapFacts
  Reading MapFacts ReadFacts ReadMain FromStr ParseFacts VisitFacts NumValue DocSpec TypedFacts ClaimsParse.
Import ListNotations.
Open Scope Z_scope.

(** ** C16 *)
Theorem C16_from_str_denotation E k oc T s v :
  text_ok s -> ty_ok T = true -> env_ok E = true -> (wrap_depth E T < k)%nat ->
  (from_str E k oc T s = Ok v <-> exists d, JText d s /\ Reads E T d v).
Proof. apply from_str_reads. Qed.

(** The result is a well-formed value of the type. *)
Theorem C16_result_is_well_typed E k oc T s v :
  text_ok s -> ty_ok T = true -> env_ok E = true -> (wrap_depth E T < k)%nat ->
  from_str E k oc T s = Ok v -> has_type E T v.
Proof.
  intros Hs HT HE Hk H. apply from_str_reads in H; auto. destruct H as (d & Hd & HR).
  pose proof (reads_readable E T d v s Hd HT HE HR) as HR'.
  eapply reads_typed; [eapply JText_good; [apply Hs|exact Hd|exact HR']|exact HR].
Qed.

(** A document has at most one reading. *)
Theorem C16_reading_is_functional E T d s v v' :
  text_ok s -> ty_ok T = true -> env_ok E = true -> JText d s -> Reads E T d v -> Reads E T d v' -> v = v'.
Proof.
  intros Hs HT HE Hd H1 H2.
  assert (A : from_str E (S (wrap_depth E T)) true T s = Ok v) by (apply from_str_reads; eauto; lia).
  assert (B : from_str E (S (wrap_depth E T)) true T s = Ok v') by (apply from_str_reads; eauto; lia).
  congruence.
Qed.

Lemma same_reads E k oc T d1 d2 s1 s2 :
  text_ok s1 -> text_ok s2 -> ty_ok T = true -> env_ok E = true -> (wrap_depth E T < k)%nat ->
  JText d1 s1 -> JText d2 s2 -> (forall v, Reads E T d1 v <-> Reads E T d2 v) -> from_str E k oc T s1 = from_str E k oc T s2.
Proof.
  intros H1 H2 HT HE Hk D1 D2 HR.
  assert (A : forall v, from_str E k oc T s1 = Ok v <-> from_str E k oc T s2 = Ok v).
  { intros v. rewrite !from_str_reads by assumption. split; intros (d & Hd & R).
    - exists d2. split; [exact D2|]. apply HR. rewrite (JText_unique _ _ _ D1 Hd). exact R.
    - exists d1. split; [exact D1|]. apply HR. rewrite (JText_unique _ _ _ D2 Hd). exact R. }
  destruct (C03_from_str_total E k oc T s1 H1 Hk) as [[v K]|K], (C03_from_str_total E k oc T s2 H2 Hk) as [[v' K']|K']; try congruence.
  - apply A in K as K2. congruence.
  - apply A in K. congruence.
  - apply A in K'. congruence.
Qed.

Lemma reject_reads E k oc T d s :
  text_ok s -> ty_ok T = true -> env_ok E = true -> (wrap_depth E T < k)%nat -> JText d s ->
  (forall v, ~ Reads E T d v) -> from_str E k oc T s = Err.
Proof.
  intros Hs HT HE Hk Hd HN. destruct (C03_from_str_total E k oc T s Hs Hk) as [[v K]|K]; [|exact K].
  apply from_str_reads in K; auto. destruct K as (d' & Hd' & R). rewrite <- (JText_unique _ _ _ Hd Hd') in R. destruct (HN v R).
Qed.

(** ** C17 *)
Lemma last_binding_eq_dec (k : bytes) k' : {k = k'} + {k <> k'}.
Proof. apply list_eq_dec, Z.eq_dec. Qed.
Lemma last_binding_exists {A} (l : list (bytes * A)) k v : In (k, v) l -> exists w, last_binding l k w.
Proof.
  revert v. induction l as [|[k0 v0] l IH]; intros v H; [destruct H|].
  destruct (in_dec last_binding_eq_dec k (map fst l)) as [HI|HN].
  - apply in_map_iff in HI. destruct HI as ([k1 v1] & E & HI). cbn in E. subst k1. destruct (IH _ HI) as (w & l1 & l2 & -> & HF).
    exists w, ((k0, v0) :: l1), l2. auto.
  - destruct H as [[= -> ->]|H]; [|exfalso; apply HN; apply (in_map fst) in H; exact H].
    exists v, [], l. split; [reflexivity|]. apply Forall_forall. intros [k1 v1] H1 E. cbn in E. subst k1. apply HN. apply (in_map fst) in H1. exact H1.
Qed.

Section Struct.
Variable E : env.
Variable k : nat.
Variable oc : bool.
Variable id : nat.
Variable fs : list (bytes * ty).
Hypothesis Hid : nth_error E id = Some (DStruct fs).
Hypothesis HE : env_ok E = true.
Hypothesis Hk : (wrap_depth E (TNamed id) < k)%nat.

Lemma struct_inv l v : Reads E (TNamed id) (DObj l) v ->
  exists vs, v = VStruct vs /\ Forall (fun kd => readable (snd kd)) l /\
    (forall k d i T, In (k, d) l -> FieldAt fs k i T -> exists v, Reads E T d v) /\
    List.length vs = List.length fs /\
    (forall i n T v, nth_error fs i = Some (n, T) -> nth_error vs i = Some v ->
       (FieldAt fs n i T /\ exists d, last_binding l n d /\ Reads E T d v) \/
       ((~ FieldAt fs n i T \/ forall d, ~ In (n, d) l) /\ (exists T', T = TOption T') /\ v = VNone)).
Proof.
  intros H. inversion H as [| | | | | | | | | | | | | | | | | | | | |id' fs' l' vs H1 H2 H3 H4 H5|id' ns k' i H1 H2]; subst.
  rewrite Hid in H1. injection H1 as <-. exists vs. auto.
Qed.

Lemma nth_length {A B} (l : list A) (l' : list B) i a : List.length l' = List.length l -> nth_error l i = Some a -> exists b, nth_error l' i = Some b.
Proof.
  intros HL H. assert (i < List.length l')%nat by (rewrite HL; apply nth_error_Some; congruence).
  destruct (nth_error l' i) eqn:EQ; [eauto|]. apply nth_error_None in EQ. lia.
Qed.

(** Missing field: an error unless the type is Option. *)
Theorem C17_missing_field_is_an_error s l n T :
  text_ok s -> JText (DObj l) s -> In (n, T) fs -> (forall T', T <> TOption T') -> (forall d, ~ In (n, d) l) ->
  from_str E k oc (TNamed id) s = Err.
Proof.
  intros Hs Hd Hf HO HM. eapply reject_reads; [exact Hs|reflexivity|exact HE|exact Hk|exact Hd|].
  intros v HR. apply struct_inv in HR. destruct HR as (vs & -> & _ & _ & HL & HV).
  apply In_nth_error in Hf. destruct Hf as [i Hi]. destruct (nth_length _ vs _ _ HL Hi) as [w Hw].
  destruct (HV i n T w Hi Hw) as [(_ & d & Hl & _)|(_ & [T' ->] & _)]; [eapply HM, last_in, Hl|eapply HO; reflexivity].
Qed.

Theorem C17_missing_option_is_none s l n T i vs :
  text_ok s -> JText (DObj l) s -> from_str E k oc (TNamed id) s = Ok (VStruct vs) ->
  nth_error fs i = Some (n, TOption T) -> (forall d, ~ In (n, d) l) -> nth_error vs i = Some VNone.
Proof.
  intros Hs Hd H Hi HM. apply from_str_reads in H; auto. destruct H as (d & Hd' & HR).
  rewrite <- (JText_unique _ _ _ Hd Hd') in HR. apply struct_inv in HR. destruct HR as (vs' & [= <-] & _ & _ & HL & HV).
  destruct (nth_length _ vs _ _ HL Hi) as [w Hw]. rewrite Hw. f_equal.
  destruct (HV i n _ w Hi Hw) as [(_ & d' & Hl & _)|(_ & _ & ->)]; [destruct (HM d' (last_in _ _ _ Hl))|reflexivity].
Qed.

(** With distinct field names: the last occurrence of a field's name gives its value, and
    every occurrence is read at the field's type. *)
Lemma field_at i n T : NoDup (map fst fs) -> nth_error fs i = Some (n, T) -> FieldAt fs n i T.
Proof.
  intros HN Hi. split; [exact Hi|]. intros j T' Hj Hn. rewrite NoDup_nth_error in HN.
  assert (j = i); [|lia]. apply HN.
  - rewrite map_length. apply nth_error_Some. congruence.
  - rewrite !nth_error_map, Hi, Hn. reflexivity.
Qed.
Theorem C17_last_occurrence_wins s l n T i vs d :
  NoDup (map fst fs) -> text_ok s -> JText (DObj l) s -> from_str E k oc (TNamed id) s = Ok (VStruct vs) ->
  nth_error fs i = Some (n, T) -> last_binding l n d ->
  (exists v, nth_error vs i = Some v /\ Reads E T d v) /\
  forall d', In (n, d') l -> exists v', Reads E T d' v'.
Proof.
  intros HN Hs Hd H Hi HB. apply from_str_reads in H; auto. destruct H as (d0 & Hd' & HR).
  rewrite <- (JText_unique _ _ _ Hd Hd') in HR. apply struct_inv in HR. destruct HR as (vs' & [= <-] & _ & HM & HL & HV).
  pose proof (field_at i n T HN Hi) as FA. split.
  - destruct (nth_length _ vs _ _ HL Hi) as [w Hw]. exists w. split; [exact Hw|].
    destruct (HV i n T w Hi Hw) as [(_ & d' & Hl & R)|([N|N] & _)].
    + destruct Hl as (a1 & a2 & E1 & F1), HB as (b1 & b2 & E2 & F2). rewrite E1 in E2.
      assert (d' = d); [|congruence]. clear -E2 F1 F2. revert b1 E2. induction a1 as [|x a1 IH]; intros [|y b1] E2; cbn [app] in E2.
      * congruence.
      * exfalso. injection E2 as E2 E3. subst a2 y. rewrite Forall_forall in F1. apply (F1 (n, d)); [apply in_or_app; right; left; reflexivity|reflexivity].
      * exfalso. injection E2 as E2 E3. subst b2 x. rewrite Forall_forall in F2. apply (F2 (n, d')); [apply in_or_app; right; left; reflexivity|reflexivity].
      * injection E2 as _ E2. eapply IH, E2.
    + contradiction.
    + destruct (N d (last_in _ _ _ HB)).
  - intros d' Hin. eapply HM; eassumption.
Qed.

Lemma binding_other {A} (l1 l2 : list (bytes * A)) n k0 d w : n <> k0 ->
  (last_binding (l1 ++ (k0, d) :: l2) n w <-> last_binding (l1 ++ l2) n w).
Proof.
  intros HN. split.
  - intros (a & b & E0 & HF). assert (HI : In (n, w) (l1 ++ l2)).
    { assert (K : In (n, w) (l1 ++ (k0, d) :: l2)) by (rewrite E0; apply in_or_app; right; left; reflexivity).
      apply in_app_or in K. apply in_or_app. destruct K as [K|[K|K]]; [left; exact K|congruence|right; exact K]. }
    revert a E0. induction l1 as [|x l1 IH]; intros a E0; cbn [app] in *.
    + destruct a as [|y a]; cbn [app] in E0; [injection E0 as E1 E2; congruence|]. injection E0 as _ ->. exists a, b. auto.
    + destruct a as [|y a]; cbn [app] in E0; injection E0 as -> E0.
      * exists [], (l1 ++ l2). split; [reflexivity|]. subst b. apply Forall_app in HF. destruct HF as [F1 F2]. inversion F2; subst. apply Forall_app. auto.
      * assert (K : last_binding (l1 ++ l2) n w \/ ~ In (n, w) (l1 ++ l2)).
        { destruct HI as [->|HI]; [|left; apply (IH HI a E0)].
          destruct (in_dec last_binding_eq_dec n (map fst (l1 ++ l2))) as [J|J].
          - left. assert (JJ : In (n, w) (l1 ++ l2)).
            { assert (K : In (n, w) (l1 ++ (k0, d) :: l2)) by (rewrite E0; apply in_or_app; right; left; reflexivity).
              apply in_app_or in K. apply in_or_app. destruct K as [K|[K|K]]; [left; exact K|congruence|right; exact K]. }
            apply (IH JJ a E0).
          - right. intros K. apply J. apply (in_map fst) in K. exact K. }
        destruct K as [(a' & b' & E1 & F1)|K].
        -- exists (y :: a'), b'. cbn [app]. rewrite E1. auto.
        -- exfalso. apply K. assert (K2 : In (n, w) (l1 ++ (k0, d) :: l2)) by (rewrite E0; apply in_or_app; right; left; reflexivity).
           apply in_app_or in K2. apply in_or_app. destruct K2 as [K2|[K2|K2]]; [left; exact K2|congruence|right; exact K2].
  - intros (a & b & E0 & HF). revert a E0. induction l1 as [|x l1 IH]; intros a E0; cbn [app] in *.
    + subst l2. exists ((k0, d) :: a), b. auto.
    + destruct a as [|y a]; cbn [app] in E0; injection E0 as -> E0.
      * exists [], (l1 ++ (k0, d) :: l2). split; [reflexivity|]. subst b. apply Forall_app in HF. destruct HF as [F1 F2]. apply Forall_app. split; [exact F1|]. constructor; [cbn; congruence|exact F2].
      * destruct (IH a E0) as (a' & b' & E1 & F1). exists (y :: a'), b'. cbn [app]. rewrite E1. auto.
Qed.

Lemma struct_skip l1 l2 n d v : ~ In n (map fst fs) -> readable d ->
  (Reads E (TNamed id) (DObj (l1 ++ (n, d) :: l2)) v <-> Reads E (TNamed id) (DObj (l1 ++ l2)) v).
Proof.
  intros HN HD.
  assert (NF : forall n0 i T, nth_error fs i = Some (n0, T) -> n0 <> n).
  { intros n0 i T Hi ->. apply HN. apply nth_error_In in Hi. apply (in_map fst) in Hi. exact Hi. }
  split; intros H; apply struct_inv in H; destruct H as (vs & -> & H1 & H2 & H3 & H4); (eapply rd_struct; [exact Hid| | |exact H3|]).
  - apply Forall_app in H1. destruct H1 as [A B]. inversion B; subst. apply Forall_app. auto.
  - intros k0 d0 i T Hin FA. eapply H2; [|exact FA]. apply in_app_or in Hin. apply in_or_app. destruct Hin; [left|right; right]; assumption.
  - intros i n0 T w Hi Hw. destruct (H4 i n0 T w Hi Hw) as [(FA & d0 & Hl & R)|([N|N] & R)].
    + left. split; [exact FA|]. exists d0. split; [|exact R]. apply (binding_other l1 l2 n0 n d) in Hl; [exact Hl|eapply NF, Hi].
    + right. auto.
    + right. split; [|exact R]. right. intros d0 Hin. apply (N d0). apply in_app_or in Hin. apply in_or_app. destruct Hin; [left|right; right]; assumption.
  - apply Forall_app in H1. destruct H1 as [A B]. apply Forall_app. auto.
  - intros k0 d0 i T Hin FA. apply in_app_or in Hin. destruct Hin as [Hin|[Hin|Hin]].
    + eapply H2; [|exact FA]. apply in_or_app. auto.
    + injection Hin as -> ->. destruct FA as [FA _]. destruct (NF _ _ _ FA eq_refl).
    + eapply H2; [|exact FA]. apply in_or_app. auto.
  - intros i n0 T w Hi Hw. destruct (H4 i n0 T w Hi Hw) as [(FA & d0 & Hl & R)|([N|N] & R)].
    + left. split; [exact FA|]. exists d0. split; [|exact R]. apply (binding_other l1 l2 n0 n d); [eapply NF, Hi|exact Hl].
    + right. auto.
    + right. split; [|exact R]. right. intros d0 Hin. apply in_app_or in Hin. destruct Hin as [Hin|[Hin|Hin]].
      * apply (N d0). apply in_or_app. auto.
      * injection Hin as -> ->. destruct (NF _ _ _ Hi eq_refl).
      * apply (N d0). apply in_or_app. auto.
Qed.

(** Unknown keys are skipped (C17, C23): a member whose key is no field name changes
    nothing, provided its value is well-formed... *)
Theorem C17_unknown_keys_are_skipped s1 s2 l1 l2 n d :
  text_ok s1 -> text_ok s2 -> JText (DObj (l1 ++ (n, d) :: l2)) s1 -> JText (DObj (l1 ++ l2)) s2 ->
  ~ In n (map fst fs) -> Forall lit_readable (lits d) ->
  from_str E k oc (TNamed id) s1 = from_str E k oc (TNamed id) s2.
Proof.
  intros H1 H2 D1 D2 HN HD. eapply same_reads; [exact H1|exact H2|reflexivity|exact HE|exact Hk|exact D1|exact D2|].
  intros v. apply struct_skip; [exact HN|]. apply readable_lits; [|exact HD].
  apply JText_doc_ok, doc_ok_obj in D1. apply Forall_app in D1. destruct D1 as [_ D1]. inversion D1; assumption.
Qed.
(** ... and rejects the whole document when it is not. *)
Theorem C23_ignored_values_must_be_well_formed s l n d :
  text_ok s -> JText (DObj l) s -> In (n, d) l -> ~ Forall lit_readable (lits d) ->
  from_str E k oc (TNamed id) s = Err.
Proof.
  intros Hs Hd Hin HN. eapply reject_reads; [exact Hs|reflexivity|exact HE|exact Hk|exact Hd|].
  intros v HR. apply struct_inv in HR. destruct HR as (vs & -> & HF & _). rewrite Forall_forall in HF. specialize (HF _ Hin). cbn [snd] in HF.
  apply HN. apply readable_lits; [|exact HF]. apply JText_doc_ok, doc_ok_obj in Hd. rewrite Forall_forall in Hd. apply (Hd (n, d) Hin).
Qed.

Lemma nodup_binding {A} (l : list (bytes * A)) n d : NoDup (map fst l) -> (last_binding l n d <-> In (n, d) l).
Proof.
  intros HN. split; [apply last_in|]. intros Hin. apply in_split in Hin. destruct Hin as (a & b & ->). exists a, b. split; [reflexivity|].
  rewrite map_app in HN. apply NoDup_remove_2 in HN. apply Forall_forall. intros [n' d'] Hi E0. cbn in E0. subst n'. apply HN.
  apply in_or_app. right. apply (in_map fst) in Hi. exact Hi.
Qed.
(** The order of (distinct) keys is irrelevant. *)
Theorem C17_key_order_is_irrelevant s1 s2 l1 l2 :
  text_ok s1 -> text_ok s2 -> JText (DObj l1) s1 -> JText (DObj l2) s2 ->
  Permutation l1 l2 -> NoDup (map fst l1) ->
  from_str E k oc (TNamed id) s1 = from_str E k oc (TNamed id) s2.
Proof.
  intros H1 H2 D1 D2 HP HN. assert (HN2 : NoDup (map fst l2)) by (eapply Permutation_NoDup; [apply Permutation_map, HP|exact HN]).
  assert (A : forall l1 l2 v, NoDup (map fst l1) -> NoDup (map fst l2) -> Permutation l1 l2 ->
    Reads E (TNamed id) (DObj l1) v -> Reads E (TNamed id) (DObj l2) v).
  { clear - Hid. intros l1 l2 v N1 N2 HP H. apply struct_inv in H. destruct H as (vs & -> & F1 & F2 & F3 & F4).
    eapply rd_struct; [exact Hid| | |exact F3|].
    - eapply Permutation_Forall; eassumption.
    - intros k0 d i T Hin. apply F2. eapply Permutation_in; [apply Permutation_sym, HP|exact Hin].
    - intros i n T w Hi Hw. destruct (F4 i n T w Hi Hw) as [(FA & d & Hl & R)|([N|N] & R)].
      + left. split; [exact FA|]. exists d. split; [|exact R]. apply nodup_binding; [exact N2|]. apply nodup_binding in Hl; [|exact N1]. eapply Permutation_in; eassumption.
      + right. auto.
      + right. split; [|exact R]. right. intros d Hin. apply (N d). eapply Permutation_in; [apply Permutation_sym, HP|exact Hin]. }
  eapply same_reads; [exact H1|exact H2|reflexivity|exact HE|exact Hk|exact D1|exact D2|].
  intros v. split; apply A; auto. apply Permutation_sym, HP.
Qed.
End Struct.

(** ** C18 *)
Theorem C18_enum_reads_exactly_its_names E k oc id ns s v :
  nth_error E id = Some (DEnum ns) -> env_ok E = true -> (wrap_depth E (TNamed id) < k)%nat -> text_ok s ->
  (from_str E k oc (TNamed id) s = Ok v <->
   exists name i, JText (DStr name) s /\ v = VEnum i /\ nth_error ns i = Some name /\
     forall j, (j < i)%nat -> nth_error ns j <> Some name).
Proof.
  intros Hid HE Hk Hs. rewrite from_str_reads by auto. split.
  - intros (d & Hd & HR). inversion HR as [| | | | | | | | | | | | | | | | | | | | |id' fs' l' vs H1 H2 H3 H4 H5|id' ns' k' i H1 H2]; subst; rewrite Hid in H1; [discriminate|].
    injection H1 as <-. exists k', i. destruct H2. auto.
  - intros (name & i & Hd & -> & H1 & H2). exists (DStr name). split; [exact Hd|]. eapply rd_enum; [exact Hid|split; assumption].
Qed.

(** ** C19, C20 *)
Theorem C19_array_length E k oc T n s v :
  text_ok s -> ty_ok T = true -> env_ok E = true -> (wrap_depth E (TArr T n) < k)%nat ->
  (from_str E k oc (TArr T n) s = Ok v <->
   exists l vs, JText (DArr l) s /\ List.length l = n /\ v = VSeq vs /\ Forall2 (Reads E T) l vs).
Proof.
  intros Hs HT HE Hk. rewrite from_str_reads by auto. split.
  - intros (d & Hd & HR). inversion HR; subst. eauto 7.
  - intros (l & vs & Hd & HL & -> & HF). exists (DArr l). split; [exact Hd|]. constructor; assumption.
Qed.
Theorem C19_pair E k oc A B s v :
  text_ok s -> ty_ok A = true -> ty_ok B = true -> env_ok E = true -> (wrap_depth E (TPair A B) < k)%nat ->
  (from_str E k oc (TPair A B) s = Ok v <->
   exists d1 d2 a b, JText (DArr [d1; d2]) s /\ v = VPair a b /\ Reads E A d1 a /\ Reads E B d2 b).
Proof.
  intros Hs HA HB HE Hk. rewrite from_str_reads; auto. 2: { cbn [ty_ok]. rewrite HA, HB. reflexivity. } split.
  - intros (d & Hd & HR). inversion HR; subst. eauto 8.
  - intros (d1 & d2 & a & b & Hd & -> & H1 & H2). exists (DArr [d1; d2]). split; [exact Hd|]. constructor; assumption.
Qed.
Theorem C20_vec E k oc T s v :
  text_ok s -> ty_ok T = true -> env_ok E = true -> (wrap_depth E (TVec T) < k)%nat ->
  (from_str E k oc (TVec T) s = Ok v <->
   exists l vs, JText (DArr l) s /\ v = VSeq vs /\ Forall2 (Reads E T) l vs).
Proof.
  intros Hs HT HE Hk. rewrite from_str_reads by auto. split.
  - intros (d & Hd & HR). inversion HR; subst. eauto 6.
  - intros (l & vs & Hd & -> & HF). exists (DArr l). split; [exact Hd|]. constructor; assumption.
Qed.
Theorem C20_json_array E k oc s v :
  text_ok s -> env_ok E = true -> (wrap_depth E TArray < k)%nat ->
  (from_str E k oc TArray s = Ok v <->
   exists l js, JText (DArr l) s /\ v = VJArr js /\ Forall2 JReads l js).
Proof.
  intros Hs HE Hk. rewrite from_str_reads by auto. split.
  - intros (d & Hd & HR). inversion HR as [| | | | | | | | | | | | | | | | | | |l js HJ| | |]; subst. inversion HJ; subst. eauto 6.
  - intros (l & js & Hd & -> & HF). exists (DArr l). split; [exact Hd|]. constructor. constructor. exact HF.
Qed.

(** Stated without the reading relation: [[t1,t2,...]] reads as the list of what the
    element texts read as. *)
Fixpoint join (ts : list bytes) : bytes :=
  match ts with
  | [] => []
  | [t] => t
  | t :: ts' => t ++ 44 :: join ts'
  end.
Definition array_text (ts : list bytes) : bytes := 91 :: join ts ++ [93].
Lemma join_etext ts ds : Forall2 (fun t d => JText d t) ts ds -> ds <> [] -> EText ds (join ts).
Proof.
  induction 1 as [|t d ts ds (w1 & x & w2 & -> & H1 & Hx & H2) HF IH]; intros HN; [congruence|].
  destruct HF as [|t' d' ts ds H HF]; cbn [join].
  - constructor; assumption.
  - repeat (rewrite <- app_assoc; cbn [app]). constructor; try assumption. apply IH. discriminate.
Qed.
Lemma array_jtext ts ds : Forall2 (fun t d => JText d t) ts ds -> JText (DArr ds) (array_text ts).
Proof.
  intros H. exists [], (array_text ts), []. split; [rewrite app_nil_r; reflexivity|]. split; [constructor|]. split; [|constructor].
  unfold array_text. destruct H as [|t d ts ds Ht HF]; [apply (vt_arr0 []); constructor|].
  apply vt_arr, join_etext; [constructor; assumption|discriminate].
Qed.
Theorem C20_vec_elementwise E k oc T ts vs :
  text_ok (array_text ts) -> Forall text_ok ts -> Forall (fun t => exists d, JText d t) ts ->
  ty_ok T = true -> env_ok E = true -> (wrap_depth E (TVec T) < k)%nat -> (wrap_depth E T < k)%nat ->
  (from_str E k oc (TVec T) (array_text ts) = Ok (VSeq vs) <->
   Forall2 (fun t v => from_str E k oc T t = Ok v) ts vs).
Proof.
  intros Hs Hts HJ HT HE Hk Hk'.
  assert (exists ds, Forall2 (fun t d => JText d t) ts ds) as [ds HD].
  { clear -HJ. induction HJ as [|t ts [d Hd] HF [ds IH]]; [exists []; constructor|exists (d :: ds); constructor; assumption]. }
  pose proof (array_jtext _ _ HD) as HA. rewrite C20_vec by auto. split.
  - intros (l & vs' & Hl & [= <-] & HF). pose proof (JText_unique _ _ _ HA Hl) as El. injection El as <-. clear Hs Hl HA HJ.
    revert vs HF. induction HD as [|t d ts ds Hd HD IH]; intros vs HF; inversion HF as [|? v ? vs2 H1 H2]; subst; constructor; inversion Hts; subst; auto.
    apply from_str_reads; eauto.
  - intros HF. exists ds, vs. split; [exact HA|]. split; [reflexivity|]. clear Hs HA HJ.
    revert vs HF. induction HD as [|t d ts ds Hd HD IH]; intros vs HF; inversion HF as [|? v ? vs2 H1 H2]; subst; constructor; inversion Hts; subst; auto.
    apply from_str_reads in H1; auto. destruct H1 as (d' & Hd' & R). rewrite (JText_unique _ _ _ Hd Hd'). exact R.
Qed.

(** ** C21 *)
Theorem C21_maps_keep_the_last E k oc h K T s v :
  text_ok s -> ty_ok (TMap h K T) = true -> env_ok E = true -> (wrap_depth E (TMap h K T) < k)%nat ->
  (from_str E k oc (TMap h K T) s = Ok v <->
   exists l kvs m, JText (DObj l) s /\ v = VMap m /\
     Forall2 (fun kd kv => KeyReads K (fst kd) (fst kv) /\ Reads E T (snd kd) (snd kv)) l kvs /\
     sorted_keys key_cmp m = true /\ (forall key w, In (key, w) m <-> last_binding kvs key w)).
Proof.
  intros Hs HT HE Hk. rewrite from_str_reads by auto. split.
  - intros (d & Hd & HR). inversion HR as [| | | | | | | | | | | | | |h' K' T' l kvs m HF [HM1 HM2]| | | | | | | |]; subst. exists l, kvs, m. auto.
  - intros (l & kvs & m & Hd & -> & HF & H1 & H2). exists (DObj l). split; [exact Hd|]. eapply rd_map; [exact HF|split; assumption].
Qed.
Theorem C21_object_keeps_the_last E k oc s v :
  text_ok s -> env_ok E = true -> (wrap_depth E TObject < k)%nat ->
  (from_str E k oc TObject s = Ok v <->
   exists l kvs m, JText (DObj l) s /\ v = VJObj m /\
     Forall2 (fun kd kj => fst kd = fst kj /\ JReads (snd kd) (snd kj)) l kvs /\
     sorted_keys bytes_cmp m = true /\ (forall key w, In (key, w) m <-> last_binding kvs key w)).
Proof.
  intros Hs HE Hk. rewrite from_str_reads by auto. split.
  - intros (d & Hd & HR). inversion HR as [| | | | | | | | | | | | | | | | | | | |l m HJ| |]; subst. inversion HJ as [| | | | | | |l' kvs m' HF [H1 H2]]; subst. exists l, kvs, m. auto.
  - intros (l & kvs & m & Hd & -> & HF & H1 & H2). exists (DObj l). split; [exact Hd|]. constructor. econstructor; [exact HF|split; assumption].
Qed.

(** ** C22 *)
Theorem C22_option E k oc T s :
  text_ok s -> ty_ok T = true -> env_ok E = true -> (wrap_depth E (TOption T) < k)%nat -> (wrap_depth E T < k)%nat ->
  (from_str E k oc (TOption T) s = Ok VNone <-> JText DNull s) /\
  (forall v, from_str E k oc (TOption T) s = Ok (VSome v) <-> from_str E k oc T s = Ok v /\ ~ JText DNull s).
Proof.
  intros Hs HT HE Hk Hk'. split; [|intros v]; rewrite !from_str_reads by auto; split.
  - intros (d & Hd & HR). inversion HR; subst. exact Hd.
  - intros Hd. exists DNull. split; [exact Hd|constructor].
  - intros (d & Hd & HR). inversion HR as [| | | | | | | | | |T' d' v' HN R| | | | | | | | | | | |]; subst. split; [eauto|]. intros HN2. apply HN. eapply JText_unique; eassumption.
  - intros ((d & Hd & HR) & HN). exists d. split; [exact Hd|]. constructor; [|exact HR]. intros ->. contradiction.
Qed.
Theorem C22_box E k oc T s v :
  text_ok s -> ty_ok T = true -> env_ok E = true -> (wrap_depth E (TBox T) < k)%nat -> (wrap_depth E T < k)%nat ->
  (from_str E k oc (TBox T) s = Ok (VBox v) <-> from_str E k oc T s = Ok v).
Proof.
  intros Hs HT HE Hk Hk'. rewrite !from_str_reads by auto. split; intros (d & Hd & HR); exists d; (split; [exact Hd|]).
  - inversion HR; subst. assumption.
  - constructor. exact HR.
Qed.

(** ** C24 - C26: memory and depth *)
(** No access to a released or uninitialised place, no double release (the model's
    [Fault FUB]), whether reading succeeds or fails. *)
Theorem C24_no_undefined_behaviour E k oc T s f :
  text_ok s -> (wrap_depth E T < k)%nat -> fst (from_str_heap E k oc T s) <> Fault f.
Proof.
  intros Hs Hk. pose proof (from_str_heap_eq E k oc T s Hs Hk) as H.
  destruct (text_val E T s); [destruct H as (M & -> & _)|destruct H as (x & M & -> & _)]; discriminate.
Qed.
(** When from_str returns, every heap cell allocated on the way has been released; only
    the `out` cell of from_str itself is left, holding the result on success. *)
Theorem C25_everything_released E k oc T s :
  text_ok s -> (wrap_depth E T < k)%nat ->
  exists x M, snd (from_str_heap E k oc T s) = Some (OCell x) :: M /\ Forall (fun c => c = None) M /\
    forall v, fst (from_str_heap E k oc T s) = Ok v -> x = Some v.
Proof.
  intros Hs Hk. pose proof (from_str_heap_eq E k oc T s Hs Hk) as H.
  destruct (text_val E T s); [destruct H as (M & -> & HM)|destruct H as (x & M & -> & HM)]; cbn [fst snd].
  - exists (Some v), M. split; [reflexivity|]. split; [exact HM|]. intros v' H. congruence.
  - exists x, M. split; [reflexivity|]. split; [exact HM|]. discriminate.
Qed.
(** One bound on the native call depth works for all inputs. *)
Theorem C26_depth_bounded_by_the_type E T :
  exists bound, forall k oc s, (bound <= k)%nat -> text_ok s ->
    from_str E k oc T s <> Fault FDeep /\ from_str E k oc T s = from_str E bound oc T s.
Proof.
  exists (S (wrap_depth E T)). intros k oc s Hk Hs. rewrite !from_str_total by (assumption || lia).
  split; [destruct (text_val E T s); discriminate|reflexivity].
Qed.

(** ** Non-vacuity: a recursive struct with an optional field, an enum *)
Definition ex_env : env :=
  [ DStruct [(bs "a", TInt false 8); (bs "b", TOption TString); (bs "next", TOption (TBox (TNamed 0)))];
    DEnum [bs "X"; bs "Y"] ].
Example ex_env_ok : env_ok ex_env = true /\ (wrap_depth ex_env (TNamed 0) < 4)%nat.
Proof. split; [reflexivity|cbn; lia]. Qed.
Definition ex_node : bytes := bs "{""a"":1, ""zz"":[{}], ""next"":{""b"":""x"",""a"":2},""a"":3 }".
Definition ex_node_val : val :=
  VStruct [VInt 3; VNone; VSome (VBox (VStruct [VInt 2; VSome (VStr (bs "x")); VNone]))].
Example ex_C16 : text_ok ex_node /\ from_str ex_env 4 true (TNamed 0) ex_node = Ok ex_node_val.
Proof. split; [text_ok|vm_compute; reflexivity]. Qed.
(** The hypotheses of the struct theorems hold for this text. *)
Example ex_C16_reads : exists d, JText d ex_node /\ Reads ex_env (TNamed 0) d ex_node_val.
Proof.
  apply (C16_from_str_denotation ex_env 4 true); [apply ex_C16|reflexivity|reflexivity|cbn; lia|apply ex_C16].
Qed.
Example ex_C17 :
  from_str ex_env 4 true (TNamed 0) (bs "{""b"":""x""}") = Err /\
  from_str ex_env 4 true (TNamed 0) (bs "{""a"":256}") = Err /\
  from_str ex_env 4 true (TNamed 0) (bs "{""a"":null}") = Err /\
  from_str ex_env 4 true (TNamed 0) (bs "{""a"":1,""q"":1e999}") = Err /\
  from_str ex_env 4 true (TNamed 0) (bs "{""a"":1,""a"":true,""a"":2}") = Err /\
  from_str ex_env 4 true (TNamed 0) (bs "{""a"":1,""b"":null}") = Ok (VStruct [VInt 1; VNone; VNone]) /\
  from_str ex_env 4 true (TNamed 0) (bs "{""b"":null,""a"":1}") = Ok (VStruct [VInt 1; VNone; VNone]).
Proof. vm_compute. repeat split. Qed.
Example ex_C18 :
  from_str ex_env 4 true (TNamed 1) (bs """Y""") = Ok (VEnum 1) /\ from_str ex_env 4 true (TNamed 1) (bs """y""") = Err.
Proof. vm_compute. repeat split. Qed.
Example ex_C19 :
  from_str [] 4 true (TArr (TInt true 8) 3) (bs "[1,-2,3]") = Ok (VSeq [VInt 1; VInt (-2); VInt 3]) /\
  from_str [] 4 true (TArr (TInt true 8) 3) (bs "[1,-2]") = Err /\
  from_str [] 4 true (TArr (TInt true 8) 3) (bs "[1,2,3,4]") = Err /\
  from_str [] 4 true (TArr (TInt true 8) 0) (bs "[]") = Ok (VSeq []) /\
  from_str [] 4 true (TPair TBool TString) (bs "[true,""q""]") = Ok (VPair (VBool true) (VStr (bs "q"))) /\
  from_str [] 4 true (TPair TBool TString) (bs "[true]") = Err.
Proof. vm_compute. repeat split. Qed.
Example ex_C20 : Forall2 (fun t v => from_str [] 4 true TBool t = Ok v) [bs " true"; bs "false "] [VBool true; VBool false].
Proof.
  assert (Forall (fun t => exists d, JText d t) [bs " true"; bs "false "]).
  { constructor; [|constructor; [|constructor]].
    - exists (DBool true). exists [32], (bs "true"), []. split; [reflexivity|]. split; [repeat constructor|]. split; constructor.
    - exists (DBool false). exists [], (bs "false"), [32]. split; [reflexivity|]. split; [constructor|]. split; [constructor|repeat constructor]. }
  apply (C20_vec_elementwise [] 4 true TBool); [text_ok| |assumption|reflexivity|reflexivity|cbn; lia|cbn; lia|vm_compute; reflexivity].
  constructor; [text_ok|constructor; [text_ok|constructor]].
Qed.
Example ex_C21 :
  from_str [] 4 true (TMap true (KInt true 16) TString) (bs "{""7"":""a"",""-1"":""b"",""+7"":""c""}") =
  Ok (VMap [(VInt (-1), VStr (bs "b")); (VInt 7, VStr (bs "c"))]) /\
  from_str [] 4 true TObject (bs "{""b"":1,""a"":2,""b"":3}") =
  Ok (VJObj [(bs "a", JvNum (NU64 2)); (bs "b", JvNum (NU64 3))]).
Proof. vm_compute. repeat split. Qed.
(** The native depth budget matters: with too little of it the reader overflows, and
    the bound of C26 is what a type needs. *)
Example ex_C26 :
  from_str [] 2 true (TBox (TBox (TBox TBool))) (bs "true") = Fault FDeep /\
  from_str [] 4 true (TBox (TBox (TBox TBool))) (bs "true") = Ok (VBox (VBox (VBox (VBool true)))) /\
  wrap_depth [] (TBox (TBox (TBox TBool))) = 3%nat.
Proof. vm_compute. repeat split. Qed.
(** A failing parse in the middle of nested builders: everything is released. *)
Example ex_C25 :
  fst (from_str_heap ex_env 4 true (TVec (TNamed 0)) (bs "[{""a"":1},{""a"":2,""next"":{""a"":nul")) = Err /\
  Forall (fun c => c = None) (tl (snd (from_str_heap ex_env 4 true (TVec (TNamed 0)) (bs "[{""a"":1},{""a"":2,""next"":{""a"":nul")))) /\
  (2 < List.length (snd (from_str_heap ex_env 4 true (TVec (TNamed 0)) (bs "[{""a"":1},{""a"":2,""next"":{""a"":nul"))))%nat.
Proof. vm_compute. repeat split; repeat constructor. Qed.
