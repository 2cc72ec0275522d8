(** What is read is a well-formed value of the type. *)
From Coq Require Import String ZArith List Bool Lia Permutation Floats.SpecFloat.
From Flocq Require Import IEEE754.BinarySingleNaN.
From Verif Require Import Base Utf8 Utf8Facts F64 Lexer Driver Grammar LexSpec Types Impls Tree TreeFacts GrammarFacts
  Reading MapFacts ReadFacts ReadMain FromStr ParseFacts VisitFacts NumValue DocSpec FloatRead NumFacts ClaimsNum.
Import ListNotations.
Open Scope Z_scope.

(** The strings and keys of a document. *)
Fixpoint strs (d : doc) : list bytes :=
  match d with
  | DStr s => [s]
  | DArr l => flat_map strs l
  | DObj l => flat_map (fun kd => fst kd :: strs (snd kd)) l
  | _ => []
  end.

Definition dgood (d : doc) : Prop := Forall (fun s => str_ok s = true) (strs d) /\ Forall lit_ok (lits d).
Lemma dgood_arr l : dgood (DArr l) <-> Forall dgood l.
Proof.
  unfold dgood. cbn [strs lits]. induction l as [|d l IH]; cbn [flat_map]; [split; [constructor|repeat constructor]|].
  rewrite !Forall_app, Forall_cons_iff, <- IH. tauto.
Qed.
Lemma dgood_obj l : dgood (DObj l) <-> Forall (fun kd => str_ok (fst kd) = true /\ dgood (snd kd)) l.
Proof.
  unfold dgood. cbn [strs lits]. induction l as [|d l IH]; cbn [flat_map]; [split; [constructor|repeat constructor]|].
  cbn [app]. rewrite !Forall_cons_iff, !Forall_app, <- IH. tauto.
Qed.

Lemma legal_strs d : forall t, tree_of d = Some t -> tree_legal t -> Forall (fun s => str_ok s = true) (strs d).
Proof.
  induction d as [|b|s|n|l IH|l IH] using doc_ind'; intros t Ht HL; cbn [strs]; try constructor.
  - cbn [tree_of] in Ht. injection Ht as <-. exact HL.
  - constructor.
  - rewrite tree_of_arr in Ht. destruct (trees_of l) as [ts|] eqn:E; [|discriminate]. cbn in Ht. injection Ht as <-.
    cbn [tree_legal] in HL. apply fold_and in HL. revert ts E HL.
    induction IH as [|d l Hd IH IHl]; intros ts E HL; cbn [flat_map]; [constructor|]. cbn [trees_of] in E.
    destruct (tree_of d) as [t|] eqn:E1; [|discriminate]. destruct (trees_of l) as [ts'|]; [|discriminate]. injection E as <-.
    inversion HL; subst. apply Forall_app. split; [eapply Hd; eauto|eapply IHl; eauto].
  - rewrite tree_of_obj in Ht. destruct (mtrees_of l) as [ts|] eqn:E; [|discriminate]. cbn in Ht. injection Ht as <-.
    cbn [tree_legal] in HL. apply (fold_and (fun kt => str_ok (fst kt) = true /\ tree_legal (snd kt))) in HL. revert ts E HL.
    induction IH as [|[k d] l Hd IH IHl]; intros ts E HL; cbn [flat_map]; [constructor|]. cbn [mtrees_of] in E.
    destruct (tree_of d) as [t|] eqn:E1; [|discriminate]. destruct (mtrees_of l) as [ts'|]; [|discriminate]. injection E as <-.
    inversion HL as [|? ? [H1 H2] HL']; subst. cbn [fst snd] in *. constructor; [exact H1|]. apply Forall_app. split; [eapply Hd; eauto|eapply IHl; eauto].
Qed.

Lemma JText_good d s : Utf8 s -> JText d s -> readable d -> dgood d.
Proof.
  intros Hu Hd HR. split.
  - apply (readable_iff []) in HR; [|eapply JText_doc_ok, Hd]. destruct HR as [t Ht].
    destruct (pv_text _ _ _ Hd Ht) as (r & EP & _). apply str_ok_spec in Hu. apply pv_legal in Hu. rewrite EP in Hu.
    eapply legal_strs; eassumption.
  - destruct Hd as (w1 & t & w2 & _ & _ & Ht & _). apply (proj1 text_lits_ok _ _ Ht).
Qed.

Lemma last_in {K A} (l : list (K * A)) k v : last_binding l k v -> In (k, v) l.
Proof. intros (l1 & l2 & -> & _). apply in_or_app. right. left. reflexivity. Qed.

Lemma jr_ok d : dgood d -> forall j, JReads d j -> jval_ok j = true.
Proof.
  induction d as [|b|s|n|l IH|l IH] using doc_ind'; intros HG j HR; inversion HR; subst; try reflexivity.
  - destruct HG as [HG _]. inversion HG; assumption.
  - destruct HG as [_ HG]. inversion HG as [|? ? HO _]; subst.
    match goal with [H : reads_u n _ |- _] => pose proof H as HU; pose proof (int_range n _ (or_introl H) HO) as (A & B & C); destruct H as (_ & Hn & _) end.
    cbn [jval_ok jnum_ok]. apply andb_true_intro. split; apply Z.leb_le; [|lia]. subst z. unfold lit_int. rewrite Hn.
    destruct HO as (Hi & _). apply (FloatLit.digits_bound (n_int n) Hi).
  - destruct HG as [_ HG]. inversion HG as [|? ? HO _]; subst.
    match goal with [H : reads_i n _ |- _] => pose proof (int_range n _ (or_intror H) HO) as (A & B & C); destruct H as (_ & Hn & _) end.
    cbn [jval_ok jnum_ok]. apply andb_true_intro. split; apply Z.leb_le; [lia|]. subst z. unfold lit_int in *. rewrite Hn in *.
    destruct HO as (Hi & _). pose proof (proj1 (FloatLit.digits_bound (n_int n) Hi)). unfold i64_MAX. lia.
  - destruct HG as [_ HG]. inversion HG as [|? ? HO _]; subst.
    match goal with [H : reads_f n _ |- _] => pose proof (lit_event_finite n _ HO H) as [[A _] _] end. exact A.
  - apply dgood_arr in HG. cbn [jval_ok]. match goal with [H : Forall2 JReads l js |- _] => rename H into HF end. clear HR.
    induction HF as [|d j l js Hd HF IHF]; [reflexivity|]. inversion IH; inversion HG; subst. cbn [forallb].
    apply andb_true_intro. split; auto.
  - apply dgood_obj in HG. cbn [jval_ok]. match goal with [H : MapOf _ _ _ |- _] => destruct H as [HS HI] end.
    apply andb_true_intro. split; [exact HS|]. apply forallb_forall. intros [k j] Hin. apply HI in Hin. apply last_in in Hin.
    match goal with [H : Forall2 _ l kvs |- _] => rename H into HF end. clear -IH HG HF Hin.
    induction HF as [|[k1 d] [k2 j2] l js [Hk Hd] HF IHF]; [destruct Hin|]. inversion IH as [|? ? IH1 IH2]; inversion HG as [|? ? [HG1 HG2] HG3]; subst.
    cbn [fst snd] in *. destruct Hin as [[= -> ->]|Hin]; [|apply IHF; assumption]. subst k1. apply andb_true_intro. split; [exact HG1|]. apply IH1; assumption.
Qed.

Lemma key_from_str_ok K s v : str_ok s = true -> key_from_str K s = Some v -> key_ok K v = true.
Proof.
  destruct K as [|sg b|]; cbn [key_from_str].
  - intros H [= <-]. exact H.
  - intros _ H. destruct (int_from_str sg b s) as [z|] eqn:E; [|discriminate]. cbn in H. injection H as <-. cbn [key_ok].
    unfold int_from_str in E. match type of E with context [let '(_, _) := ?x in _] => destruct x as [neg ds] end. destruct ds as [|c ds]; [discriminate|].
    destruct (digits_value 0 (c :: ds)) as [n|]; [|discriminate].
    destruct (int_ok sg b (if neg then - n else n)) eqn:EI; [|discriminate]. injection E as <-. exact EI.
  - intros _. destruct (bytes_eqb s (bs "true")); [intros [= <-]; reflexivity|]. destruct (bytes_eqb s (bs "false")); [intros [= <-]; reflexivity|discriminate].
Qed.

Definition typed_doc E (d : doc) : Prop := forall T v, Reads E T d v -> has_type E T v.

Lemma wrapped_typed E d : (forall T v, (forall t, T <> TBox t) -> (forall t, T <> TOption t) -> Reads E T d v -> has_type E T v) -> typed_doc E d.
Proof.
  intros H T. induction T; intros v HR; try (apply H; [discriminate|discriminate|exact HR]).
  - inversion HR; subst. constructor. apply IHT. assumption.
  - inversion HR; subst; constructor. apply IHT. assumption.
Qed.

Lemma forall2_nth {A B} (R : A -> B -> Prop) l l' : List.length l = List.length l' ->
  (forall i a b, nth_error l i = Some a -> nth_error l' i = Some b -> R a b) -> Forall2 R l l'.
Proof.
  revert l'. induction l as [|a l IH]; intros [|b l'] HL H; try discriminate; constructor.
  - apply (H O); reflexivity.
  - apply IH; [cbn in HL; lia|]. intros i. apply (H (S i)).
Qed.

Theorem reads_typed E d : dgood d -> typed_doc E d.
Proof.
  induction d as [|b|s|n|l IH|l IH] using doc_ind'; intros HG; apply wrapped_typed; intros T v NB NO HR.
  - inversion HR; subst; try (constructor; fail); try (exfalso; eapply NB; reflexivity); try (exfalso; eapply NO; reflexivity).
    constructor. eapply jr_ok; eassumption.
  - inversion HR; subst; try (constructor; fail); try (exfalso; eapply NB; reflexivity); try (exfalso; eapply NO; reflexivity).
    constructor. eapply jr_ok; eassumption.
  - pose proof HG as [HS _]. inversion HS as [|? ? HS1 _]; subst.
    inversion HR; subst; try (constructor; assumption); try (exfalso; eapply NB; reflexivity); try (exfalso; eapply NO; reflexivity).
    + constructor. eapply jr_ok; eassumption.
    + match goal with [H : VariantAt _ _ _ |- _] => destruct H as [HV _] end. eapply ht_enum; [eassumption|]. apply nth_error_Some. congruence.
  - pose proof HG as [_ HL]. inversion HL as [|? ? HO _]; subst.
    inversion HR; subst; try (exfalso; eapply NB; reflexivity); try (exfalso; eapply NO; reflexivity).
    + constructor. unfold int_ok. apply andb_true_intro. split; apply Z.leb_le; lia.
    + constructor. apply (reads64_finite E n _ HO HR).
    + constructor. apply (reads64_finite E n _ HO HR).
    + constructor. apply f32_of_Z_spec.
    + constructor. apply f32_of_f64_spec. apply (lit_event_finite n f HO). assumption.
    + constructor. eapply jr_ok; eassumption.
    + constructor. apply (jr_ok (DNum n) HG (JvNum (NU64 z))). constructor. assumption.
    + constructor. apply (jr_ok (DNum n) HG (JvNum (NI64 z))). constructor. assumption.
    + constructor. apply (jr_ok (DNum n) HG (JvNum (NF64 f))). constructor. assumption.
  - assert (HG' := HG). apply dgood_arr in HG'.
    assert (HA : forall T vs, Forall2 (Reads E T) l vs -> Forall (has_type E T) vs).
    { intros T' vs HF. clear HR. induction HF as [|d v' l vs Hd HF IHF]; constructor; inversion IH; inversion HG'; subst.
      - match goal with [H : dgood d -> _ |- _] => apply H; assumption end.
      - apply IHF; try assumption. apply dgood_arr. assumption. }
    inversion HR; subst; try (exfalso; eapply NB; reflexivity); try (exfalso; eapply NO; reflexivity).
    + inversion IH as [|? ? I1 I2]; inversion HG' as [|? ? G1 G2]; subst. inversion I2 as [|? ? I3 _]; inversion G2 as [|? ? G3 _]; subst. constructor; [apply (I1 G1)|apply (I3 G3)]; assumption.
    + constructor. apply HA. assumption.
    + match goal with [H : Forall2 _ l vs |- _] => pose proof H as HF end. constructor; [|apply HA; assumption].
      clear -HF. induction HF; cbn; congruence.
    + constructor. eapply jr_ok; eassumption.
    + constructor. eapply jr_ok; eassumption.
  - assert (HG' := HG). apply dgood_obj in HG'.
    inversion HR; subst; try (exfalso; eapply NB; reflexivity); try (exfalso; eapply NO; reflexivity).
    + match goal with [H : MapOf _ _ _ |- _] => destruct H as [HS HI] end. constructor; [exact HS| |].
      * apply Forall_forall. intros [k w] Hin. apply HI, last_in in Hin. cbn [fst].
        match goal with [H : Forall2 _ l kvs |- _] => rename H into HF end. clear -HG' HF Hin.
        induction HF as [|[k1 d] [k2 j2] l js [Hk Hd] HF IHF]; [destruct Hin|]. inversion HG' as [|? ? [G1 G2] G3]; subst.
        cbn [fst snd] in *. destruct Hin as [[= -> ->]|Hin]; [|apply IHF; assumption]. eapply key_from_str_ok; [|apply key_reads_iff]; eassumption.
      * apply Forall_forall. intros [k w] Hin. apply HI, last_in in Hin. cbn [snd].
        match goal with [H : Forall2 _ l kvs |- _] => rename H into HF end. clear -IH HG' HF Hin.
        induction HF as [|[k1 d] [k2 j2] l js [Hk Hd] HF IHF]; [destruct Hin|]. inversion IH as [|? ? I1 I2]; inversion HG' as [|? ? [G1 G2] G3]; subst.
        cbn [fst snd] in *. destruct Hin as [[= -> ->]|Hin]; [|apply IHF; assumption]. apply I1; assumption.
    + constructor. eapply jr_ok; eassumption.
    + constructor. eapply jr_ok; eassumption.
    + match goal with [H : forall i n T v, nth_error fs i = _ -> _ |- _] => rename H into HF end.
      econstructor; [eassumption|]. apply forall2_nth; [congruence|]. intros i [n T] w Hf Hw. cbn [snd].
      destruct (HF i n T w Hf Hw) as [(_ & d & Hd & Hr)|(_ & (T' & ->) & ->)]; [|constructor].
      apply last_in in Hd. rewrite Forall_forall in IH, HG'. specialize (IH (n, d) Hd). specialize (HG' (n, d) Hd). apply IH; [apply HG'|exact Hr].
Qed.

(** Any type's reading needs a readable document. *)
Lemma reads_readable E T d v s : JText d s -> ty_ok T = true -> env_ok E = true -> Reads E T d v -> readable d.
Proof.
  intros Hd HT HE HR. pose proof (JText_doc_ok _ _ Hd) as HO. apply (reads_de E HE d HO T v HT) in HR.
  destruct HR as (t & Ht & _). apply (readable_iff E); eauto.
Qed.
