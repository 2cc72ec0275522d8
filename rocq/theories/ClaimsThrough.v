(** C66: a detour through json::Value. Reading a text as json::Value and printing that value gives a
    text that other types read in the same way. *)
From Coq Require Import String ZArith List Bool Lia Permutation Floats.SpecFloat.
From Verif Require Import Base Utf8 Utf8Facts F64 Lexer Grammar LexSpec Types Impls Ser Reading ReadFacts TypedFacts HeapSeq FromStr Unambiguous NumValue DocSpec
  ClaimsParse ClaimsNum ClaimsTypes SerSpec RenderFacts WriteFacts ExactPrint ClaimsSer ClaimsWrite NormSpec NormFacts ClaimsNorm ThroughSpec ThroughFacts.
Import ListNotations.
Open Scope Z_scope.

Lemma value_setting E hm ryu k T : setting E hm ryu k T -> setting E hm ryu k TValue.
Proof.
  intros (A & B & C & D & F & G). split; [reflexivity|]. split; [exact B|]. split; [exact C|]. split; [exact D|]. split; [exact F|].
  unfold wrap_depth in *. change (maxw TValue) with O. lia.
Qed.

Section Through.
Variable E : env.
Variable hm : nat -> list (val * val) -> list (val * val).
Variable ryu : f64 -> bytes.
Variable k : nat.
Variable oc : bool.
Notation reprinted := (reprinted E hm ryu k oc).

Lemma reprinted_text s u : setting E hm ryu k TValue -> text_ok s -> reprinted s u ->
  exists d j d', JText d s /\ doc_ok d /\ dgood d /\ JReads d j /\ text_ok u /\ JText d' u /\ doc_ok d' /\ Denotes (jtree j) d'.
Proof.
  intros HS Hs HR. pose proof HR as (jj & R0 & P0). apply (reprinted_is E hm ryu k oc s u HS Hs) in HR. destruct HR as (d & j & Hd & G & DO & R & O & EQ). subst u.
  assert (HP : to_string_is E hm ryu k TValue (VJson j) (render itoa ryu (jtree j))) by (apply (printed_is E hm ryu k j _ HS O); reflexivity).
  assert (Hu : text_ok (render itoa ryu (jtree j))).
  { apply limit_i32; [exact (text_of_ok E hm ryu k TValue (VJson j) _ HS (ht_value E _ O) HP)|exact (written_runs E hm ryu k TValue (VJson j) _ HS (ht_value E _ O) HP)]. }
  destruct (render_jtext ryu ltac:(apply HS) (jtree j) (jtree_ok j O)) as (d' & D & Hd'). exists d, j, d'.
  repeat (split; [first [assumption | exact (JText_doc_ok _ _ Hd')]|]). exact D.
Qed.
Lemma through fl s u d T v : setting E hm ryu k T -> text_ok s -> JText d s -> (fl = false -> plain_integers d) ->
  (exists w, from_str E k oc TValue u = Ok w) -> in_fields faithful_keys E = true -> (fl = true -> in_fields integers_at_most E = true) ->
  faithful_keys T = true -> (fl = true -> integers_at_most T = true) ->
  reprinted s u -> text_ok u /\ exists d', JText d' u /\ doc_ok d /\ doc_ok d' /\ cleaned fl d d' /\ (from_str E k oc T s = Ok v -> from_str E k oc T u = Ok v).
Proof.
  intros HS Hs Hd HP (w & HW) KE FE KT FT HR. pose proof (value_setting _ _ _ _ _ HS) as HV. destruct (reprinted_text s u HV Hs HR) as (d0 & j & d' & Hd0 & DO & G & R & Hu & Hd' & DO' & DN).
  pose proof (JText_unique _ _ _ Hd Hd0) as <-. destruct HS as (HT & HE & _ & _ & _ & Hk). destruct HV as (_ & _ & _ & _ & _ & Hkv).
  assert (RD : readable d').
  { apply from_str_reads in HW; try assumption; [|reflexivity]. destruct HW as (d2 & Hd2 & R2). rewrite (JText_unique _ _ _ Hd' Hd2). inversion R2; subst. eexists. eassumption. }
  pose proof (read_written fl d j d' DO G R DN RD HP) as C. split; [exact Hu|]. exists d'. split; [exact Hd'|]. split; [exact DO|]. split; [exact DO'|]. split; [exact C|].
  intros H. apply from_str_reads in H; try assumption. destruct H as (d2 & Hd2 & R2). rewrite <- (JText_unique _ _ _ Hd Hd2) in R2. apply from_str_reads; try assumption. exists d'. split; [exact Hd'|].
  apply (cleaned_reads E fl HE KE FE d d' DO DO' C T v); [split; [exact HT|split; [exact KT|exact FT]]|exact R2].
Qed.

(** Types without floating point and without json::Value inside: whatever is read from [s] is also
    read from the reprinted text, if that can be read back as a json::Value at all (a number close to
    f64::MAX may be reprinted so that it cannot). *)
Theorem C66_through_a_value s u T v : setting E hm ryu k T -> text_ok s -> reprinted s u -> (exists w, from_str E k oc TValue u = Ok w) ->
  in_fields faithful_keys E = true -> in_fields integers_at_most E = true -> faithful_keys T = true -> integers_at_most T = true ->
  from_str E k oc T s = Ok v -> from_str E k oc T u = Ok v.
Proof.
  intros HS Hs HR HW KE FE KT FT. destruct (reprinted_text s u (value_setting _ _ _ _ _ HS) Hs HR) as (d & j & d' & Hd & _).
  destruct (through true s u d T v HS Hs Hd ltac:(discriminate) HW KE (fun _ => FE) KT (fun _ => FT) HR) as (_ & _ & _ & _ & _ & _ & H). exact H.
Qed.

Lemma plain_only d : plain_integers d -> integers_only d.
Proof.
  induction d as [|b|s|n|l IH|l IH] using doc_ind'; intros H; try exact Logic.I.
  - cbn [plain_integers integers_only] in *. tauto.
  - apply integers_arr. apply plain_arr in H. rewrite Forall_forall in *. auto.
  - apply integers_obj. apply plain_obj in H. rewrite Forall_forall in *. auto.
Qed.
Lemma plain_readable_back s u d : setting E hm ryu k TValue -> text_ok s -> JText d s -> plain_integers d -> reprinted s u -> exists w, from_str E k oc TValue u = Ok w.
Proof.
  intros HS Hs Hd HP HR. destruct (C65_normal_form E hm ryu k oc s d u HS Hs Hd (plain_only d HP) HR) as (_ & (j & R & _) & _). exists (VJson j). exact R.
Qed.

(** Documents whose numbers are integers: the same for all types, floating point and json::Value included. *)
Theorem C66_integers_through_a_value s d u T v : setting E hm ryu k T -> text_ok s -> JText d s -> plain_integers d -> reprinted s u ->
  in_fields faithful_keys E = true -> faithful_keys T = true ->
  from_str E k oc T s = Ok v -> from_str E k oc T u = Ok v.
Proof.
  intros HS Hs Hd HP HR KE KT. pose proof (plain_readable_back s u d (value_setting _ _ _ _ _ HS) Hs Hd HP HR) as HW.
  destruct (through false s u d T v HS Hs Hd (fun _ => HP) HW KE ltac:(discriminate) KT ltac:(discriminate) HR) as (_ & _ & _ & _ & _ & _ & H). exact H.
Qed.
(** If also no object repeats a name, then the outcome is the same, errors included. *)
Theorem C66_same_outcome s d u T : setting E hm ryu k T -> text_ok s -> JText d s -> plain_integers d -> distinct_keys d -> reprinted s u ->
  in_fields faithful_keys E = true -> faithful_keys T = true ->
  from_str E k oc T u = from_str E k oc T s.
Proof.
  intros HS Hs Hd HP DK HR KE KT. pose proof (plain_readable_back s u d (value_setting _ _ _ _ _ HS) Hs Hd HP HR) as HW.
  destruct (through false s u d T VUnit HS Hs Hd (fun _ => HP) HW KE ltac:(discriminate) KT ltac:(discriminate) HR) as (Hu & d' & Hd' & DO & DO' & C & _).
  pose proof (cleaned_sym d d' C DK) as C'. destruct HS as (HT & HE & _ & _ & _ & Hk).
  assert (X : forall v, from_str E k oc T u = Ok v <-> from_str E k oc T s = Ok v).
  { intros v. rewrite !from_str_reads by assumption. assert (FN : fine false T) by (split; [exact HT|split; [exact KT|discriminate]]). split.
    - intros (d2 & Hd2 & R2). rewrite <- (JText_unique _ _ _ Hd' Hd2) in R2. exists d. split; [exact Hd|]. exact (cleaned_reads E false HE KE ltac:(discriminate) d' d DO' DO C' T v FN R2).
    - intros (d2 & Hd2 & R2). rewrite <- (JText_unique _ _ _ Hd Hd2) in R2. exists d'. split; [exact Hd'|]. exact (cleaned_reads E false HE KE ltac:(discriminate) d d' DO DO' C T v FN R2). }
  destruct (C03_from_str_total E k oc T u Hu Hk) as [(v & H)|H].
  - rewrite H. symmetry. apply X, H.
  - destruct (C03_from_str_total E k oc T s Hs Hk) as [(v & H2)|H2]; [|congruence]. apply X in H2. congruence.
Qed.
End Through.

Lemma cleaned_refl d : plain_integers d -> distinct_keys d -> cleaned false d d.
Proof.
  induction d as [|b|s|n|l IH|l IH] using doc_ind'; intros HP DK; try constructor.
  - apply HP. - apply HP. - reflexivity. - apply HP. - apply HP. - intros _. apply HP.
  - apply plain_arr in HP. apply distinct_arr in DK. induction IH as [|x l HX IH IHl]; constructor; inversion HP; inversion DK; subst; auto.
  - apply distinct_obj in DK. apply DK.
  - apply plain_obj in HP. apply distinct_obj in DK. destruct DK as [DN DK]. rewrite Forall_forall in *. intros k d L. apply last_in in L. exists d. split; [exact L|]. exact (IH _ L (HP _ L) (DK _ L)).
  - apply plain_obj in HP. apply distinct_obj in DK. destruct DK as [DN DK]. rewrite Forall_forall in *. intros k d L. exists d. split; [apply nodup_last; assumption|]. exact (IH _ L (HP _ L) (DK _ L)).
Qed.
(** Hence any two texts that say the same are read in the same way by every type. *)
Theorem C66_same_document_same_outcome E k oc s1 s2 d1 d2 T :
  ty_ok T = true -> env_ok E = true -> names_ok E = true -> (wrap_depth E T < k)%nat -> in_fields faithful_keys E = true -> faithful_keys T = true ->
  text_ok s1 -> text_ok s2 -> JText d1 s1 -> JText d2 s2 ->
  plain_integers d1 -> plain_integers d2 -> distinct_keys d1 -> distinct_keys d2 -> same_doc d1 d2 ->
  from_str E k oc T s1 = from_str E k oc T s2.
Proof.
  intros HT HE HN Hk KE KT H1 H2 D1 D2 P1 P2 K1 K2 SD. assert (HS : setting E id_order exact_print k T) by (apply ex_setting_gen; try assumption; apply ex_orders).
  pose proof (value_setting _ _ _ _ _ HS) as HV.
  assert (R1 : readable d1) by (eapply cleaned_readable; [eapply JText_doc_ok; exact D1|apply (cleaned_refl d1 P1 K1)]).
  assert (R2 : readable d2) by (eapply cleaned_readable; [eapply JText_doc_ok; exact D2|apply (cleaned_refl d2 P2 K2)]).
  destruct (proj1 (proj1 (C65_exactly_one E id_order exact_print k oc s1 d1 HV H1 D1)) R1) as (u1 & U1).
  destruct (proj1 (proj1 (C65_exactly_one E id_order exact_print k oc s2 d2 HV H2 D2)) R2) as (u2 & U2).
  pose proof (proj2 (C65_same_iff_same_document E id_order exact_print k oc s1 s2 d1 d2 u1 u2 HV H1 H2 D1 D2 U1 U2) SD) as <-.
  rewrite <- (C66_same_outcome E id_order exact_print k oc s1 d1 u1 T HS H1 D1 P1 K1 U1 KE KT).
  exact (C66_same_outcome E id_order exact_print k oc s2 d2 u1 T HS H2 D2 P2 K2 U2 KE KT).
Qed.

(** ** Examples: struct #0 { id: u8, tags: BTreeMap<String, bool>, rate: f64 }, #1 { id: i64 } *)
Definition ex_tenv : env := [DStruct [(bs "id", TInt false 8); (bs "tags", TMap false KString TBool); (bs "rate", TF64)]; DStruct [(bs "id", TInt true 64)]].
Definition ex_t1 : bytes := bs " { ""rate"": 3, ""tags"": {""b"": true, ""a"": false}, ""\u0069d"": 7 } ".
Definition ex_t2 : bytes := bs "{""id"":7,""rate"":3,""tags"":{""a"":false,""b"":true}}".
Lemma ex_C66_by E T k oc s u j : setting E id_order exact_print k T -> from_str E k oc TValue s = Ok (VJson j) -> jval_ok j = true -> (forall ryu, render itoa ryu (jtree j) = u) -> reprinted E id_order exact_print k oc s u.
Proof. intros HS R O P. exists j. split; [exact R|]. apply printed_is; [exact (value_setting _ _ _ _ _ HS)|exact O|symmetry; apply P]. Qed.
Example ex_C66_setting : setting ex_tenv id_order exact_print 3 (TNamed 0) /\ in_fields faithful_keys ex_tenv = true /\ text_ok ex_t1 /\ text_ok ex_t2 /\
  reprinted ex_tenv id_order exact_print 3 true ex_t1 ex_t2.
Proof.
  assert (HS : setting ex_tenv id_order exact_print 3 (TNamed 0)) by (apply ex_setting_gen; try reflexivity; [apply ex_orders|cbn; lia]).
  split; [exact HS|]. split; [reflexivity|]. split; [ClaimsParse.text_ok|]. split; [ClaimsParse.text_ok|]. eapply (ex_C66_by _ _ _ _ _ _ _ HS); [vm_compute; reflexivity|vm_compute; reflexivity|intros ryu; vm_compute; reflexivity].
Qed.
Definition ex_tval : jval := JvObj [(bs "id", JvNum (NU64 7)); (bs "rate", JvNum (NU64 3)); (bs "tags", JvObj [(bs "a", JvBool false); (bs "b", JvBool true)])].
Example ex_C66_doc : exists d, JText d ex_t2 /\ plain_integers d /\ distinct_keys d.
Proof.
  destruct (render_jtext exact_print exact_print_ok (jtree ex_tval) eq_refl) as (d & D & Hd). exists d. split; [|clear Hd].
  - assert (X : forall ryu, render itoa ryu (jtree ex_tval) = ex_t2) by (intros ryu; vm_compute; reflexivity). rewrite (X exact_print) in Hd. exact Hd.
  - inversion D as [| | | | | | | |? ds HD]; subst. inversion HD as [|? [k1 d1] ? ds1 [A1 B1] HD1]; subst. inversion HD1 as [|? [k2 d2] ? ds2 [A2 B2] HD2]; subst. inversion HD2 as [|? [k3 d3] ? ds3 [A3 B3] HD3]; subst. inversion HD3; subst.
    cbn [fst snd] in *. subst. inversion B1 as [| | |? n1 I1 L1 N1| | | | |]; subst. inversion B2 as [| | |? n2 I2 L2 N2| | | | |]; subst. inversion B3 as [| | | | | | | |? es HE]; subst.
    inversion HE as [|? [k4 d4] ? es1 [A4 B4] HE1]; subst. inversion HE1 as [|? [k5 d5] ? es2 [A5 B5] HE2]; subst. inversion HE2; subst. cbn [fst snd] in *. subst. inversion B4; inversion B5; subst.
    split.
    + cbn [plain_integers snd]. rewrite L1, L2. unfold i64_MIN, u64_MAX. split; [|split; [|split; [|exact Logic.I]]]; [split; [exact I1|split; [lia|exact N1]]|split; [exact I2|split; [lia|exact N2]]|repeat (split; [exact Logic.I|]); exact Logic.I].
    + apply distinct_obj. split; [|constructor; [exact Logic.I|constructor; [exact Logic.I|constructor; [|constructor]]]].
      * cbn [map fst]. repeat (constructor; [cbn [In]; intuition discriminate|]). constructor.
      * cbn [snd]. apply distinct_obj. split; [|constructor; [exact Logic.I|constructor; [exact Logic.I|constructor]]]. cbn [map fst]. repeat (constructor; [cbn [In]; intuition discriminate|]). constructor.
Qed.
Example ex_C66_read : exists v, from_str ex_tenv 3 true (TNamed 0) ex_t1 = Ok v /\ from_str ex_tenv 3 true (TNamed 0) ex_t2 = Ok v.
Proof. eexists. split; vm_compute; reflexivity. Qed.

(** The hypotheses are needed. A superseded member that does not fit is an error in the text, and gone
    after the detour; -0 is not a number for unsigned types, but 0 is; keys that are different strings
    but the same integer change order. *)
Theorem C66_detour_refuted :
  (exists s u, reprinted ex_tenv id_order exact_print 3 true s u /\ from_str ex_tenv 3 true (TNamed 1) s = Err /\ from_str ex_tenv 3 true (TNamed 1) u = Ok (VStruct [VInt 2])) /\
  (exists s u, reprinted ex_tenv id_order exact_print 3 true s u /\ from_str ex_tenv 3 true (TInt false 8) s = Err /\ from_str ex_tenv 3 true (TInt false 8) u = Ok (VInt 0)) /\
  (exists s u, let T := TMap false (KInt false 8) TBool in
     reprinted ex_tenv id_order exact_print 3 true s u /\ from_str ex_tenv 3 true T s = Ok (VMap [(VInt 1, VBool true)]) /\ from_str ex_tenv 3 true T u = Ok (VMap [(VInt 1, VBool false)])).
Proof.
  pose proof ex_C66_setting as (HS & _). split; [|split].
  - exists (bs "{""id"":true,""id"":2}"), (bs "{""id"":2}"). split; [eapply (ex_C66_by _ _ _ _ _ _ _ HS); [vm_compute; reflexivity|vm_compute; reflexivity|intros ryu; vm_compute; reflexivity]|]. split; vm_compute; reflexivity.
  - exists (bs "-0"), (bs "0"). split; [eapply (ex_C66_by _ _ _ _ _ _ _ HS); [vm_compute; reflexivity|vm_compute; reflexivity|intros ryu; vm_compute; reflexivity]|]. split; vm_compute; reflexivity.
  - exists (bs "{""1"":false,""01"":true}"), (bs "{""01"":true,""1"":false}"). split; [eapply (ex_C66_by _ _ _ _ _ _ _ HS); [vm_compute; reflexivity|vm_compute; reflexivity|intros ryu; vm_compute; reflexivity]|]. split; vm_compute; reflexivity.
Qed.
