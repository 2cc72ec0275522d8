(** C72: widening the target type. *)
From Coq Require Import String ZArith List Bool Lia Reals Floats.SpecFloat.
From Verif Require Import Base Utf8 F64 Lexer Grammar LexSpec Types Impls FromStr Reading MapFacts ReadFacts SizeFacts RoundTrip ThroughFacts WideSpec WideFacts ClaimsParse.
Import ListNotations.
Open Scope Z_scope.

(** If T' is wider than T, then every text that is read as a T is read as a T', and the result is
    the converted one. *)
Theorem C72_widening E R k k' oc T T' s v :
  text_ok s -> env_ok E = true -> declared E R -> ty_ok T = true -> ty_ok T' = true -> Wide E R T T' ->
  (wrap_depth E T < k)%nat -> (wrap_depth E T' < k')%nat ->
  from_str E k oc T s = Ok v -> exists v', from_str E k' oc T' s = Ok v' /\ Conv E R T T' v v'.
Proof.
  intros Hs HE HD HT HT' W Hk Hk' H. apply from_str_reads in H; auto. destruct H as (d & J & HR).
  destruct (wide_reads E R HE HD d (JText_doc_ok _ _ J) T T' v HT W HR) as (v' & A & B). exists v'. split; [|exact B].
  apply from_str_reads; auto. eauto.
Qed.

(** The other way around: a narrower type refuses some texts, but never reads another value. *)
Theorem C72_narrowing E R k k' oc T T' s v w :
  text_ok s -> env_ok E = true -> declared E R -> ty_ok T = true -> ty_ok T' = true -> Wide E R T T' ->
  (wrap_depth E T < k)%nat -> (wrap_depth E T' < k')%nat ->
  from_str E k oc T s = Ok v -> from_str E k' oc T' s = Ok w -> Conv E R T T' v w.
Proof.
  intros Hs HE HD HT HT' W Hk Hk' H H'. destruct (C72_widening E R k k' oc T T' s v Hs HE HD HT HT' W Hk Hk' H) as (v' & A & B).
  rewrite H' in A. injection A as ->. exact B.
Qed.

(** Whatever any type reads is read as a json::Value. *)
Lemma obj_readable l : Forall (fun kd : bytes * doc => readable (snd kd)) l -> readable (DObj l).
Proof.
  intros H. assert (X : exists kvs, Forall2 (fun kd kj => fst kd = fst kj /\ JReads (snd kd) (snd kj)) l kvs).
  { induction H as [|[k d] l (j & Hj) H (kvs & IH)]; [exists []; constructor|]. exists ((k, j) :: kvs). constructor; auto. }
  destruct X as (kvs & F). destruct (mapof_exists kvs) as (m & M). exists (JvObj m). econstructor; eassumption.
Qed.
Lemma reads_readable E d : doc_ok d -> forall T v, ty_ok T = true -> env_ok E = true -> Reads E T d v -> readable d.
Proof.
  induction d as [d IHd] using doc_child_ind. intros HO T v HT HE HR. revert HT. induction HR; intros HT; try (eexists; constructor; fail); auto.
  - cbn in HT, HO. destruct (int_number sg b n HT H H0 H1 (fun N => zero_sign n N HO) (fun N => pos_sign n N HO)) as [[Q _]|[Q _]]; eexists; [apply jr_u|apply jr_i]; exact Q.
  - destruct H as [H|H]; eexists; [apply jr_u|apply jr_i]; exact H.
  - eexists. apply jr_f. exact H.
  - destruct H as [H|H]; eexists; [apply jr_u|apply jr_i]; exact H.
  - eexists. apply jr_f. exact H.
  - cbn in HT. apply andb_true_iff in HT. destruct HT as [TA TB]. apply doc_ok_arr in HO. inversion HO as [|? ? O1 HO']; subst. inversion HO' as [|? ? O2 _]; subst.
    destruct (IHd d1 ltac:(left; reflexivity) O1 A a TA HE HR1) as (j1 & J1). destruct (IHd d2 ltac:(right; left; reflexivity) O2 B b TB HE HR2) as (j2 & J2).
    exists (JvArr [j1; j2]). constructor. auto.
  - destruct (forall2_exists JReads l) as (js & F).
    { intros c Hc. apply doc_ok_arr in HO. rewrite Forall_forall in HO. destruct (forall2_in_l _ _ _ _ H Hc) as (w & _ & Hw). exact (IHd c Hc (HO c Hc) T w HT HE Hw). }
    exists (JvArr js). constructor. exact F.
  - destruct (forall2_exists JReads l) as (js & F).
    { intros c Hc. apply doc_ok_arr in HO. rewrite Forall_forall in HO. destruct (forall2_in_l _ _ _ _ H0 Hc) as (w & _ & Hw). exact (IHd c Hc (HO c Hc) T w HT HE Hw). }
    exists (JvArr js). constructor. exact F.
  - apply obj_readable. apply Forall_forall. intros [k c] Hc. apply doc_ok_obj in HO. rewrite Forall_forall in HO. destruct (forall2_in_l _ _ _ _ H Hc) as (w & _ & _ & Hw). cbn in HT. apply andb_true_iff in HT.
    exact (IHd c (ex_intro _ k Hc) (HO _ Hc) T (snd w) (proj2 HT) HE Hw).
  - eexists; eassumption.
  - eexists. apply jr_u. exact H.
  - eexists. apply jr_i. exact H.
  - eexists. apply jr_f. exact H.
  - eexists; eassumption.
  - eexists; eassumption.
  - apply obj_readable. assumption.
Qed.
Theorem C72_everything_is_a_value E k k' oc T s v :
  text_ok s -> env_ok E = true -> ty_ok T = true -> (wrap_depth E T < k)%nat -> (wrap_depth E TValue < k')%nat ->
  from_str E k oc T s = Ok v -> exists j, from_str E k' oc TValue s = Ok (VJson j).
Proof.
  intros Hs HE HT Hk Hk' H. apply from_str_reads in H; auto. destruct H as (d & J & HR).
  destruct (reads_readable E d (JText_doc_ok _ _ J) T v HT HE HR) as (j & Hj). exists j. apply from_str_reads; auto. exists d. split; [exact J|constructor; exact Hj].
Qed.

(** ** What is not a widening *)

(** A new field is read even if it is optional: old texts may contain anything under that name. *)
Theorem C72_new_field_refuted :
  let E := [DStruct [(bs "a", TBool)]; DStruct [(bs "a", TBool); (bs "b", TOption TBool)]] in
  from_str E 5 true (TNamed 0) (bs "{""a"":true}") = Ok (VStruct [VBool true]) /\
  from_str E 5 true (TNamed 1) (bs "{""a"":true}") = Ok (VStruct [VBool true; VNone]) /\
  from_str E 5 true (TNamed 0) (bs "{""a"":true,""b"":1}") = Ok (VStruct [VBool true]) /\
  from_str E 5 true (TNamed 1) (bs "{""a"":true,""b"":1}") = Err.
Proof. repeat split; vm_compute; reflexivity. Qed.
(** An optional field put into a Box is no longer optional. *)
Theorem C72_boxed_option_refuted :
  let E := [DStruct [(bs "a", TOption TBool)]; DStruct [(bs "a", TBox (TOption TBool))]] in
  Wide E (fun _ _ => False) (TOption TBool) (TBox (TOption TBool)) /\
  from_str E 5 true (TNamed 0) (bs "{}") = Ok (VStruct [VNone]) /\ from_str E 5 true (TNamed 1) (bs "{}") = Err.
Proof. split; [repeat constructor|]. split; vm_compute; reflexivity. Qed.
(** Keys of an integer map read as strings: more entries than before. A nullable type inside an Option: null is None. *)
Theorem C72_string_keys_refuted :
  from_str [] 4 true (TMap false (KInt false 8) TBool) (bs "{""1"":true,""01"":false}") = Ok (VMap [(VInt 1, VBool false)]) /\
  from_str [] 4 true (TMap false KString TBool) (bs "{""1"":true,""01"":false}") = Ok (VMap [(VStr (bs "01"), VBool false); (VStr (bs "1"), VBool true)]) /\
  from_str [] 4 true TValue (bs "null") = Ok (VJson JvNull) /\ from_str [] 4 true (TOption TValue) (bs "null") = Ok VNone.
Proof. repeat split; vm_compute; reflexivity. Qed.

(** ** Concrete case: a recursive struct with an enum, a map and numbers, and a later version of it *)
Definition ex_wide : env :=
  [ DStruct [(bs "id", TInt false 16); (bs "kind", TNamed 2); (bs "at", TPair (TInt true 8) (TInt true 16)); (bs "old", TBool);
             (bs "tags", TMap true (KInt false 8) TF64); (bs "next", TOption (TBox (TNamed 0)))];
    DStruct [(bs "next", TOption (TNamed 1)); (bs "id", TOption (TInt true 32)); (bs "kind", TNamed 3);
             (bs "tags", TMap false (KInt true 16) TNumber); (bs "at", TVec TF64)];
    DEnum [bs "A"; bs "B"]; DEnum [bs "C"; bs "B"; bs "A"] ].
Definition ex_wide_R (i j : nat) : Prop := (i = 0 /\ j = 1)%nat \/ (i = 2 /\ j = 3)%nat.
Lemma ex_wide_declared : declared ex_wide ex_wide_R.
Proof.
  intros i j [[-> ->]|[-> ->]]; [left|right]; do 2 eexists; (split; [reflexivity|]); (split; [reflexivity|]).
  - split; [repeat constructor; cbn; intuition discriminate|]. split; [repeat constructor; cbn; intuition discriminate|].
    intros n T' [H|[H|[H|[H|[H|[]]]]]]; injection H as <- <-.
    + exists (TOption (TBox (TNamed 0))). split; [cbn; tauto|]. split; [|reflexivity]. apply wi_option, wi_unbox, wi_named. left. auto.
    + exists (TInt false 16). split; [cbn; tauto|]. split; [|discriminate]. apply wi_some; [reflexivity|]. apply wi_int. split; vm_compute; discriminate.
    + exists (TNamed 2). split; [cbn; tauto|]. split; [|discriminate]. apply wi_named. right. auto.
    + exists (TMap true (KInt false 8) TF64). split; [cbn; tauto|]. split; [|discriminate]. apply wi_map; [split; vm_compute; discriminate|constructor].
    + exists (TPair (TInt true 8) (TInt true 16)). split; [cbn; tauto|]. split; [|discriminate]. apply wi_pair_vec; constructor.
  - split; [repeat constructor; cbn; intuition discriminate|]. intros n [<-|[<-|[]]]; cbn; tauto.
Qed.
Definition ex_wide_text : bytes :=
  bs "{""kind"":""B"", ""id"":7, ""at"":[-1, 300], ""old"":true, ""tags"":{""3"":2,""1"":0.5}, ""next"":{""id"":65535,""kind"":""A"",""at"":[0,0],""old"":false,""tags"":{}}, ""x"":[]}".
Example ex_C72 : text_ok ex_wide_text /\ env_ok ex_wide = true /\ (wrap_depth ex_wide (TNamed 0) < 9)%nat /\ (wrap_depth ex_wide (TNamed 1) < 9)%nat /\
  Wide ex_wide ex_wide_R (TNamed 0) (TNamed 1) /\ declared ex_wide ex_wide_R /\
  from_str ex_wide 9 true (TNamed 0) ex_wide_text =
    Ok (VStruct [VInt 7; VEnum 1; VPair (VInt (-1)) (VInt 300); VBool true; VMap [(VInt 1, VF64 (f64_div (f64_of_Z 1) (f64_of_Z 2))); (VInt 3, VF64 (f64_of_Z 2))];
      VSome (VBox (VStruct [VInt 65535; VEnum 0; VPair (VInt 0) (VInt 0); VBool false; VMap []; VNone]))]) /\
  from_str ex_wide 9 true (TNamed 1) ex_wide_text =
    Ok (VStruct [VSome (VStruct [VNone; VSome (VInt 65535); VEnum 2; VMap []; VSeq [VF64 (f64_of_Z 0); VF64 (f64_of_Z 0)]]);
      VSome (VInt 7); VEnum 1; VMap [(VInt 1, VNum (NF64 (f64_div (f64_of_Z 1) (f64_of_Z 2)))); (VInt 3, VNum (NU64 2))]; VSeq [VF64 (f64_of_Z (-1)); VF64 (f64_of_Z 300)]]).
Proof.
  split; [text_ok|]. split; [reflexivity|]. split; [vm_compute; lia|]. split; [vm_compute; lia|]. split; [apply wi_named; left; auto|]. split; [exact ex_wide_declared|].
  split; vm_compute; reflexivity.
Qed.
