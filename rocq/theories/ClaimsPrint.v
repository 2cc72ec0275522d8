(** C69: when two values print the same text. *)
From Coq Require Import String ZArith List Bool Lia Reals Permutation Floats.SpecFloat.
From Verif Require Import Base Utf8 F64 Lexer Grammar LexSpec Types Impls Ser JsonValue HeapSeq Reading NumValue DocSpec SerSpec SerFacts RenderFacts WriteFacts ExactPrint ClaimsSer ClaimsWrite ClaimsOrder ClaimsOpenClosed PrintSpec PrintFacts.
Import ListNotations.
Open Scope Z_scope.

(** Two objects of any implementations of Serialize write the same text exactly if they
    describe trees that differ only in what JSON cannot express. *)
Theorem C69_any_serialize {St D SQ MP St' D' SQ' MP' : Type} (I : siface St D SQ MP) (I' : siface St' D' SQ' MP') ryu
    d st t st1 o f d' st' t' st1' o' f' :
  ryu_ok ryu -> strs_valid I -> strs_valid I' ->
  Describes I d st t st1 -> Describes I' d' st' t' st1' -> stree_ok t = true -> stree_ok t' = true ->
  fst (to_string_impl I ryu f d st) = Ok o -> fst (to_string_impl I' ryu f' d' st') = Ok o' ->
  (nodes t <= f)%nat -> (nodes t' <= f')%nat ->
  (o = o' <-> TAlike t t').
Proof.
  intros HR HV HV' HD HD' Ht Ht' H H' L L'.
  rewrite (C27_any_serialize I ryu d st t st1 f HV HD L) in H. rewrite (C27_any_serialize I' ryu d' st' t' st1' f' HV' HD' L') in H'.
  cbn [fst] in H, H'. injection H as <-. injection H' as <-. apply render_alike; assumption.
Qed.

(** Two values of one type that print the same text, whatever order their HashMaps are
    iterated in, are alike. *)
Theorem C69_same_text E hm hm' ryu k T v w s :
  setting E hm ryu k T -> setting E hm' ryu k T -> distinct_variants E -> has_type E T v -> has_type E T w ->
  to_string_is E hm ryu k T v s -> to_string_is E hm' ryu k T w s -> Alike v w.
Proof.
  intros HS HS' HN Hv Hw H H'. destruct (written_tree _ _ _ _ _ _ _ HS Hv H) as (t & d & W & O & E1 & _ & _).
  destruct (written_tree _ _ _ _ _ _ _ HS' Hw H') as (t' & d' & W' & O' & E2 & _ & _).
  assert (A : TAlike t t') by (apply (render_alike ryu); [apply HS|exact O|exact O'|congruence]).
  eapply alike_values; eassumption.
Qed.
(** They are the same value if no Some in them prints null, their floats are finite and
    nonnegative integers in json::Values are U64: the text identifies the value. *)
Theorem C69_text_identifies_the_value E hm hm' ryu k T v w s :
  setting E hm ryu k T -> setting E hm' ryu k T -> distinct_variants E -> has_type E T v -> has_type E T w ->
  distinct v = true -> distinct w = true ->
  to_string_is E hm ryu k T v s -> to_string_is E hm' ryu k T w s -> v = w.
Proof. intros. eapply alike_distinct; [eapply C69_same_text; [exact H|exact H0|..]|..]; eassumption. Qed.
(** Conversely, alike values print the same texts. *)
Theorem C69_alike_values E hm ryu k T v w s :
  setting E hm ryu k T -> has_type E T v -> has_type E T w -> Alike v w -> to_string_is E hm ryu k T v s ->
  exists hm', orders hm' /\ to_string_is E hm' ryu k T w s.
Proof.
  intros HS Hv Hw A H. destruct (written_tree _ _ _ _ _ _ _ HS Hv H) as (t & d & W & O & -> & _ & _).
  destruct (alike_back E v T w t Hv Hw A W) as (u & W' & A'). rewrite (alike_render ryu t u A'). eapply orders_for; eassumption.
Qed.

(** The exceptions are real: None and Some(None), *)
Theorem C69_options_refuted ryu :
  let T := TOption (TOption TBool) in
  has_type [] T VNone /\ has_type [] T (VSome VNone) /\
  to_string [] id_order ryu 4 9 T VNone = Ok (bs "null") /\ to_string [] id_order ryu 4 9 T (VSome VNone) = Ok (bs "null").
Proof. cbn zeta. split; [constructor|]. split; [repeat constructor|]. split; reflexivity. Qed.
(** 1u64 and 1i64 in a json::Value, *)
Theorem C69_integers_refuted ryu :
  has_type [] TValue (VJson (JvNum (NU64 1))) /\ has_type [] TValue (VJson (JvNum (NI64 1))) /\
  to_string [] id_order ryu 4 9 TValue (VJson (JvNum (NU64 1))) = Ok (bs "1") /\ to_string [] id_order ryu 4 9 TValue (VJson (JvNum (NI64 1))) = Ok (bs "1").
Proof. split; [constructor; reflexivity|]. split; [constructor; reflexivity|]. split; reflexivity. Qed.
(** variants of the same name. *)
Theorem C69_variants_refuted ryu :
  let E := [DEnum [bs "A"; bs "A"]] in
  has_type E (TNamed 0) (VEnum 0) /\ has_type E (TNamed 0) (VEnum 1) /\
  to_string E id_order ryu 4 9 (TNamed 0) (VEnum 0) = Ok (bs """A""") /\ to_string E id_order ryu 4 9 (TNamed 0) (VEnum 1) = Ok (bs """A""").
Proof. cbn zeta. split; [econstructor; [reflexivity|cbn; lia]|]. split; [econstructor; [reflexivity|cbn; lia]|]. split; reflexivity. Qed.

(** ** Concrete case *)
Definition ex_pt : ty := TMap true KString (TOption (TInt true 16)).
Definition ex_pv : val := VMap [(VStr (bs "a"), VSome (VInt (-1))); (VStr (bs "b"), VNone)].
Example ex_C69 : setting [] id_order exact_print 4 ex_pt /\ setting [] rev_order exact_print 4 ex_pt /\ distinct_variants [] /\
  has_type [] ex_pt ex_pv /\ distinct ex_pv = true /\
  to_string [] id_order exact_print 4 9 ex_pt ex_pv = Ok (bs "{""a"":-1,""b"":null}") /\
  to_string [] rev_order exact_print 4 9 ex_pt ex_pv = Ok (bs "{""b"":null,""a"":-1}").
Proof.
  split; [apply ex_setting_gen; try reflexivity; try apply ex_orders; cbn; lia|].
  split; [apply ex_setting_gen; try reflexivity; try apply ex_orders; cbn; lia|].
  split; [constructor|]. split; [repeat constructor|]. split; [reflexivity|]. vm_compute. auto.
Qed.
Example ex_C69_alike : Alike (VPair (VSome (VF64 S754_nan)) (VF64 (S754_infinity true))) (VPair VNone (VF64 S754_nan)) /\
  ~ Alike (VF64 (S754_zero true)) (VF64 (S754_zero false)).
Proof. split; [repeat constructor|]. intros H. inversion H; subst. discriminate. Qed.
