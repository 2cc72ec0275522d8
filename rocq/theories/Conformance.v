(** The repository's own tests (tests/), run on the model: what they assert of the program holds of
    the model. Deep nesting is proved for every depth. *)
From Coq Require Import String ZArith List Bool Lia Permutation Floats.SpecFloat.
From Verif Require Import Base Utf8 Utf8Facts F64 Lexer Types Impls Ser SerSpec RenderFacts WriteFacts ExactPrint Derive Grammar ClaimsSer ClaimsWrite ClaimsParse ClaimsNorm.
Import ListNotations.
Open Scope Z_scope.

Definition rename (s : string) : attribute := mkattr (bs "serde") (Some [mkmeta (bs "rename") (RhsStr (bs s))]).
Definition derived (l : list derive_input) : res env := collect decl_of l.

(** ** tests/test_derive.rs. #0 Tag, #1 Example, #2 Nested *)
Definition t_tag : derive_input := mkinput [] (bs "Tag") false false (DataEnum
  [mkvariant [] (bs "A") FieldsUnit; mkvariant [rename "renamedB"] (bs "B") FieldsUnit;
   mkvariant [mkattr (bs "allow") (Some [mkmeta (bs "non_camel_case_types") RhsNone])] (bs "r#enum") FieldsUnit]).
Definition t_example : derive_input := mkinput [] (bs "Example") false false (DataStruct (FieldsNamed
  [mkfield [] (bs "x") TString; mkfield [] (bs "t1") (TNamed 0); mkfield [] (bs "t2") (TBox (TNamed 0));
   mkfield [] (bs "t3") (TArr (TNamed 0) 1); mkfield [] (bs "r#struct") (TBox (TNamed 2))])).
Definition t_nested : derive_input := mkinput [] (bs "Nested") false false (DataStruct (FieldsNamed
  [mkfield [] (bs "y") (TOption (TVec TString)); mkfield [] (bs "z") (TOption TString)])).
Definition t_env : env := match derived [t_tag; t_example; t_nested] with Ok E => E | _ => [] end.
Definition t_value : val :=
  VStruct [VStr (bs "X"); VEnum 0; VBox (VEnum 1); VSeq [VEnum 2];
           VBox (VStruct [VSome (VSeq [VStr (bs "Y"); VStr (bs "Y")]); VNone])].
Example test_derive_de :
  derived [t_tag; t_example; t_nested] = Ok t_env /\
  from_str t_env 5 true (TNamed 1)
    (bs " {""x"": ""X"", ""t1"": ""A"", ""t2"": ""renamedB"", ""t3"": [""enum""], ""struct"": {""y"": [""Y"", ""Y""]}} ") = Ok t_value.
Proof. vm_compute. split; reflexivity. Qed.
Example test_derive_ser ryu :
  to_string t_env id_order ryu 5 100 (TNamed 1) t_value =
  Ok (bs "{""x"":""X"",""t1"":""A"",""t2"":""renamedB"",""t3"":[""enum""],""struct"":{""y"":[""Y"",""Y""],""z"":null}}").
Proof. vm_compute. reflexivity. Qed.

(** ** tests/test_number.rs: 1.0, NAN with both signs (one NaN here), INFINITY, NEG_INFINITY *)
Example test_number_ser ryu : ryu (S754_finite false 4503599627370496 (-52)) = bs "1.0" ->
  to_string [] id_order ryu 1 10 TF64 (VF64 (S754_finite false 4503599627370496 (-52))) = Ok (bs "1.0") /\
  to_string [] id_order ryu 1 10 TF64 (VF64 S754_nan) = Ok (bs "null") /\
  to_string [] id_order ryu 1 10 TF64 (VF64 (S754_infinity false)) = Ok (bs "null") /\
  to_string [] id_order ryu 1 10 TF64 (VF64 (S754_infinity true)) = Ok (bs "null").
Proof. intros H. vm_compute. vm_compute in H. rewrite H. repeat split. Qed.

(** ** tests/test_impls.rs *)
Example test_array ryu :
  from_str [] 1 true (TArr TString 3) (bs "[""1"",""2"",""3""]") = Ok (VSeq [VStr (bs "1"); VStr (bs "2"); VStr (bs "3")]) /\
  to_string [] id_order ryu 1 10 (TArr TString 3) (VSeq [VStr (bs "1"); VStr (bs "2"); VStr (bs "3")]) = Ok (bs "[""1"",""2"",""3""]").
Proof. vm_compute. split; reflexivity. Qed.
Example test_array_too_short : from_str [] 1 true (TArr TString 3) (bs "[""1"",""2""]") = Err.
Proof. vm_compute. reflexivity. Qed.
Example test_array_too_long : from_str [] 1 true (TArr TString 3) (bs "[""1"",""2"",""3"",""4""]") = Err.
Proof. vm_compute. reflexivity. Qed.

(** ** tests/regression: issue24, issue9 *)
Definition t_point : derive_input := mkinput [] (bs "Point") false false (DataStruct (FieldsNamed
  [mkfield [] (bs "x") (TInt false 32); mkfield [] (bs "y") (TInt false 32)])).
Example regression_unknown_field :
  match derived [t_point] with
  | Ok E => from_str E 2 true (TNamed 0) (bs "{""x"": 1, ""y"": 2, ""z"": 3}") = Ok (VStruct [VInt 1; VInt 2])
  | _ => False
  end.
Proof. vm_compute. reflexivity. Qed.
Example regression_trailing : from_str [] 1 true TBool (bs " true && false ") = Err.
Proof. vm_compute. reflexivity. Qed.

(** ** tests/ui: the derive macros refuse these items *)
Definition derives_nothing (i : derive_input) : Prop := derive_ser i = Err /\ derive_de i = Err.
Definition x_field (attrs : list attribute) : data := DataStruct (FieldsNamed [mkfield attrs (bs "x") (TInt true 32)]).
Example ui_tests :
  derives_nothing (mkinput [] (bs "Struct") false false (x_field [mkattr (bs "serde")
     (Some [mkmeta (bs "rename") (RhsStr (bs "A")); mkmeta (bs "rename") (RhsStr (bs "B"))])])) /\
  derives_nothing (mkinput [] (bs "Struct") false false (x_field [mkattr (bs "serde") (Some [mkmeta (bs "skip") RhsNone])])) /\
  derives_nothing (mkinput [] (bs "Enum") false false (DataEnum [mkvariant [] (bs "Variant") (FieldsUnnamed 1)])) /\
  derives_nothing (mkinput [] (bs "Enum") true false (DataEnum [mkvariant [] (bs "Variant") FieldsUnit])) /\
  derives_nothing (mkinput [] (bs "TupleStruct") false false (DataStruct (FieldsUnnamed 2))) /\
  derives_nothing (mkinput [] (bs "Union") false false DataUnion) /\
  derives_nothing (mkinput [] (bs "UnitStruct") false false (DataStruct FieldsUnit)).
Proof. repeat split. Qed.

(** ** README.md *)
Definition t_readme : derive_input := mkinput [] (bs "Example") false false (DataStruct (FieldsNamed
  [mkfield [] (bs "code") (TInt false 32); mkfield [] (bs "message") TString])).
Example readme ryu :
  match derived [t_readme] with
  | Ok E =>
      let v := VStruct [VInt 200; VStr (bs "reminiscent of Serde")] in
      let j := bs "{""code"":200,""message"":""reminiscent of Serde""}" in
      to_string E id_order ryu 2 10 (TNamed 0) v = Ok j /\ from_str E 2 true (TNamed 0) j = Ok v
  | _ => False
  end.
Proof. vm_compute. split; reflexivity. Qed.

(** ** tests/test_value.rs: test_round_trip_deeply_nested for every depth, with one native frame
    (test_debug is in ClaimsDebug.v) *)
Definition deep_text (depth : nat) : bytes := concat (repeat (bs "{""x"":[") depth) ++ concat (repeat (bs "]}") depth).
Fixpoint deep (depth : nat) : jval :=
  match depth with
  | O => JvObj [(bs "x", JvArr [])]
  | S n => JvObj [(bs "x", JvArr [deep n])]
  end.
Lemma deep_text_S n : deep_text (S n) = bs "{""x"":[" ++ deep_text n ++ bs "]}".
Proof.
  unfold deep_text. assert (H : forall n, concat (repeat (bs "]}") n) ++ bs "]}" = bs "]}" ++ concat (repeat (bs "]}") n)).
  { clear. induction n as [|n IH]; [reflexivity|]. cbn [repeat concat]. rewrite <- app_assoc, IH. reflexivity. }
  cbn [repeat concat]. rewrite <- H, <- !app_assoc. reflexivity.
Qed.
Lemma deep_ok n : jval_ok (deep n) = true /\ jplain (deep n) = true.
Proof. induction n as [|n [I1 I2]]; [split; reflexivity|]. cbn [deep jval_ok jplain forallb fst snd]. rewrite I1, I2. split; reflexivity. Qed.
Lemma deep_render ryu n : render itoa ryu (jtree (deep n)) = deep_text (S n).
Proof.
  induction n as [|n IH]; [reflexivity|]. rewrite deep_text_S, <- IH. cbn [deep jtree map fst snd]. set (t := jtree (deep n)).
  cbn [render map fst snd commas]. change (quote (bs "x")) with (bs """x"""). 
  generalize (render itoa ryu t). intros r. change (bs "{""x"":[") with [123; 34; 120; 34; 58; 91]. change (bs "]}") with [93; 125]. change (bs """x""") with [34; 120; 34].
  cbn [app]. rewrite <- !app_assoc. reflexivity.
Qed.
Theorem test_round_trip_deeply_nested ryu oc n : ryu_ok ryu ->
  from_str [] 1 oc TValue (deep_text (S n)) = Ok (VJson (deep n)) /\
  to_string_is [] id_order ryu 1 TValue (VJson (deep n)) (deep_text (S n)).
Proof.
  intros HR. assert (HS : setting [] id_order ryu 1 TValue) by (unfold setting; repeat (split; [reflexivity || exact HR || apply ex_orders|]); cbn; lia).
  destruct (deep_ok n) as [H1 H2]. assert (HP : to_string_is [] id_order ryu 1 TValue (VJson (deep n)) (deep_text (S n))) by (apply printed_is; [exact HS|exact H1|symmetry; apply deep_render]).
  split; [|exact HP]. eapply C34_plain_unchanged; eassumption.
Qed.
