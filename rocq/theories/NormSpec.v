(** Specification for C65: when two documents say the same, as far as json::Value is concerned. *)
From Coq Require Import String ZArith List Bool Floats.SpecFloat.
From Verif Require Import Base Utf8 F64 Lexer Grammar LexSpec Types Impls Reading Ser SerSpec.
Import ListNotations.
Open Scope Z_scope.

(** Two number literals: the same integer (within i64 and u64); or both are converted to
    floating point, with the same result. *)
Inductive same_literal (n n' : numlit) : Prop :=
| sl_integer : is_int_lit n -> is_int_lit n' -> i64_MIN <= lit_int n <= u64_MAX -> lit_int n = lit_int n' ->
    same_literal n n'
| sl_float f : reads_f n f -> reads_f n' f -> same_literal n n'.

(** Objects: the same keys, in any order; of several members with the same key the last one
    counts. *)
Inductive same_doc : doc -> doc -> Prop :=
| sd_null : same_doc DNull DNull
| sd_bool b : same_doc (DBool b) (DBool b)
| sd_str s : same_doc (DStr s) (DStr s)
| sd_num n n' : same_literal n n' -> same_doc (DNum n) (DNum n')
| sd_arr l l' : Forall2 same_doc l l' -> same_doc (DArr l) (DArr l')
| sd_obj l l' :
    (forall k d, last_binding l k d -> exists d', last_binding l' k d' /\ same_doc d d') ->
    (forall k d', last_binding l' k d' -> exists d, last_binding l k d /\ same_doc d d') ->
    same_doc (DObj l) (DObj l').

(** All numbers are integers, written without fraction or exponent. *)
Fixpoint integers_only (d : doc) : Prop :=
  match d with
  | DNum n => is_int_lit n /\ i64_MIN <= lit_int n <= u64_MAX
  | DArr l => (fix go l := match l with [] => True | x :: r => integers_only x /\ go r end) l
  | DObj l => (fix go l := match l with [] => True | x :: r => integers_only (snd x) /\ go r end) l
  | _ => True
  end.

(** Reading [s] as a json::Value and printing that value gives [s']. *)
Definition reprinted (E : env) (hm : nat -> list (val * val) -> list (val * val)) (ryu : f64 -> bytes) (k : nat) (oc : bool)
    (s s' : bytes) : Prop :=
  exists j, from_str E k oc TValue s = Ok (VJson j) /\ to_string_is E hm ryu k TValue (VJson j) s'.
