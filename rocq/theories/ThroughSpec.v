(** Specification for C66: types and documents that do not notice a detour through json::Value. *)
From Coq Require Import String ZArith List Bool.
From Verif Require Import Base Utf8 F64 Lexer Grammar LexSpec Types Reading.
Import ListNotations.
Open Scope Z_scope.

(** Maps are keyed by strings or bools: different keys of an object are different keys of the map. *)
Fixpoint faithful_keys (T : ty) : bool :=
  match T with
  | TBox t | TOption t | TVec t | TArr t _ => faithful_keys t
  | TPair a b => faithful_keys a && faithful_keys b
  | TMap _ k t => (match k with KInt _ _ => false | _ => true end) && faithful_keys t
  | _ => true
  end.
(** No floating point and no json::Value, Number, Array, Object. *)
Fixpoint integers_at_most (T : ty) : bool :=
  match T with
  | TF32 | TF64 | TValue | TNumber | TArray | TObject => false
  | TBox t | TOption t | TVec t | TArr t _ | TMap _ _ t => integers_at_most t
  | TPair a b => integers_at_most a && integers_at_most b
  | _ => true
  end.
(** ... also in the fields of the derived types. *)
Definition in_fields (p : ty -> bool) (E : env) : bool :=
  forallb (fun d => match d with DStruct fs => forallb (fun f => p (snd f)) fs | DEnum _ => true end) E.

(** Every number is an integer in the range of i64 or u64, without fraction or exponent, and not -0. *)
Fixpoint plain_integers (d : doc) : Prop :=
  match d with
  | DNum n => is_int_lit n /\ i64_MIN <= lit_int n <= u64_MAX /\ n_neg n = (lit_int n <? 0)
  | DArr l => (fix go l := match l with [] => True | x :: r => plain_integers x /\ go r end) l
  | DObj l => (fix go l := match l with [] => True | x :: r => plain_integers (snd x) /\ go r end) l
  | _ => True
  end.
(** No object has two members of the same name. *)
Fixpoint distinct_keys (d : doc) : Prop :=
  match d with
  | DArr l => (fix go l := match l with [] => True | x :: r => distinct_keys x /\ go r end) l
  | DObj l => NoDup (map fst l) /\ (fix go l := match l with [] => True | x :: r => distinct_keys (snd x) /\ go r end) l
  | _ => True
  end.
