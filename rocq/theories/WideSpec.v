(** Specification for C72: when a type T' accepts everything that T accepts, and what the
    result of T becomes. *)
From Coq Require Import String ZArith List Bool Floats.SpecFloat.
From Verif Require Import Base F64 Types.
Import ListNotations.
Open Scope Z_scope.

Section Wide.
Variable E : env.
(** Which named types are meant to widen which others (recursive types refer to themselves). *)
Variable R : nat -> nat -> Prop.

Definition range_in (sg : bool) (b : Z) (sg' : bool) (b' : Z) : Prop :=
  int_min sg' b' <= int_min sg b /\ int_max sg b <= int_max sg' b'.
Definition key_in (K K' : kty) : Prop :=
  match K, K' with
  | KString, KString | KBool, KBool => True
  | KInt sg b, KInt sg' b' => range_in sg b sg' b'
  | _, _ => False
  end.
(** null is not a value of the type. *)
Fixpoint no_null (T : ty) : bool :=
  match T with TUnit | TOption _ | TValue => false | TBox T => no_null T | _ => true end.

(** T' accepts more. *)
Inductive Wide : ty -> ty -> Prop :=
| wi_refl T : Wide T T
| wi_int sg b sg' b' : range_in sg b sg' b' -> Wide (TInt sg b) (TInt sg' b')
| wi_int_f64 sg b : Wide (TInt sg b) TF64
| wi_int_f32 sg b : Wide (TInt sg b) TF32
| wi_int_number sg b : Wide (TInt sg b) TNumber
| wi_f64_number : Wide TF64 TNumber
| wi_number_f64 : Wide TNumber TF64
| wi_unbox T T' : Wide T T' -> Wide (TBox T) T'
| wi_box T T' : Wide T T' -> Wide T (TBox T')
| wi_option T T' : Wide T T' -> Wide (TOption T) (TOption T')
| wi_some T T' : no_null T = true -> Wide T T' -> Wide T (TOption T')
| wi_unit T : Wide TUnit (TOption T)
| wi_vec T T' : Wide T T' -> Wide (TVec T) (TVec T')
| wi_arr T T' n : Wide T T' -> Wide (TArr T n) (TArr T' n)
| wi_arr_vec T T' n : Wide T T' -> Wide (TArr T n) (TVec T')
| wi_pair A B A' B' : Wide A A' -> Wide B B' -> Wide (TPair A B) (TPair A' B')
| wi_pair_vec A B T' : Wide A T' -> Wide B T' -> Wide (TPair A B) (TVec T')
| wi_pair_arr A B T' : Wide A T' -> Wide B T' -> Wide (TPair A B) (TArr T' 2)
| wi_arr_pair T A' B' : Wide T A' -> Wide T B' -> Wide (TArr T 2) (TPair A' B')
| wi_map h h' K K' T T' : key_in K K' -> Wide T T' -> Wide (TMap h K T) (TMap h' K' T')
| wi_named i j : R i j -> Wide (TNamed i) (TNamed j)
| wi_enum_string i ns : nth_error E i = Some (DEnum ns) -> Wide (TNamed i) TString.

(** What a result becomes. *)
Inductive Conv : ty -> ty -> val -> val -> Prop :=
| co_refl T v : Conv T T v v
| co_int sg b sg' b' z : Conv (TInt sg b) (TInt sg' b') (VInt z) (VInt z)
| co_int_f64 sg b z : Conv (TInt sg b) TF64 (VInt z) (VF64 (f64_of_Z z))
| co_int_f32 sg b z : Conv (TInt sg b) TF32 (VInt z) (VF32 (f32_of_Z z))
| co_int_u sg b z : 0 <= z -> Conv (TInt sg b) TNumber (VInt z) (VNum (NU64 z))
| co_int_i sg b z : z <= 0 -> Conv (TInt sg b) TNumber (VInt z) (VNum (NI64 z))
| co_f64_u z : Conv TF64 TNumber (VF64 (f64_of_Z z)) (VNum (NU64 z))
| co_f64_i z : Conv TF64 TNumber (VF64 (f64_of_Z z)) (VNum (NI64 z))
| co_f64_f f : Conv TF64 TNumber (VF64 f) (VNum (NF64 f))
| co_u_f64 z : Conv TNumber TF64 (VNum (NU64 z)) (VF64 (f64_of_Z z))
| co_i_f64 z : Conv TNumber TF64 (VNum (NI64 z)) (VF64 (f64_of_Z z))
| co_f_f64 f : Conv TNumber TF64 (VNum (NF64 f)) (VF64 f)
| co_unbox T T' v v' : Conv T T' v v' -> Conv (TBox T) T' (VBox v) v'
| co_box T T' v v' : Conv T T' v v' -> Conv T (TBox T') v (VBox v')
| co_none T T' : Conv (TOption T) (TOption T') VNone VNone
| co_option T T' v v' : Conv T T' v v' -> Conv (TOption T) (TOption T') (VSome v) (VSome v')
| co_some T T' v v' : no_null T = true -> Conv T T' v v' -> Conv T (TOption T') v (VSome v')
| co_unit T : Conv TUnit (TOption T) VUnit VNone
| co_vec T T' l l' : Forall2 (Conv T T') l l' -> Conv (TVec T) (TVec T') (VSeq l) (VSeq l')
| co_arr T T' n l l' : Forall2 (Conv T T') l l' -> Conv (TArr T n) (TArr T' n) (VSeq l) (VSeq l')
| co_arr_vec T T' n l l' : Forall2 (Conv T T') l l' -> Conv (TArr T n) (TVec T') (VSeq l) (VSeq l')
| co_pair A B A' B' a b a' b' : Conv A A' a a' -> Conv B B' b b' -> Conv (TPair A B) (TPair A' B') (VPair a b) (VPair a' b')
| co_pair_vec A B T' a b a' b' : Conv A T' a a' -> Conv B T' b b' -> Conv (TPair A B) (TVec T') (VPair a b) (VSeq [a'; b'])
| co_pair_arr A B T' a b a' b' : Conv A T' a a' -> Conv B T' b b' -> Conv (TPair A B) (TArr T' 2) (VPair a b) (VSeq [a'; b'])
| co_arr_pair T A' B' a b a' b' : Conv T A' a a' -> Conv T B' b b' -> Conv (TArr T 2) (TPair A' B') (VSeq [a; b]) (VPair a' b')
(** The same keys in the same order. *)
| co_map h h' K K' T T' m m' : Forall2 (fun e e' => fst e = fst e' /\ Conv T T' (snd e) (snd e')) m m' ->
    Conv (TMap h K T) (TMap h' K' T') (VMap m) (VMap m')
(** Fields and variants by name. *)
| co_struct i j fs fs' vs vs' : R i j -> nth_error E i = Some (DStruct fs) -> nth_error E j = Some (DStruct fs') ->
    List.length vs' = List.length fs' ->
    (forall b n T' v', nth_error fs' b = Some (n, T') -> nth_error vs' b = Some v' ->
       exists a T v, nth_error fs a = Some (n, T) /\ nth_error vs a = Some v /\ Conv T T' v v') ->
    Conv (TNamed i) (TNamed j) (VStruct vs) (VStruct vs')
| co_enum i j ns ns' a b n : R i j -> nth_error E i = Some (DEnum ns) -> nth_error E j = Some (DEnum ns') ->
    nth_error ns a = Some n -> nth_error ns' b = Some n -> Conv (TNamed i) (TNamed j) (VEnum a) (VEnum b)
| co_enum_string i ns a n : nth_error E i = Some (DEnum ns) -> nth_error ns a = Some n -> Conv (TNamed i) TString (VEnum a) (VStr n).

(** The declarations keep what R says: the new struct has some of the old fields, in any order,
    each of a wider type (of an optional one if it was optional); the new enum has all the
    variant names. *)
Definition is_option (T : ty) : bool := match T with TOption _ => true | _ => false end.
Definition declared : Prop := forall i j, R i j ->
  (exists fs fs', nth_error E i = Some (DStruct fs) /\ nth_error E j = Some (DStruct fs') /\
     NoDup (map fst fs) /\ NoDup (map fst fs') /\
     forall n T', In (n, T') fs' -> exists T, In (n, T) fs /\ Wide T T' /\ (is_option T = true -> is_option T' = true)) \/
  (exists ns ns', nth_error E i = Some (DEnum ns) /\ nth_error E j = Some (DEnum ns') /\ NoDup ns' /\ forall n, In n ns -> In n ns').
End Wide.
