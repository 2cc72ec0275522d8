(** Specification for C69: when two values print the same text. *)
From Coq Require Import ZArith List Bool Floats.SpecFloat.
From Verif Require Import Base F64 Types Ser SerSpec.
Import ListNotations.
Open Scope Z_scope.

(** Trees of Serialize objects that differ only in what JSON cannot express: U64 and I64
    fragments of the same number, and non-finite floats, which are null. *)
Inductive TAlike : stree -> stree -> Prop :=
| ta_null : TAlike STNull STNull
| ta_bool b : TAlike (STBool b) (STBool b)
| ta_str s : TAlike (STStr s) (STStr s)
| ta_uu n : TAlike (STU64 n) (STU64 n)
| ta_ii n : TAlike (STI64 n) (STI64 n)
| ta_ui n : TAlike (STU64 n) (STI64 n)
| ta_iu n : TAlike (STI64 n) (STU64 n)
| ta_f64 f : TAlike (STF64 f) (STF64 f)
| ta_nonfinite f g : f_is_finite f = false -> f_is_finite g = false -> TAlike (STF64 f) (STF64 g)
| ta_null_f f : f_is_finite f = false -> TAlike STNull (STF64 f)
| ta_f_null f : f_is_finite f = false -> TAlike (STF64 f) STNull
| ta_seq l l' : Forall2 TAlike l l' -> TAlike (STSeq l) (STSeq l')
| ta_map l l' : Forall2 (fun a b => fst a = fst b /\ TAlike (snd a) (snd b)) l l' -> TAlike (STMap l) (STMap l').

(** The same for a json::Value, *)
Inductive JAlike : jval -> jval -> Prop :=
| ja_null : JAlike JvNull JvNull
| ja_bool b : JAlike (JvBool b) (JvBool b)
| ja_str s : JAlike (JvStr s) (JvStr s)
| ja_num n : JAlike (JvNum n) (JvNum n)
| ja_ui n : JAlike (JvNum (NU64 n)) (JvNum (NI64 n))
| ja_iu n : JAlike (JvNum (NI64 n)) (JvNum (NU64 n))
| ja_nonfinite f g : f_is_finite f = false -> f_is_finite g = false -> JAlike (JvNum (NF64 f)) (JvNum (NF64 g))
| ja_null_f f : f_is_finite f = false -> JAlike JvNull (JvNum (NF64 f))
| ja_f_null f : f_is_finite f = false -> JAlike (JvNum (NF64 f)) JvNull
| ja_arr l l' : Forall2 JAlike l l' -> JAlike (JvArr l) (JvArr l')
| ja_obj l l' : Forall2 (fun a b => fst a = fst b /\ JAlike (snd a) (snd b)) l l' -> JAlike (JvObj l) (JvObj l').

(** and for two values of one type: here also None looks like Some(v) if v prints null. *)
Inductive Alike : val -> val -> Prop :=
| al_unit : Alike VUnit VUnit
| al_bool b : Alike (VBool b) (VBool b)
| al_str s : Alike (VStr s) (VStr s)
| al_int z : Alike (VInt z) (VInt z)
| al_f32 f : Alike (VF32 f) (VF32 f)
| al_f32_nonfinite f g : f_is_finite f = false -> f_is_finite g = false -> Alike (VF32 f) (VF32 g)
| al_f64 f : Alike (VF64 f) (VF64 f)
| al_f64_nonfinite f g : f_is_finite f = false -> f_is_finite g = false -> Alike (VF64 f) (VF64 g)
| al_box v w : Alike v w -> Alike (VBox v) (VBox w)
| al_none : Alike VNone VNone
| al_some v w : Alike v w -> Alike (VSome v) (VSome w)
| al_none_some v : prints_null v = true -> Alike VNone (VSome v)
| al_some_none v : prints_null v = true -> Alike (VSome v) VNone
| al_pair a b c d : Alike a c -> Alike b d -> Alike (VPair a b) (VPair c d)
| al_seq l l' : Forall2 Alike l l' -> Alike (VSeq l) (VSeq l')
| al_map l l' : Forall2 (fun a b => fst a = fst b /\ Alike (snd a) (snd b)) l l' -> Alike (VMap l) (VMap l')
| al_json j j' : JAlike j j' -> Alike (VJson j) (VJson j')
| al_num n n' : JAlike (JvNum n) (JvNum n') -> Alike (VNum n) (VNum n')
| al_jarr l l' : Forall2 JAlike l l' -> Alike (VJArr l) (VJArr l')
| al_jobj l l' : Forall2 (fun a b => fst a = fst b /\ JAlike (snd a) (snd b)) l l' -> Alike (VJObj l) (VJObj l')
| al_struct l l' : Forall2 Alike l l' -> Alike (VStruct l) (VStruct l')
| al_enum i : Alike (VEnum i) (VEnum i).

(** No two variants of an enum carry the same name. *)
Definition distinct_variants (E : env) : Prop :=
  Forall (fun d => match d with DStruct _ => True | DEnum ns => NoDup ns end) E.

(** Values whose text is theirs alone: floats are finite, no Some prints null, and
    nonnegative integers in json::Values are U64. *)
Fixpoint jdistinct (j : jval) : bool :=
  match j with
  | JvNum (NF64 f) => f_is_finite f
  | JvNum (NI64 n) => n <? 0
  | JvNum (NU64 n) => 0 <=? n
  | JvArr l => forallb jdistinct l
  | JvObj l => forallb (fun kj => jdistinct (snd kj)) l
  | _ => true
  end.
Fixpoint distinct (v : val) : bool :=
  match v with
  | VF32 f | VF64 f => f_is_finite f
  | VBox v => distinct v
  | VSome v => negb (prints_null v) && distinct v
  | VPair a b => distinct a && distinct b
  | VSeq l | VStruct l => forallb distinct l
  | VMap l => forallb (fun kv => distinct (snd kv)) l
  | VJson j => jdistinct j
  | VNum n => jdistinct (JvNum n)
  | VJArr l => forallb jdistinct l
  | VJObj l => forallb (fun kj => jdistinct (snd kj)) l
  | _ => true
  end.
