(** Specification vocabulary shared by the claims: the literals of a document and when a
    literal can be converted. *)
From Coq Require Import String ZArith List Bool Reals Floats.SpecFloat.
From Flocq Require Import Core.Core IEEE754.BinarySingleNaN.
From Verif Require Import Base Utf8 F64 Lexer Grammar LexSpec Types Reading NumValue.
Import ListNotations.
Open Scope Z_scope.

(** The number literals that occur in a document. *)
Fixpoint lits (d : doc) : list numlit :=
  match d with
  | DNum n => [n]
  | DArr l => flat_map lits l
  | DObj l => flat_map (fun kd => lits (snd kd)) l
  | _ => []
  end.

(** An integer literal in the range of u64 or i64, or a literal whose conversion to f64
    is not an overflow. *)
Definition lit_readable (n : numlit) : Prop :=
  (exists z, reads_u n z) \/ (exists z, reads_i n z) \/ (exists f, reads_f n f).

(** The document is not a bare number. *)
Definition not_number (d : doc) : Prop := forall n, d <> DNum n.

(** The real number a floating-point value stands for (0 for the non-finite ones). *)
Definition freal (f : spec_float) : R := SF2R radix2 f.
(** f64::MAX. *)
Definition f64_MAX : R := (IZR (2 ^ 53 - 1) * bpow radix2 971)%R.
(** f32::MAX. *)
Definition f32_MAX : R := (IZR (2 ^ 24 - 1) * bpow radix2 104)%R.
(** The f64 / f32 nearest to a real, ties to even, without regard to overflow. *)
Definition nearest64 (x : R) : R := round radix2 (FLT_exp (-1074) 53) ZnearestE x.
Definition nearest32 (x : R) : R := round radix2 (FLT_exp (-149) 24) ZnearestE x.
