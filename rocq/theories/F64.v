(** The floating-point operations used by the crate, over the standard library's
    executable IEEE-754 specification (round to nearest even). NaN payloads and
    signs are not modelled: the parser never produces a NaN and the serializer
    prints every NaN as null. *)
From Coq Require Import ZArith List Bool Floats.SpecFloat.
From Verif Require Import Base.
Import ListNotations.
Open Scope Z_scope.

Notation f64 := spec_float (only parsing).
Notation f32 := spec_float (only parsing).

(** `n as f64` for n : u64 or i64 (json/de.rs:482, 630; de/impls.rs:136, 141). *)
Definition f64_of_Z (z : Z) : f64 := binary_normalize 53 1024 z 0 false.
(** `n as f32` for n : u64 or i64 (de/impls.rs:136, 141 at f32). *)
Definition f32_of_Z (z : Z) : f32 := binary_normalize 24 128 z 0 false.
(** `n as f32` for n : f64 (de/impls.rs:146 at f32). *)
Definition f32_of_f64 (x : f64) : f32 :=
  match x with S754_finite s m e => binary_round 24 128 s m e | _ => x end.
(** `*self as f64` for self : f32 (ser/impls.rs:73). *)
Definition f64_of_f32 (x : f32) : f64 :=
  match x with S754_finite s m e => binary_round 53 1024 s m e | _ => x end.

Definition f64_mul (x y : f64) : f64 := SFmul 53 1024 x y.
Definition f64_div (x y : f64) : f64 := SFdiv 53 1024 x y.
Definition f64_neg (x : f64) : f64 := SFopp x.
Definition f_zero : f64 := S754_zero false.

Definition f_is_infinite (x : f64) : bool :=
  match x with S754_infinity _ => true | _ => false end.
Definition f_is_finite (x : f64) : bool :=
  match x with S754_zero _ | S754_finite _ _ _ => true | _ => false end.

(** The literal 1eK for 0 <= K <= 308: rustc rounds decimal literals correctly. *)
Definition pow10_lit (k : Z) : f64 := f64_of_Z (10 ^ k).

(** static POW10: [f64; 309] and POW10.get(i) (json/de.rs:632, 661-693). *)
Definition POW10_get (i : Z) : option f64 :=
  if i <? 309 then Some (pow10_lit i) else None.

(** One iteration of the loop in f64_from_parts (json/de.rs:631-655).
    `exponent += 308` happens only for exponent < -308, so it cannot overflow. *)
Definition f64_parts_step (st : f64 * Z) : lstep (f64 * Z) (res f64) :=
  let '(f, exponent) := st in
  match POW10_get (Z.abs exponent) with
  | Some pow =>
      if 0 <=? exponent then
        let f' := f64_mul f pow in
        if f_is_infinite f' then Done Err else Done (Ok f')
      else Done (Ok (f64_div f pow))
  | None =>
      if SFeqb f f_zero then Done (Ok f)
      else if 0 <=? exponent then Done Err
      else More (f64_div f (pow10_lit 308), exponent + 308)
  end.

(** json/de.rs:629-657. *)
Definition f64_from_parts (nonnegative : bool) (significand exponent : Z) : res f64 :=
  match iter_until (Z.to_pos (Z.abs exponent / 308 + 2)) f64_parts_step
                   (f64_of_Z significand, exponent) with
  | More _ => Fault FFuel
  | Done r => let* f := r in Ok (if nonnegative then f else f64_neg f)
  end.
