(** Specification: the real number a literal denotes, and what "within a relative error
    and an absolute error" means. Independent of the parser. *)
From Coq Require Import ZArith Reals List Bool.
From Verif Require Import Base Grammar.
Import ListNotations.

(** The number denoted by a literal (RFC 8259, section 6): sign, digits as an integer,
    times a power of ten. *)
Definition lit_value (n : numlit) : R :=
  ((if n_neg n then -1 else 1) * IZR (lit_mantissa n) * powerRZ 10 (lit_scale n))%R.

(** All digit lists of the literal hold digits (true of every literal of the grammar). *)
Definition lit_ok (n : numlit) : Prop :=
  Forall digit (n_int n) /\ Forall digit (frac_digits n) /\
  match n_exp n with Some (_, ds) => Forall digit ds | None => True end.

(** A literal with fewer digits than would make a decimal exponent of 400 overflow the
    parser's 32-bit exponent; the limit is about 2.1 * 10^9 digits. *)
Definition digit_limit : Z := 2147483200.
Definition lit_short (n : numlit) : Prop :=
  (Z.of_nat (List.length (n_int n)) <= digit_limit /\ Z.of_nat (List.length (frac_digits n)) <= digit_limit)%Z.
