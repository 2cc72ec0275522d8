(** Outcomes, machine integers, checked indexing.

    Conventions of the whole model:
    - a byte (u8) and every Rust integer is a [Z]; a byte string is a [list Z];
    - a Rust function returning [Result<T>] becomes a function returning [res T];
      [Err] is miniserde's unit [Error] (src/error.rs:8), [Fault] is an outcome a
      safe API must never produce: a panic, undefined behaviour, a loop whose
      iteration budget ran out (non-termination), a native recursion deeper
      than the budget under consideration, or an abort of the process (a second
      panic while a first one unwinds). *)
From Coq Require Import ZArith List Bool Lia String Ascii.
Import ListNotations.
Open Scope Z_scope.

Notation byte := Z (only parsing).
Notation bytes := (list Z) (only parsing).

Inductive fault := FPanic | FUB | FFuel | FDeep | FAbort.

(** src/error.rs:8-11 (Error carries no information). *)
Inductive res (A : Type) :=
| Ok (a : A)
| Err
| Fault (f : fault).
Arguments Ok {A} _.
Arguments Err {A}.
Arguments Fault {A} _.

Definition bind {A B} (r : res A) (k : A -> res B) : res B :=
  match r with
  | Ok a => k a
  | Err => Err
  | Fault f => Fault f
  end.

Notation "'let*' p ':=' e 'in' k" := (bind e (fun p => k))
  (at level 200, p pattern, e at level 100, k at level 200, right associativity).

Definition is_fault {A} (r : res A) : bool :=
  match r with Fault _ => true | _ => false end.

(** Byte string literals b"...". *)
Fixpoint bs (s : string) : bytes :=
  match s with
  | EmptyString => []
  | String c s' => Z.of_nat (nat_of_ascii c) :: bs s'
  end.

Arguments bs s%string_scope.

(** slice[i] : panics when out of bounds. *)
Definition idx {A} (l : list A) (i : nat) : res A :=
  match nth_error l i with
  | Some a => Ok a
  | None => Fault FPanic
  end.

(** &l[a..b] : panics unless a <= b <= len. *)
Definition slice {A} (l : list A) (a b : nat) : res (list A) :=
  if (Nat.leb a b && Nat.leb b (List.length l))%bool
  then Ok (firstn (b - a) (skipn a l))
  else Fault FPanic.

Definition u16_MAX : Z := 65535.
Definition i32_MAX : Z := 2147483647.
Definition i32_MIN : Z := -2147483648.
Definition u64_MAX : Z := 18446744073709551615.
Definition i64_MAX : Z := 9223372036854775807.
Definition i64_MIN : Z := -9223372036854775808.

(** Two's complement reinterpretation to [bits] bits, signed and unsigned (Rust `as`). *)
Definition wrap_u (bits z : Z) : Z := z mod 2 ^ bits.
Definition wrap_s (bits z : Z) : Z := (z + 2 ^ (bits - 1)) mod 2 ^ bits - 2 ^ (bits - 1).

(** Result of an arithmetic operation on a fixed-width integer type: a panic when
    overflow checks are on ([oc = true], debug builds), wrap-around otherwise. *)
Definition chk (oc : bool) (lo hi : Z) (wrap : Z -> Z) (v : Z) : res Z :=
  if (lo <=? v) && (v <=? hi) then Ok v
  else if oc then Fault FPanic else Ok (wrap v).

Definition chk_u16 oc v := chk oc 0 u16_MAX (wrap_u 16) v.
Definition chk_i32 oc v := chk oc i32_MIN i32_MAX (wrap_s 32) v.
Definition chk_u64 oc v := chk oc 0 u64_MAX (wrap_u 64) v.

(** i32::saturating_add / saturating_sub. *)
Definition sat_i32 (v : Z) : Z := Z.max i32_MIN (Z.min i32_MAX v).

(** Bounded iteration with early exit (the budget is binary so that large bounds
    stay cheap to evaluate). *)
Inductive lstep (A B : Type) := More (a : A) | Done (b : B).
Arguments More {A B} _.
Arguments Done {A B} _.

Fixpoint iter_until {A B} (p : positive) (f : A -> lstep A B) (a : A) : lstep A B :=
  match p with
  | xH => f a
  | xO q => match iter_until q f a with Done b => Done b | More a' => iter_until q f a' end
  | xI q =>
      match f a with
      | Done b => Done b
      | More a0 =>
          match iter_until q f a0 with Done b => Done b | More a' => iter_until q f a' end
      end
  end.
