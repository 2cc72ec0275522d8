(** Unicode scalar values and UTF-8 (the parts of core::char / core::str used). *)
From Coq Require Import ZArith List Bool Lia.
From Verif Require Import Base.
Import ListNotations.
Open Scope Z_scope.

(** core::char: a char is a scalar value. *)
Definition is_scalar (c : Z) : bool :=
  ((0 <=? c) && (c <? 55296)) || ((57344 <=? c) && (c <=? 1114111)).

(** char::from_u32 (used at json/de.rs:325, 333). *)
Definition char_from_u32 (c : Z) : option Z :=
  if is_scalar c then Some c else None.

(** char::encode_utf8 (used at json/de.rs:341-342). *)
Definition utf8_enc (c : Z) : bytes :=
  if c <? 128 then [c]
  else if c <? 2048 then [192 + c / 64; 128 + c mod 64]
  else if c <? 65536 then [224 + c / 4096; 128 + (c / 64) mod 64; 128 + c mod 64]
  else [240 + c / 262144; 128 + (c / 4096) mod 64; 128 + (c / 64) mod 64; 128 + c mod 64].

Definition encode_all (cs : list Z) : bytes := concat (map utf8_enc cs).

(** Specification of the `str` invariant: the bytes are the encoding of some
    sequence of scalar values. *)
Definition Utf8 (s : bytes) : Prop :=
  exists cs, forallb is_scalar cs = true /\ s = encode_all cs.

Definition inr (lo hi b : Z) : bool := (lo <=? b) && (b <=? hi).

(** Executable form of the invariant (Unicode table 3-7, core::str::from_utf8);
    [str_ok_spec] in Utf8Facts.v proves it equivalent to [Utf8]. *)
Fixpoint str_ok (s : bytes) : bool :=
  match s with
  | [] => true
  | a :: s1 =>
      if inr 0 127 a then str_ok s1 else
      match s1 with
      | [] => false
      | b :: s2 =>
          if inr 194 223 a && inr 128 191 b then str_ok s2 else
          match s2 with
          | [] => false
          | c :: s3 =>
              if inr 128 191 c &&
                 ((inr 224 224 a && inr 160 191 b) ||
                  ((inr 225 236 a || inr 238 239 a) && inr 128 191 b) ||
                  (inr 237 237 a && inr 128 159 b)) then str_ok s3 else
              match s3 with
              | [] => false
              | d :: s4 =>
                  if inr 128 191 c && inr 128 191 d &&
                     ((inr 240 240 a && inr 144 191 b) ||
                      (inr 241 243 a && inr 128 191 b) ||
                      (inr 244 244 a && inr 128 143 b)) then str_ok s4 else false
              end
          end
      end
  end.

(** str::is_char_boundary for 0 <= i <= len: start, end, or not a continuation byte. *)
Definition is_char_boundary (s : bytes) (i : nat) : bool :=
  match nth_error s i with
  | None => Nat.eqb i (length s)
  | Some b => negb (inr 128 191 b)
  end.

(** &s[a..b] on str: panics when out of range or not on character boundaries. *)
Definition str_slice (s : bytes) (a b : nat) : res bytes :=
  if is_char_boundary s a && is_char_boundary s b then slice s a b else Fault FPanic.
