(** The lexical half of src/json/de.rs: the methods of [Deserializer].

    [inp] is the input (`self.input`), [oc] says whether arithmetic overflow
    checks are enabled. The mutable fields `pos` and `buffer` are threaded
    explicitly; the field `stack` belongs to the driver (Driver.v). Every loop
    carries an iteration budget of one more than the input length. *)
From Coq Require Import String ZArith List Bool Lia Floats.SpecFloat.
From Verif Require Import Base Utf8 F64.
Import ListNotations.
Open Scope Z_scope.

(** json/de.rs:186-195. *)
Inductive event :=
| ENull
| EBool (b : bool)
| EStr (s : bytes)
| ENeg (n : Z)
| ENonneg (n : Z)
| EFloat (f : f64)
| ESeqStart
| EMapStart.

(** Fields pos and buffer of Deserializer, json/de.rs:39-44. *)
Record lex := mklex { pos : nat; buf : bytes }.

(** json/de.rs:695-721. *)
Definition ESCAPE : list bool :=
  let CT := true in let QU := true in let BS := true in let O := false in
  [ CT; CT; CT; CT; CT; CT; CT; CT; CT; CT; CT; CT; CT; CT; CT; CT; (* 0 *)
    CT; CT; CT; CT; CT; CT; CT; CT; CT; CT; CT; CT; CT; CT; CT; CT; (* 1 *)
     O;  O; QU;  O;  O;  O;  O;  O;  O;  O;  O;  O;  O;  O;  O;  O; (* 2 *)
     O;  O;  O;  O;  O;  O;  O;  O;  O;  O;  O;  O;  O;  O;  O;  O; (* 3 *)
     O;  O;  O;  O;  O;  O;  O;  O;  O;  O;  O;  O;  O;  O;  O;  O; (* 4 *)
     O;  O;  O;  O;  O;  O;  O;  O;  O;  O;  O;  O; BS;  O;  O;  O; (* 5 *)
     O;  O;  O;  O;  O;  O;  O;  O;  O;  O;  O;  O;  O;  O;  O;  O; (* 6 *)
     O;  O;  O;  O;  O;  O;  O;  O;  O;  O;  O;  O;  O;  O;  O;  O; (* 7 *)
     O;  O;  O;  O;  O;  O;  O;  O;  O;  O;  O;  O;  O;  O;  O;  O; (* 8 *)
     O;  O;  O;  O;  O;  O;  O;  O;  O;  O;  O;  O;  O;  O;  O;  O; (* 9 *)
     O;  O;  O;  O;  O;  O;  O;  O;  O;  O;  O;  O;  O;  O;  O;  O; (* A *)
     O;  O;  O;  O;  O;  O;  O;  O;  O;  O;  O;  O;  O;  O;  O;  O; (* B *)
     O;  O;  O;  O;  O;  O;  O;  O;  O;  O;  O;  O;  O;  O;  O;  O; (* C *)
     O;  O;  O;  O;  O;  O;  O;  O;  O;  O;  O;  O;  O;  O;  O;  O; (* D *)
     O;  O;  O;  O;  O;  O;  O;  O;  O;  O;  O;  O;  O;  O;  O;  O; (* E *)
     O;  O;  O;  O;  O;  O;  O;  O;  O;  O;  O;  O;  O;  O;  O;  O  (* F *) ].

(** overflow!(a * 10 + b, c), json/de.rs:197-203. *)
Definition overflow (a b c : Z) : bool :=
  (c / 10 <=? a) && ((c / 10 <? a) || (c mod 10 <? b)).

(** The range patterns b'0'..=b'9' and b'1'..=b'9'. *)
Definition is_digit (c : byte) : bool := (48 <=? c) && (c <=? 57).
Definition is_digit19 (c : byte) : bool := (49 <=? c) && (c <=? 57).
(** The pattern b' ' | b'\n' | b'\t' | b'\r', json/de.rs:374. *)
Definition is_ws (c : byte) : bool := (c =? 32) || (c =? 10) || (c =? 9) || (c =? 13).
(** The pattern b'e' | b'E'. *)
Definition is_e (c : byte) : bool := (c =? 101) || (c =? 69).

Section Lexer.
Variable oc : bool.
Variable inp : bytes.

Definition len : nat := length inp.

(** json/de.rs:206-214. *)
Definition next (d : lex) : res (option byte * lex) :=
  if Nat.ltb (pos d) len then
    let* ch := idx inp (pos d) in
    Ok (Some ch, mklex (S (pos d)) (buf d))
  else Ok (None, d).

(** json/de.rs:216-218. *)
Definition next_or_nul (d : lex) : res (byte * lex) :=
  let* (o, d') := next d in
  Ok (match o with Some c => c | None => 0 end, d').

(** json/de.rs:220-226. *)
Definition peek (d : lex) : res (option byte) :=
  if Nat.ltb (pos d) len then
    let* ch := idx inp (pos d) in Ok (Some ch)
  else Ok None.

(** json/de.rs:228-230. *)
Definition peek_or_nul (d : lex) : res byte :=
  let* o := peek d in
  Ok (match o with Some c => c | None => 0 end).

(** json/de.rs:232-234. *)
Definition bump (d : lex) : lex := mklex (S (pos d)) (buf d).

(** json/de.rs:282-284. *)
Definition next_or_eof (d : lex) : res (byte * lex) :=
  let* (o, d') := next d in
  match o with Some c => Ok (c, d') | None => Err end.

(** json/de.rs:352-369; [k] digits remain to be read. *)
Fixpoint decode_hex_loop (k : nat) (n : Z) (d : lex) : res (Z * lex) :=
  match k with
  | O => Ok (n, d)
  | S k' =>
      let* (c, d1) := next_or_eof d in
      let* n1 :=
        if is_digit c then chk_u16 oc (n * 16 + (c - 48))
        else if (c =? 97) || (c =? 65) then chk_u16 oc (n * 16 + 10)
        else if (c =? 98) || (c =? 66) then chk_u16 oc (n * 16 + 11)
        else if (c =? 99) || (c =? 67) then chk_u16 oc (n * 16 + 12)
        else if (c =? 100) || (c =? 68) then chk_u16 oc (n * 16 + 13)
        else if (c =? 101) || (c =? 69) then chk_u16 oc (n * 16 + 14)
        else if (c =? 102) || (c =? 70) then chk_u16 oc (n * 16 + 15)
        else Err in
      decode_hex_loop k' n1 d1
  end.
Definition decode_hex_escape (d : lex) : res (Z * lex) := decode_hex_loop 4 0 d.

Definition push_buf (d : lex) (s : bytes) : lex := mklex (pos d) (buf d ++ s).

(** json/de.rs:300-343 (the b'u' arm). *)
Definition parse_unicode_escape (d : lex) : res lex :=
  let* (n1, d1) := decode_hex_escape d in
  let* (c, d2) :=
    if (56320 <=? n1) && (n1 <=? 57343) then Err
    else if (55296 <=? n1) && (n1 <=? 56319) then
      let* (a, d2) := next_or_eof d1 in
      if negb (a =? 92) then Err else
      let* (b, d3) := next_or_eof d2 in
      if negb (b =? 117) then Err else
      let* (n2, d4) := decode_hex_escape d3 in
      if (n2 <? 56320) || (57343 <? n2) then Err else
      let n := Z.lor (Z.shiftl (n1 - 55296) 10) (n2 - 56320) + 65536 in
      match char_from_u32 n with
      | Some c => Ok (c, d4)
      | None => Err
      end
    else
      match char_from_u32 n1 with
      | Some c => Ok (c, d1)
      | None => Err
      end in
  Ok (push_buf d2 (utf8_enc c)).

(** json/de.rs:288-350. *)
Definition parse_escape (d : lex) : res lex :=
  let* (ch, d1) := next_or_eof d in
  if ch =? 34 then Ok (push_buf d1 [34])
  else if ch =? 92 then Ok (push_buf d1 [92])
  else if ch =? 47 then Ok (push_buf d1 [47])
  else if ch =? 98 then Ok (push_buf d1 [8])
  else if ch =? 102 then Ok (push_buf d1 [12])
  else if ch =? 110 then Ok (push_buf d1 [10])
  else if ch =? 114 then Ok (push_buf d1 [13])
  else if ch =? 116 then Ok (push_buf d1 [9])
  else if ch =? 117 then parse_unicode_escape d1
  else Err.

(** `while pos < len && !ESCAPE[input[pos]] { pos += 1 }`, json/de.rs:249-251. *)
Fixpoint scan_plain (fuel : nat) (p : nat) : res nat :=
  match fuel with
  | O => Fault FFuel
  | S f =>
      if Nat.ltb p len then
        let* b := idx inp p in
        let* e := idx ESCAPE (Z.to_nat b) in
        if negb e then scan_plain f (S p) else Ok p
      else Ok p
  end.

(** fn result, json/de.rs:237-242: from_utf8_unchecked, undefined behaviour when
    the bytes are not UTF-8. *)
Definition str_result (s : bytes) : res bytes :=
  if str_ok s then Ok s else Fault FUB.

(** The loop of parse_str, json/de.rs:248-279. *)
Fixpoint parse_str_loop (fuel : nat) (start : nat) (d : lex) : res (bytes * lex) :=
  match fuel with
  | O => Fault FFuel
  | S f =>
      let* p := scan_plain (S len) (pos d) in
      if Nat.eqb p len then Err else
      let* b := idx inp p in
      if b =? 34 then
        match buf d with
        | [] =>
            let* borrowed := slice inp start p in
            let* s := str_result borrowed in
            Ok (s, mklex (S p) (buf d))
        | _ =>
            let* sl := slice inp start p in
            let* s := str_result (buf d ++ sl) in
            Ok (s, mklex (S p) (buf d ++ sl))
        end
      else if b =? 92 then
        let* sl := slice inp start p in
        let* d1 := parse_escape (mklex (S p) (buf d ++ sl)) in
        parse_str_loop f (pos d1) d1
      else Err
  end.

(** json/de.rs:236-280. *)
Definition parse_str (d : lex) : res (bytes * lex) :=
  parse_str_loop (S len) (pos d) (mklex (pos d) []).

(** json/de.rs:371-382. *)
Fixpoint parse_whitespace_loop (fuel : nat) (d : lex) : res (option byte * lex) :=
  match fuel with
  | O => Fault FFuel
  | S f =>
      let* o := peek d in
      match o with
      | Some c => if is_ws c then parse_whitespace_loop f (bump d) else Ok (Some c, d)
      | None => Ok (None, d)
      end
  end.
Definition parse_whitespace (d : lex) : res (option byte * lex) :=
  parse_whitespace_loop (S len) d.

(** json/de.rs:384-398. *)
Fixpoint parse_ident (ident : bytes) (d : lex) : res lex :=
  match ident with
  | [] => Ok d
  | expected :: ident' =>
      let* (o, d1) := next d in
      match o with
      | None => Err
      | Some c => if negb (c =? expected) then Err else parse_ident ident' d1
      end
  end.

(** `while let b'0'..=b'9' = self.peek_or_nul() { self.bump() }`, json/de.rs:508-510, 591-593. *)
Fixpoint skip_digits (fuel : nat) (d : lex) : res lex :=
  match fuel with
  | O => Fault FFuel
  | S f =>
      let* c := peek_or_nul d in
      if is_digit c then skip_digits f (bump d) else Ok d
  end.

(** json/de.rs:580-595. *)
Definition parse_exponent_overflow (nonnegative : bool) (significand : Z)
    (positive_exp : bool) (d : lex) : res (f64 * lex) :=
  if negb (significand =? 0) && positive_exp then Err else
  let* d' := skip_digits (S len) d in
  Ok (if nonnegative then f_zero else f64_neg f_zero, d').

(** The digit loop of parse_exponent and its continuation, json/de.rs:556-573. *)
Fixpoint parse_exponent_loop (fuel : nat) (nonnegative : bool) (significand starting_exp : Z)
    (positive_exp : bool) (exp : Z) (d : lex) : res (f64 * lex) :=
  match fuel with
  | O => Fault FFuel
  | S f =>
      let* c := peek_or_nul d in
      if is_digit c then
        let d1 := bump d in
        let digit := c - 48 in
        if overflow exp digit i32_MAX then
          parse_exponent_overflow nonnegative significand positive_exp d1
        else
          let* exp1 := chk_i32 oc (exp * 10 + digit) in
          parse_exponent_loop f nonnegative significand starting_exp positive_exp exp1 d1
      else
        let final_exp :=
          if positive_exp then sat_i32 (starting_exp + exp)
          else sat_i32 (starting_exp - exp) in
        let* x := f64_from_parts nonnegative significand final_exp in
        Ok (x, d)
  end.

(** json/de.rs:528-574. *)
Definition parse_exponent (nonnegative : bool) (significand starting_exp : Z) (d : lex)
  : res (f64 * lex) :=
  let d0 := bump d in
  let* c := peek_or_nul d0 in
  let '(positive_exp, d1) :=
    if c =? 43 then (true, bump d0)
    else if c =? 45 then (false, bump d0)
    else (true, d0) in
  let* (c1, d2) := next_or_nul d1 in
  if is_digit c1 then
    parse_exponent_loop (S len) nonnegative significand starting_exp positive_exp (c1 - 48) d2
  else Err.

(** The digit loop of parse_decimal, json/de.rs:499-516: returns
    (significand, exponent, at_least_one_digit). *)
Fixpoint parse_decimal_loop (fuel : nat) (significand exponent : Z) (one : bool) (d : lex)
  : res (Z * Z * bool * lex) :=
  match fuel with
  | O => Fault FFuel
  | S f =>
      let* c := peek_or_nul d in
      if is_digit c then
        let d1 := bump d in
        let digit := c - 48 in
        if overflow significand digit u64_MAX then
          let* d2 := skip_digits (S len) d1 in
          Ok (significand, exponent, true, d2)
        else
          let* s1 := chk_u64 oc (significand * 10 + digit) in
          let* e1 := chk_i32 oc (exponent - 1) in
          parse_decimal_loop f s1 e1 true d1
      else Ok (significand, exponent, one, d)
  end.

(** json/de.rs:491-526. *)
Definition parse_decimal (nonnegative : bool) (significand exponent : Z) (d : lex)
  : res (f64 * lex) :=
  let* (r, d1) := parse_decimal_loop (S len) significand exponent false (bump d) in
  let '(significand1, exponent1, at_least_one_digit) := r in
  if negb at_least_one_digit then Err else
  let* c := peek_or_nul d1 in
  if is_e c then parse_exponent nonnegative significand1 exponent1 d1
  else
    let* x := f64_from_parts nonnegative significand1 exponent1 in
    Ok (x, d1).

(** json/de.rs:443-468. *)
Fixpoint parse_long_integer (fuel : nat) (nonnegative : bool) (significand exponent : Z)
    (d : lex) : res (f64 * lex) :=
  match fuel with
  | O => Fault FFuel
  | S f =>
      let* c := peek_or_nul d in
      if is_digit c then
        let* e1 := chk_i32 oc (exponent + 1) in
        parse_long_integer f nonnegative significand e1 (bump d)
      else if c =? 46 then parse_decimal nonnegative significand exponent d
      else if is_e c then parse_exponent nonnegative significand exponent d
      else
        let* x := f64_from_parts nonnegative significand exponent in
        Ok (x, d)
  end.

(** json/de.rs:470-489. i64::wrapping_neg of `significand as i64`. *)
Definition parse_number (nonnegative : bool) (significand : Z) (d : lex) : res (event * lex) :=
  let* c := peek_or_nul d in
  if c =? 46 then
    let* (x, d1) := parse_decimal nonnegative significand 0 d in Ok (EFloat x, d1)
  else if is_e c then
    let* (x, d1) := parse_exponent nonnegative significand 0 d in Ok (EFloat x, d1)
  else
    Ok (if nonnegative then ENonneg significand
        else
          let neg := wrap_s 64 (- wrap_s 64 significand) in
          if 0 <? neg then EFloat (f64_neg (f64_of_Z significand))
          else ENeg neg, d).

(** The loop of parse_integer, json/de.rs:412-437. *)
Fixpoint parse_integer_loop (fuel : nat) (nonnegative : bool) (r : Z) (d : lex)
  : res (event * lex) :=
  match fuel with
  | O => Fault FFuel
  | S f =>
      let* c := peek_or_nul d in
      if is_digit c then
        let d1 := bump d in
        let digit := c - 48 in
        if overflow r digit u64_MAX then
          let* (x, d2) := parse_long_integer (S len) nonnegative r 1 d1 in
          Ok (EFloat x, d2)
        else
          let* r1 := chk_u64 oc (r * 10 + digit) in
          parse_integer_loop f nonnegative r1 d1
      else parse_number nonnegative r d
  end.

(** json/de.rs:400-441. *)
Definition parse_integer (nonnegative : bool) (first_digit : byte) (d : lex)
  : res (event * lex) :=
  if first_digit =? 48 then
    let* c := peek_or_nul d in
    if is_digit c then Err else parse_number nonnegative 0 d
  else if is_digit19 first_digit then
    parse_integer_loop (S len) nonnegative (first_digit - 48) d
  else Err.

(** json/de.rs:597-626. *)
Definition event_next (d : lex) : res (event * lex) :=
  let* (o, d0) := parse_whitespace d in
  match o with
  | None => Err
  | Some pk =>
      let d1 := bump d0 in
      if pk =? 34 then let* (s, d2) := parse_str d1 in Ok (EStr s, d2)
      else if is_digit pk then parse_integer true pk d1
      else if pk =? 45 then
        let* (first_digit, d2) := next_or_nul d1 in
        parse_integer false first_digit d2
      else if pk =? 123 then Ok (EMapStart, d1)
      else if pk =? 91 then Ok (ESeqStart, d1)
      else if pk =? 110 then let* d2 := parse_ident (bs "ull") d1 in Ok (ENull, d2)
      else if pk =? 116 then let* d2 := parse_ident (bs "rue") d1 in Ok (EBool true, d2)
      else if pk =? 102 then let* d2 := parse_ident (bs "alse") d1 in Ok (EBool false, d2)
      else Err
  end.

End Lexer.
