(** What the lexical half of src/json/de.rs costs: the functions of Lexer.v again, each
    returning in addition the number of steps it took. One step is

    - one call of next(), peek() or one of their variants, or one other access to a byte of
      the input (which is what one iteration of every loop over the input does at least once);
    - one byte appended to the string buffer (the amortised cost of Vec::push and
      extend_from_slice; Vec::clear on bytes is free);
    - one iteration of the loop of f64_from_parts.

    Everything else between two steps is straight-line code. [LexCostFacts.v] proves that
    erasing the count gives back the functions of Lexer.v. *)
From Coq Require Import String ZArith List Bool Floats.SpecFloat.
From Verif Require Import Base Utf8 F64 Lexer.
Import ListNotations.
Open Scope Z_scope.

(** An outcome, and the steps taken to get there. *)
Definition counted (A : Type) : Type := res A * nat.

Definition steps {A} (n : nat) (r : res A) : counted A := (r, n).
Definition cbind {A B} (c : counted A) (k : A -> counted B) : counted B :=
  match fst c with
  | Ok a => match k a with (r, n) => (r, (snd c + n)%nat) end
  | Err => (Err, snd c)
  | Fault f => (Fault f, snd c)
  end.
Notation "'let+' p ':=' e 'in' k" := (cbind e (fun p => k))
  (at level 200, p pattern, e at level 100, k at level 200, right associativity).

Section Lexer.
Variable oc : bool.
Variable inp : bytes.
Notation len := (len inp).

(** json/de.rs:206-230, 282-284. *)
Definition next' (d : lex) := steps 1 (next inp d).
Definition next_or_nul' (d : lex) := steps 1 (next_or_nul inp d).
Definition next_or_eof' (d : lex) := steps 1 (next_or_eof inp d).
Definition peek' (d : lex) := steps 1 (peek inp d).
Definition peek_or_nul' (d : lex) := steps 1 (peek_or_nul inp d).

(** json/de.rs:352-369. *)
Fixpoint decode_hex_loop' (k : nat) (n : Z) (d : lex) : counted (Z * lex) :=
  match k with
  | O => steps 0 (Ok (n, d))
  | S k' =>
      let+ (c, d1) := next_or_eof' d in
      let+ n1 := steps 0 (
        if is_digit c then chk_u16 oc (n * 16 + (c - 48))
        else if (c =? 97) || (c =? 65) then chk_u16 oc (n * 16 + 10)
        else if (c =? 98) || (c =? 66) then chk_u16 oc (n * 16 + 11)
        else if (c =? 99) || (c =? 67) then chk_u16 oc (n * 16 + 12)
        else if (c =? 100) || (c =? 68) then chk_u16 oc (n * 16 + 13)
        else if (c =? 101) || (c =? 69) then chk_u16 oc (n * 16 + 14)
        else if (c =? 102) || (c =? 70) then chk_u16 oc (n * 16 + 15)
        else Err) in
      decode_hex_loop' k' n1 d1
  end.
Definition decode_hex_escape' (d : lex) : counted (Z * lex) := decode_hex_loop' 4 0 d.

(** Appending to the buffer. *)
Definition push_buf' (d : lex) (s : bytes) : counted lex :=
  steps (List.length s) (Ok (push_buf d s)).

(** json/de.rs:300-343. *)
Definition parse_unicode_escape' (d : lex) : counted lex :=
  let+ (n1, d1) := decode_hex_escape' d in
  let+ (c, d2) :=
    if (56320 <=? n1) && (n1 <=? 57343) then steps 0 Err
    else if (55296 <=? n1) && (n1 <=? 56319) then
      let+ (a, d2) := next_or_eof' d1 in
      if negb (a =? 92) then steps 0 Err else
      let+ (b, d3) := next_or_eof' d2 in
      if negb (b =? 117) then steps 0 Err else
      let+ (n2, d4) := decode_hex_escape' d3 in
      if (n2 <? 56320) || (57343 <? n2) then steps 0 Err else
      let n := Z.lor (Z.shiftl (n1 - 55296) 10) (n2 - 56320) + 65536 in
      match char_from_u32 n with
      | Some c => steps 0 (Ok (c, d4))
      | None => steps 0 Err
      end
    else
      match char_from_u32 n1 with
      | Some c => steps 0 (Ok (c, d1))
      | None => steps 0 Err
      end in
  push_buf' d2 (utf8_enc c).

(** json/de.rs:288-350. *)
Definition parse_escape' (d : lex) : counted lex :=
  let+ (ch, d1) := next_or_eof' d in
  if ch =? 34 then push_buf' d1 [34]
  else if ch =? 92 then push_buf' d1 [92]
  else if ch =? 47 then push_buf' d1 [47]
  else if ch =? 98 then push_buf' d1 [8]
  else if ch =? 102 then push_buf' d1 [12]
  else if ch =? 110 then push_buf' d1 [10]
  else if ch =? 114 then push_buf' d1 [13]
  else if ch =? 116 then push_buf' d1 [9]
  else if ch =? 117 then parse_unicode_escape' d1
  else steps 0 Err.

(** json/de.rs:249-251: a byte of the input is examined by every iteration, and by the
    test that ends the loop. *)
Fixpoint scan_plain' (fuel : nat) (p : nat) : counted nat :=
  match fuel with
  | O => steps 0 (Fault FFuel)
  | S f =>
      if Nat.ltb p len then
        let+ b := steps 1 (idx inp p) in
        let+ e := steps 0 (idx ESCAPE (Z.to_nat b)) in
        if negb e then scan_plain' f (S p) else steps 0 (Ok p)
      else steps 1 (Ok p)
  end.

(** json/de.rs:248-279. extend_from_slice costs one step per byte; the borrowed slice and
    from_utf8_unchecked cost nothing. *)
Fixpoint parse_str_loop' (fuel : nat) (start : nat) (d : lex) : counted (bytes * lex) :=
  match fuel with
  | O => steps 0 (Fault FFuel)
  | S f =>
      let+ p := scan_plain' (S len) (pos d) in
      if Nat.eqb p len then steps 0 Err else
      let+ b := steps 1 (idx inp p) in
      if b =? 34 then
        match buf d with
        | [] =>
            let+ borrowed := steps 0 (slice inp start p) in
            let+ s := steps 0 (str_result borrowed) in
            steps 0 (Ok (s, mklex (S p) (buf d)))
        | _ =>
            let+ sl := steps 0 (slice inp start p) in
            let+ s := steps (List.length sl) (str_result (buf d ++ sl)) in
            steps 0 (Ok (s, mklex (S p) (buf d ++ sl)))
        end
      else if b =? 92 then
        let+ sl := steps 0 (slice inp start p) in
        let+ d0 := steps (List.length sl) (Ok (mklex (S p) (buf d ++ sl))) in
        let+ d1 := parse_escape' d0 in
        parse_str_loop' f (pos d1) d1
      else steps 0 Err
  end.

(** json/de.rs:236-280. *)
Definition parse_str' (d : lex) : counted (bytes * lex) :=
  parse_str_loop' (S len) (pos d) (mklex (pos d) []).

(** json/de.rs:371-382. *)
Fixpoint parse_whitespace_loop' (fuel : nat) (d : lex) : counted (option byte * lex) :=
  match fuel with
  | O => steps 0 (Fault FFuel)
  | S f =>
      let+ o := peek' d in
      match o with
      | Some c => if is_ws c then parse_whitespace_loop' f (bump d) else steps 0 (Ok (Some c, d))
      | None => steps 0 (Ok (None, d))
      end
  end.
Definition parse_whitespace' (d : lex) : counted (option byte * lex) :=
  parse_whitespace_loop' (S len) d.

(** json/de.rs:384-398. *)
Fixpoint parse_ident' (ident : bytes) (d : lex) : counted lex :=
  match ident with
  | [] => steps 0 (Ok d)
  | expected :: ident' =>
      let+ (o, d1) := next' d in
      match o with
      | None => steps 0 Err
      | Some c => if negb (c =? expected) then steps 0 Err else parse_ident' ident' d1
      end
  end.

(** json/de.rs:508-510, 591-593. *)
Fixpoint skip_digits' (fuel : nat) (d : lex) : counted lex :=
  match fuel with
  | O => steps 0 (Fault FFuel)
  | S f =>
      let+ c := peek_or_nul' d in
      if is_digit c then skip_digits' f (bump d) else steps 0 (Ok d)
  end.

(** The number of iterations of a bounded loop (Base.iter_until). *)
Fixpoint iterations {A B} (p : positive) (f : A -> lstep A B) (a : A) : nat :=
  match p with
  | xH => 1
  | xO q =>
      match iter_until q f a with
      | Done _ => iterations q f a
      | More a' => iterations q f a + iterations q f a'
      end
  | xI q =>
      match f a with
      | Done _ => 1
      | More a0 =>
          match iter_until q f a0 with
          | Done _ => S (iterations q f a0)
          | More a' => S (iterations q f a0 + iterations q f a')
          end
      end
  end%nat.

(** json/de.rs:629-657. *)
Definition f64_from_parts' (nonnegative : bool) (significand exponent : Z) : counted f64 :=
  steps (iterations (Z.to_pos (Z.abs exponent / 308 + 2)) f64_parts_step
           (f64_of_Z significand, exponent))
        (f64_from_parts nonnegative significand exponent).

(** json/de.rs:580-595. *)
Definition parse_exponent_overflow' (nonnegative : bool) (significand : Z)
    (positive_exp : bool) (d : lex) : counted (f64 * lex) :=
  if negb (significand =? 0) && positive_exp then steps 0 Err else
  let+ d' := skip_digits' (S len) d in
  steps 0 (Ok (if nonnegative then f_zero else f64_neg f_zero, d')).

(** json/de.rs:556-573. *)
Fixpoint parse_exponent_loop' (fuel : nat) (nonnegative : bool) (significand starting_exp : Z)
    (positive_exp : bool) (exp : Z) (d : lex) : counted (f64 * lex) :=
  match fuel with
  | O => steps 0 (Fault FFuel)
  | S f =>
      let+ c := peek_or_nul' d in
      if is_digit c then
        let d1 := bump d in
        let digit := c - 48 in
        if overflow exp digit i32_MAX then
          parse_exponent_overflow' nonnegative significand positive_exp d1
        else
          let+ exp1 := steps 0 (chk_i32 oc (exp * 10 + digit)) in
          parse_exponent_loop' f nonnegative significand starting_exp positive_exp exp1 d1
      else
        let final_exp :=
          if positive_exp then sat_i32 (starting_exp + exp)
          else sat_i32 (starting_exp - exp) in
        let+ x := f64_from_parts' nonnegative significand final_exp in
        steps 0 (Ok (x, d))
  end.

(** json/de.rs:528-574. *)
Definition parse_exponent' (nonnegative : bool) (significand starting_exp : Z) (d : lex)
  : counted (f64 * lex) :=
  let d0 := bump d in
  let+ c := peek_or_nul' d0 in
  let '(positive_exp, d1) :=
    if c =? 43 then (true, bump d0)
    else if c =? 45 then (false, bump d0)
    else (true, d0) in
  let+ (c1, d2) := next_or_nul' d1 in
  if is_digit c1 then
    parse_exponent_loop' (S len) nonnegative significand starting_exp positive_exp (c1 - 48) d2
  else steps 0 Err.

(** json/de.rs:499-516. *)
Fixpoint parse_decimal_loop' (fuel : nat) (significand exponent : Z) (one : bool) (d : lex)
  : counted (Z * Z * bool * lex) :=
  match fuel with
  | O => steps 0 (Fault FFuel)
  | S f =>
      let+ c := peek_or_nul' d in
      if is_digit c then
        let d1 := bump d in
        let digit := c - 48 in
        if overflow significand digit u64_MAX then
          let+ d2 := skip_digits' (S len) d1 in
          steps 0 (Ok (significand, exponent, true, d2))
        else
          let+ s1 := steps 0 (chk_u64 oc (significand * 10 + digit)) in
          let+ e1 := steps 0 (chk_i32 oc (exponent - 1)) in
          parse_decimal_loop' f s1 e1 true d1
      else steps 0 (Ok (significand, exponent, one, d))
  end.

(** json/de.rs:491-526. *)
Definition parse_decimal' (nonnegative : bool) (significand exponent : Z) (d : lex)
  : counted (f64 * lex) :=
  let+ (r, d1) := parse_decimal_loop' (S len) significand exponent false (bump d) in
  let '(significand1, exponent1, at_least_one_digit) := r in
  if negb at_least_one_digit then steps 0 Err else
  let+ c := peek_or_nul' d1 in
  if is_e c then parse_exponent' nonnegative significand1 exponent1 d1
  else
    let+ x := f64_from_parts' nonnegative significand1 exponent1 in
    steps 0 (Ok (x, d1)).

(** json/de.rs:443-468. *)
Fixpoint parse_long_integer' (fuel : nat) (nonnegative : bool) (significand exponent : Z)
    (d : lex) : counted (f64 * lex) :=
  match fuel with
  | O => steps 0 (Fault FFuel)
  | S f =>
      let+ c := peek_or_nul' d in
      if is_digit c then
        let+ e1 := steps 0 (chk_i32 oc (exponent + 1)) in
        parse_long_integer' f nonnegative significand e1 (bump d)
      else if c =? 46 then parse_decimal' nonnegative significand exponent d
      else if is_e c then parse_exponent' nonnegative significand exponent d
      else
        let+ x := f64_from_parts' nonnegative significand exponent in
        steps 0 (Ok (x, d))
  end.

(** json/de.rs:470-489. *)
Definition parse_number' (nonnegative : bool) (significand : Z) (d : lex) : counted (event * lex) :=
  let+ c := peek_or_nul' d in
  if c =? 46 then
    let+ (x, d1) := parse_decimal' nonnegative significand 0 d in steps 0 (Ok (EFloat x, d1))
  else if is_e c then
    let+ (x, d1) := parse_exponent' nonnegative significand 0 d in steps 0 (Ok (EFloat x, d1))
  else
    steps 0 (Ok (if nonnegative then ENonneg significand
        else
          let neg := wrap_s 64 (- wrap_s 64 significand) in
          if 0 <? neg then EFloat (f64_neg (f64_of_Z significand))
          else ENeg neg, d)).

(** json/de.rs:412-437. *)
Fixpoint parse_integer_loop' (fuel : nat) (nonnegative : bool) (r : Z) (d : lex)
  : counted (event * lex) :=
  match fuel with
  | O => steps 0 (Fault FFuel)
  | S f =>
      let+ c := peek_or_nul' d in
      if is_digit c then
        let d1 := bump d in
        let digit := c - 48 in
        if overflow r digit u64_MAX then
          let+ (x, d2) := parse_long_integer' (S len) nonnegative r 1 d1 in
          steps 0 (Ok (EFloat x, d2))
        else
          let+ r1 := steps 0 (chk_u64 oc (r * 10 + digit)) in
          parse_integer_loop' f nonnegative r1 d1
      else parse_number' nonnegative r d
  end.

(** json/de.rs:400-441. *)
Definition parse_integer' (nonnegative : bool) (first_digit : byte) (d : lex)
  : counted (event * lex) :=
  if first_digit =? 48 then
    let+ c := peek_or_nul' d in
    if is_digit c then steps 0 Err else parse_number' nonnegative 0 d
  else if is_digit19 first_digit then
    parse_integer_loop' (S len) nonnegative (first_digit - 48) d
  else steps 0 Err.

(** json/de.rs:597-626. *)
Definition event_next' (d : lex) : counted (event * lex) :=
  let+ (o, d0) := parse_whitespace' d in
  match o with
  | None => steps 0 Err
  | Some pk =>
      let d1 := bump d0 in
      if pk =? 34 then let+ (s, d2) := parse_str' d1 in steps 0 (Ok (EStr s, d2))
      else if is_digit pk then parse_integer' true pk d1
      else if pk =? 45 then
        let+ (first_digit, d2) := next_or_nul' d1 in
        parse_integer' false first_digit d2
      else if pk =? 123 then steps 0 (Ok (EMapStart, d1))
      else if pk =? 91 then steps 0 (Ok (ESeqStart, d1))
      else if pk =? 110 then let+ d2 := parse_ident' (bs "ull") d1 in steps 0 (Ok (ENull, d2))
      else if pk =? 116 then let+ d2 := parse_ident' (bs "rue") d1 in steps 0 (Ok (EBool true, d2))
      else if pk =? 102 then let+ d2 := parse_ident' (bs "alse") d1 in steps 0 (Ok (EBool false, d2))
      else steps 0 Err
  end.

End Lexer.
