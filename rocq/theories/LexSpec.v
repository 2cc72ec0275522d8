(** The lexer as functions on the remaining input, and the proof that the methods of
    Lexer.v compute them without fault. *)
From Coq Require Import String ZArith List Bool Lia Floats.SpecFloat.
From Verif Require Import Base Utf8 Utf8Facts F64 Lexer Grammar.
Import ListNotations.
Open Scope Z_scope.

(** ** Functions on suffixes *)
Fixpoint skip_ws (s : bytes) : bytes :=
  match s with
  | c :: r => if is_ws c then skip_ws r else s
  | [] => []
  end.

Definition hexval (c : Z) : option Z :=
  if is_digit c then Some (c - 48)
  else if (97 <=? c) && (c <=? 102) then Some (c - 87)
  else if (65 <=? c) && (c <=? 70) then Some (c - 55)
  else None.

Fixpoint p_hex (k : nat) (n : Z) (s : bytes) : option (Z * bytes) :=
  match k with
  | O => Some (n, s)
  | S k' =>
      match s with
      | [] => None
      | c :: r => match hexval c with Some v => p_hex k' (n * 16 + v) r | None => None end
      end
  end.

(** After \u. *)
Definition p_uni (s : bytes) : option (bytes * bytes) :=
  match p_hex 4 0 s with
  | None => None
  | Some (n1, s1) =>
      if (56320 <=? n1) && (n1 <=? 57343) then None
      else if (55296 <=? n1) && (n1 <=? 56319) then
        match s1 with
        | a :: b :: s2 =>
            if (a =? 92) && (b =? 117) then
              match p_hex 4 0 s2 with
              | Some (n2, s3) =>
                  if (56320 <=? n2) && (n2 <=? 57343) then
                    Some (utf8_enc (65536 + (n1 - 55296) * 1024 + (n2 - 56320)), s3)
                  else None
              | None => None
              end
            else None
        | _ => None
        end
      else Some (utf8_enc n1, s1)
  end.

Definition short_esc (c : Z) : option Z :=
  if c =? 34 then Some 34
  else if c =? 92 then Some 92
  else if c =? 47 then Some 47
  else if c =? 98 then Some 8
  else if c =? 102 then Some 12
  else if c =? 110 then Some 10
  else if c =? 114 then Some 13
  else if c =? 116 then Some 9
  else None.

(** After a backslash. *)
Definition p_esc (s : bytes) : option (bytes * bytes) :=
  match s with
  | [] => None
  | c :: r =>
      match short_esc c with
      | Some x => Some ([x], r)
      | None => if c =? 117 then p_uni r else None
      end
  end.

(** After the opening quote. *)
Fixpoint p_str (fuel : nat) (s : bytes) : option (bytes * bytes) :=
  match fuel with
  | O => None
  | S f =>
      match s with
      | [] => None
      | c :: r =>
          if c =? 34 then Some ([], r)
          else if c =? 92 then
            match p_esc r with
            | Some (x, r1) =>
                match p_str f r1 with
                | Some (t, r2) => Some (x ++ t, r2)
                | None => None
                end
            | None => None
            end
          else if c <? 32 then None
          else
            match p_str f r with
            | Some (t, r2) => Some (c :: t, r2)
            | None => None
            end
      end
  end.
Definition p_string (s : bytes) : option (bytes * bytes) := p_str (S (List.length s)) s.

Fixpoint scan_digits (s : bytes) : list Z * bytes :=
  match s with
  | c :: r =>
      if is_digit c then let (ds, r') := scan_digits r in (c - 48 :: ds, r') else ([], s)
  | [] => ([], [])
  end.

Definition starts_digit (s : bytes) : bool :=
  match s with c :: _ => is_digit c | [] => false end.

Definition p_int (s : bytes) : option (list Z * bytes) :=
  match s with
  | [] => None
  | c :: r =>
      if c =? 48 then (if starts_digit r then None else Some ([0], r))
      else if is_digit19 c then Some (scan_digits s)
      else None
  end.

Definition p_frac (s : bytes) : option (option (list Z) * bytes) :=
  match s with
  | c :: r =>
      if c =? 46 then
        match scan_digits r with
        | ([], _) => None
        | (ds, r') => Some (Some ds, r')
        end
      else Some (None, s)
  | [] => Some (None, [])
  end.

Definition p_sign (s : bytes) : bool * bytes :=
  match s with
  | c :: r => if c =? 43 then (false, r) else if c =? 45 then (true, r) else (false, s)
  | [] => (false, [])
  end.

Definition p_exp (s : bytes) : option (option (bool * list Z) * bytes) :=
  match s with
  | c :: r =>
      if is_e c then
        let (sg, r1) := p_sign r in
        match scan_digits r1 with
        | ([], _) => None
        | (ds, r2) => Some (Some (sg, ds), r2)
        end
      else Some (None, s)
  | [] => Some (None, [])
  end.

(** The unsigned part of a number. *)
Definition p_unsigned (neg : bool) (s : bytes) : option (numlit * bytes) :=
  match p_int s with
  | None => None
  | Some (i, s1) =>
      match p_frac s1 with
      | None => None
      | Some (f, s2) =>
          match p_exp s2 with
          | None => None
          | Some (e, s3) => Some (mknum neg i f e, s3)
          end
      end
  end.

(** ** What a literal is reported as *)

(** Accumulating integer digits while they fit a u64: the significand and the digits
    that did not fit. *)
Fixpoint acc_int (r : Z) (ds : list Z) : Z * list Z :=
  match ds with
  | [] => (r, [])
  | d :: ds' => if overflow r d u64_MAX then (r, ds) else acc_int (r * 10 + d) ds'
  end.

(** Accumulating fraction digits while they fit. *)
Fixpoint acc_frac (r e : Z) (ds : list Z) : Z * Z :=
  match ds with
  | [] => (r, e)
  | d :: ds' => if overflow r d u64_MAX then (r, e) else acc_frac (r * 10 + d) (e - 1) ds'
  end.

Fixpoint acc_exp (x : Z) (ds : list Z) : option Z :=
  match ds with
  | [] => Some x
  | d :: ds' => if overflow x d i32_MAX then None else acc_exp (x * 10 + d) ds'
  end.

Definition exp_float (nonneg : bool) (r e : Z) (ex : option (bool * list Z)) : res f64 :=
  match ex with
  | None => f64_from_parts nonneg r e
  | Some (neg, ds) =>
      match acc_exp 0 ds with
      | None =>
          if negb (r =? 0) && negb neg then Err
          else Ok (if nonneg then f_zero else f64_neg f_zero)
      | Some x => f64_from_parts nonneg r (if neg then sat_i32 (e - x) else sat_i32 (e + x))
      end
  end.

Definition frac_float (nonneg : bool) (r e : Z) (f : option (list Z))
    (ex : option (bool * list Z)) : res f64 :=
  match f with
  | None => exp_float nonneg r e ex
  | Some ds => let (r', e') := acc_frac r e ds in exp_float nonneg r' e' ex
  end.

Definition float_event (r : res f64) : res event := let* x := r in Ok (EFloat x).

Definition lit_event (n : numlit) : res event :=
  let nonneg := negb (n_neg n) in
  match acc_int 0 (n_int n) with
  | (r, []) =>
      match n_frac n, n_exp n with
      | None, None =>
          Ok (if nonneg then ENonneg r
              else if 0 <? wrap_s 64 (- wrap_s 64 r) then EFloat (f64_neg (f64_of_Z r))
              else ENeg (wrap_s 64 (- wrap_s 64 r)))
      | f, e => float_event (frac_float nonneg r 0 f e)
      end
  | (r, rest) =>
      float_event (frac_float nonneg r (Z.of_nat (List.length rest)) (n_frac n) (n_exp n))
  end.

Definition with_rest {A} (r : res A) (rest : bytes) : res (A * bytes) :=
  let* a := r in Ok (a, rest).

Fixpoint p_ident (ident s : bytes) : option bytes :=
  match ident with
  | [] => Some s
  | c :: i' => match s with [] => None | x :: s' => if x =? c then p_ident i' s' else None end
  end.

(** The next event; Err when there is none. *)
Definition tok (s0 : bytes) : res (event * bytes) :=
  match skip_ws s0 with
  | [] => Err
  | c :: s =>
      if c =? 34 then
        match p_string s with Some (x, r) => Ok (EStr x, r) | None => Err end
      else if is_digit c then
        match p_unsigned false (c :: s) with
        | Some (n, r) => with_rest (lit_event n) r
        | None => Err
        end
      else if c =? 45 then
        match p_unsigned true s with
        | Some (n, r) => with_rest (lit_event n) r
        | None => Err
        end
      else if c =? 123 then Ok (EMapStart, s)
      else if c =? 91 then Ok (ESeqStart, s)
      else if c =? 110 then
        match p_ident (bs "ull") s with Some r => Ok (ENull, r) | None => Err end
      else if c =? 116 then
        match p_ident (bs "rue") s with Some r => Ok (EBool true, r) | None => Err end
      else if c =? 102 then
        match p_ident (bs "alse") s with Some r => Ok (EBool false, r) | None => Err end
      else Err
  end.
