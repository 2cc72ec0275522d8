(** Specification: the JSON grammar of RFC 8259, as a relation between documents and
    byte strings. Nothing here refers to the parser.

    Texts are UTF-8 byte strings; the grammar is written over bytes, which for valid
    UTF-8 text is the same as over code points because every structural character,
    quote, backslash and control character is ASCII. *)
From Coq Require Import String ZArith List Bool.
From Verif Require Import Base Utf8.
Import ListNotations.
Open Scope Z_scope.

(** ws = *( %x20 / %x09 / %x0A / %x0D ) *)
Definition ws_char (c : Z) : Prop := c = 32 \/ c = 9 \/ c = 10 \/ c = 13.
Definition Ws (w : bytes) : Prop := Forall ws_char w.

(** number = [ minus ] int [ frac ] [ exp ]; digits are kept as numbers 0..9, the
    exponent as (is it negative, digits). *)
Record numlit := mknum {
  n_neg : bool;
  n_int : list Z;
  n_frac : option (list Z);
  n_exp : option (bool * list Z)
}.

Definition digit (d : Z) : Prop := 0 <= d <= 9.
Definition dtext (ds : list Z) : bytes := map (fun d => 48 + d) ds.

(** int = zero / ( digit1-9 *DIGIT ) *)
Inductive IntDigits : list Z -> Prop :=
| int_zero : IntDigits [0]
| int_nonzero d ds : 1 <= d <= 9 -> Forall digit ds -> IntDigits (d :: ds).

(** frac = decimal-point 1*DIGIT *)
Inductive FracText : option (list Z) -> bytes -> Prop :=
| frac_none : FracText None []
| frac_some d ds : Forall digit (d :: ds) -> FracText (Some (d :: ds)) (46 :: dtext (d :: ds)).

(** exp = e [ minus / plus ] 1*DIGIT *)
Inductive SignText : bool -> bytes -> Prop :=
| sign_none : SignText false []
| sign_plus : SignText false [43]
| sign_minus : SignText true [45].
Inductive ExpText : option (bool * list Z) -> bytes -> Prop :=
| exp_none : ExpText None []
| exp_some e sg st d ds :
    e = 101 \/ e = 69 -> SignText sg st -> Forall digit (d :: ds) ->
    ExpText (Some (sg, d :: ds)) (e :: st ++ dtext (d :: ds)).

Inductive NumText : numlit -> bytes -> Prop :=
| num_text neg i f ft e et :
    IntDigits i -> FracText f ft -> ExpText e et ->
    NumText (mknum neg i f e) ((if neg then [45] else []) ++ dtext i ++ ft ++ et).

(** string = quotation-mark *char quotation-mark; [StrBody t s]: the characters [t]
    between the quotes denote the byte string [s]. *)
Inductive HexDigit : Z -> Z -> Prop :=
| hex_dec v : 0 <= v <= 9 -> HexDigit (48 + v) v
| hex_lower v : 10 <= v <= 15 -> HexDigit (87 + v) v
| hex_upper v : 10 <= v <= 15 -> HexDigit (55 + v) v.
Inductive Hex4 : bytes -> Z -> Prop :=
| hex4 a b c d va vb vc vd :
    HexDigit a va -> HexDigit b vb -> HexDigit c vc -> HexDigit d vd ->
    Hex4 [a; b; c; d] (va * 4096 + vb * 256 + vc * 16 + vd).

(** The two-character escapes: character after the backslash, character denoted. *)
Inductive ShortEsc : Z -> Z -> Prop :=
| esc_quote : ShortEsc 34 34     (* backslash quote *)
| esc_back : ShortEsc 92 92      (* two backslashes *)
| esc_slash : ShortEsc 47 47     (* \/ *)
| esc_b : ShortEsc 98 8          (* \b *)
| esc_f : ShortEsc 102 12        (* \f *)
| esc_n : ShortEsc 110 10        (* \n *)
| esc_r : ShortEsc 114 13        (* \r *)
| esc_t : ShortEsc 116 9.        (* \t *)

Definition high_surrogate (n : Z) : Prop := 55296 <= n <= 56319.  (* D800..DBFF *)
Definition low_surrogate (n : Z) : Prop := 56320 <= n <= 57343.   (* DC00..DFFF *)

Inductive StrBody : bytes -> bytes -> Prop :=
| sb_end : StrBody [] []
| sb_raw c t s :
    32 <= c <= 255 -> c <> 34 -> c <> 92 -> StrBody t s -> StrBody (c :: t) (c :: s)
| sb_esc e c t s : ShortEsc e c -> StrBody t s -> StrBody (92 :: e :: t) (c :: s)
| sb_uni h n t s :
    Hex4 h n -> ~ high_surrogate n -> ~ low_surrogate n -> StrBody t s ->
    StrBody (92 :: 117 :: h ++ t) (utf8_enc n ++ s)
| sb_pair h1 n1 h2 n2 t s :
    Hex4 h1 n1 -> high_surrogate n1 -> Hex4 h2 n2 -> low_surrogate n2 -> StrBody t s ->
    StrBody (92 :: 117 :: h1 ++ 92 :: 117 :: h2 ++ t)
            (utf8_enc (65536 + (n1 - 55296) * 1024 + (n2 - 56320)) ++ s).

Definition StrText (t s : bytes) : Prop := exists b, t = 34 :: b ++ [34] /\ StrBody b s.

(** Documents: strings decoded, numbers as literals, members in order with duplicates. *)
Inductive doc :=
| DNull
| DBool (b : bool)
| DStr (s : bytes)
| DNum (n : numlit)
| DArr (l : list doc)
| DObj (l : list (bytes * doc)).

Inductive VText : doc -> bytes -> Prop :=
| vt_null : VText DNull (bs "null")
| vt_true : VText (DBool true) (bs "true")
| vt_false : VText (DBool false) (bs "false")
| vt_str s t : StrText t s -> VText (DStr s) t
| vt_num n t : NumText n t -> VText (DNum n) t
| vt_arr0 w : Ws w -> VText (DArr []) (91 :: w ++ [93])
| vt_arr l t : EText l t -> VText (DArr l) (91 :: t ++ [93])
| vt_obj0 w : Ws w -> VText (DObj []) (123 :: w ++ [125])
| vt_obj l t : MText l t -> VText (DObj l) (123 :: t ++ [125])
(** value *( value-separator value ), with whitespace around values *)
with EText : list doc -> bytes -> Prop :=
| et_one d w1 t w2 : Ws w1 -> VText d t -> Ws w2 -> EText [d] (w1 ++ t ++ w2)
| et_cons d w1 t w2 l ts :
    Ws w1 -> VText d t -> Ws w2 -> EText l ts -> EText (d :: l) (w1 ++ t ++ w2 ++ 44 :: ts)
(** member *( value-separator member ); member = string name-separator value *)
with MText : list (bytes * doc) -> bytes -> Prop :=
| mt_one k d w1 kt w2 w3 t w4 :
    Ws w1 -> StrText kt k -> Ws w2 -> Ws w3 -> VText d t -> Ws w4 ->
    MText [(k, d)] (w1 ++ kt ++ w2 ++ 58 :: w3 ++ t ++ w4)
| mt_cons k d w1 kt w2 w3 t w4 l ts :
    Ws w1 -> StrText kt k -> Ws w2 -> Ws w3 -> VText d t -> Ws w4 -> MText l ts ->
    MText ((k, d) :: l) (w1 ++ kt ++ w2 ++ 58 :: w3 ++ t ++ w4 ++ 44 :: ts).

(** JSON-text = ws value ws *)
Definition JText (d : doc) (s : bytes) : Prop :=
  exists w1 t w2, s = w1 ++ t ++ w2 /\ Ws w1 /\ VText d t /\ Ws w2.

Scheme VText_mut := Induction for VText Sort Prop
  with EText_mut := Induction for EText Sort Prop
  with MText_mut := Induction for MText Sort Prop.
Combined Scheme Text_mutind from VText_mut, EText_mut, MText_mut.

(** ** Numbers *)

(** Value of a digit sequence. *)
Definition digits_val (ds : list Z) : Z := fold_left (fun a d => a * 10 + d) ds 0.

Definition frac_digits (n : numlit) : list Z :=
  match n_frac n with Some ds => ds | None => [] end.
(** The literal denotes (-1)^neg * mantissa * 10^scale. *)
Definition lit_mantissa (n : numlit) : Z := digits_val (n_int n ++ frac_digits n).
Definition lit_scale (n : numlit) : Z :=
  (match n_exp n with
   | Some (neg, ds) => if neg then - digits_val ds else digits_val ds
   | None => 0
   end) - Z.of_nat (List.length (frac_digits n)).
(** Literals without fraction and exponent denote an integer. *)
Definition is_int_lit (n : numlit) : Prop := n_frac n = None /\ n_exp n = None.
Definition lit_int (n : numlit) : Z :=
  if n_neg n then - digits_val (n_int n) else digits_val (n_int n).

(** ** Runs of digits outside string literals. The text with the inside of its string
    literals blanked (each byte of a literal but its opening quote becomes a quote): *)
Inductive qmode := QOut | QIn | QEsc.
Definition qnext (m : qmode) (c : Z) : qmode :=
  match m with
  | QOut => if c =? 34 then QIn else QOut
  | QIn => if c =? 34 then QOut else if c =? 92 then QEsc else QIn
  | QEsc => QIn
  end.
Fixpoint blank (m : qmode) (s : bytes) : bytes :=
  match s with
  | [] => []
  | c :: r => (match m with QOut => c | _ => 34 end) :: blank (qnext m c) r
  end.
(** At most m consecutive decimal digits, anywhere outside string literals. *)
Definition digit_runs (m : Z) (s : bytes) : Prop :=
  forall a ds b, blank QOut s = a ++ dtext ds ++ b -> Forall digit ds -> Z.of_nat (List.length ds) <= m.
