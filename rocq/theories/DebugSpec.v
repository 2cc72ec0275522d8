(** What `{:?}` and `{:#?}` print for a json::Value (C64), stated without the fmt machinery. *)
From Coq Require Import String ZArith List Bool Floats.SpecFloat.
From Verif Require Import Base F64 Utf8 Types JsonValue DebugFmt.
Import ListNotations.
Open Scope Z_scope.

Section Spec.
Variable shown_as_is : Z -> bool.
Variable ryu : f64 -> bytes.

(** A string with these characters, quoted and escaped. *)
Definition quoted (cs : list Z) : bytes := [34] ++ concat (map (escape_debug shown_as_is) cs) ++ [34].

Definition spaces (n : nat) : bytes := repeat 32 n.
Fixpoint separated (ss : list bytes) : bytes :=
  match ss with [] => [] | [s] => s | s :: r => s ++ bs ", " ++ separated r end.
(** The items of a list or map: `a, b, c`; or, with `#`, each on a line of its own that ends in
    a comma and is indented by four spaces more than the line of the closing bracket. *)
Definition laid_out (pretty : bool) (indent : nat) (items : list bytes) : bytes :=
  if pretty then
    match items with
    | [] => []
    | _ => [10] ++ concat (map (fun s => spaces (indent + 4) ++ s ++ bs "," ++ [10]) items) ++ spaces indent
    end
  else separated items.

Fixpoint shown (pretty : bool) (indent : nat) (v : jval) : bytes :=
  match v with
  | JvNull => bs "Null"
  | JvBool b => bs "Bool(" ++ bs (if b then "true" else "false") ++ bs ")"
  | JvNum n => bs "Number(" ++ number_display ryu n ++ bs ")"
  | JvStr s => bs "String(" ++ quoted (chars s) ++ bs ")"
  | JvArr l => bs "Array [" ++ laid_out pretty indent (map (shown pretty (indent + 4)) l) ++ bs "]"
  | JvObj l =>
      bs "Object {" ++
      laid_out pretty indent (map (fun kv => quoted (chars (fst kv)) ++ bs ": " ++ shown pretty (indent + 4) (snd kv)) l) ++
      bs "}"
  end.
End Spec.

(** A writer is given the pieces one after the other until it fails. *)
Fixpoint feed {W} (wr : writer W) (pieces : list bytes) (w : W) : res unit * W :=
  match pieces with
  | [] => (Ok tt, w)
  | p :: r => match wr p w with (Ok _, w1) => feed wr r w1 | (e, w1) => (e, w1) end
  end.

(** Two values are the same, except that an integer may be held as u64 in one and as i64 in
    the other. *)
Inductive same_number : jnum -> jnum -> Prop :=
| sn_int n n' z : (n = NU64 z \/ n = NI64 z) -> (n' = NU64 z \/ n' = NI64 z) -> same_number n n'
| sn_float f : same_number (NF64 f) (NF64 f).
Inductive same_value : jval -> jval -> Prop :=
| sv_null : same_value JvNull JvNull
| sv_bool b : same_value (JvBool b) (JvBool b)
| sv_num n n' : same_number n n' -> same_value (JvNum n) (JvNum n')
| sv_str s : same_value (JvStr s) (JvStr s)
| sv_arr l l' : Forall2 same_value l l' -> same_value (JvArr l) (JvArr l')
| sv_obj l l' : Forall2 (fun a b => fst a = fst b /\ same_value (snd a) (snd b)) l l' -> same_value (JvObj l) (JvObj l').

(** core's table of printable characters, as far as the claims need it: ASCII, and no control
    characters (category Cc). *)
Definition unicode_like (shown_as_is : Z -> bool) : Prop :=
  forall c, (32 <= c < 127 -> shown_as_is c = true) /\
            (c < 32 \/ 127 <= c < 160 -> shown_as_is c = false).
Definition control (c : Z) : Prop := 0 <= c < 32 \/ 127 <= c < 160.
