(** Debug for json::Value, Array and Object, and the parts of core::fmt they are built from
    (Formatter::debug_list / debug_map with and without `#`, the indenting PadAdapter, Debug
    for str).

    A fmt::Write is a function on its own state [W]; it may return an error or panic at every
    call. [alt] is the `#` flag of the format string, [k] the native recursion budget.
    Simplified: width, fill and precision flags (core passes them on to no part of this
    output); core writes runs of unescaped characters of a string with one call, here every
    character is a call of its own. *)
From Coq Require Import String ZArith List Bool Floats.SpecFloat.
From Verif Require Import Base F64 Utf8 Types JsonValue.
Import ListNotations.
Open Scope Z_scope.

Definition writer (W : Type) := bytes -> W -> res unit * W.
Definition action (W : Type) := W -> res unit * W.
(** `a?; b` *)
Definition andthen {W} (a b : action W) : action W :=
  fun w => match a w with (Ok _, w1) => b w1 | (r, w1) => (r, w1) end.
Definition nothing {W} : action W := fun w => (Ok tt, w).
Infix ">>" := andthen (at level 60, right associativity).

(** ** core::fmt::builders *)

(** str::split_inclusive('\n'). *)
Fixpoint split_inclusive (s : bytes) : list bytes :=
  match s with
  | [] => []
  | c :: r =>
      if c =? 10 then [c] :: split_inclusive r
      else match split_inclusive r with [] => [[c]] | l :: ls => (c :: l) :: ls end
  end.
Definition ends_with_newline (s : bytes) : bool := last s 0 =? 10.

(** PadAdapter::write_str: a writer around another one; its own state is `on_newline`. *)
Fixpoint pad_lines {W} (wr : writer W) (lines : list bytes) (st : bool * W) : res unit * (bool * W) :=
  match lines with
  | [] => (Ok tt, st)
  | line :: rest =>
      match (if fst st then wr (bs "    ") (snd st) else (Ok tt, snd st)) with
      | (Ok _, w1) =>
          match wr line w1 with
          | (Ok _, w2) => pad_lines wr rest (ends_with_newline line, w2)
          | (r, w2) => (r, (ends_with_newline line, w2))
          end
      | (r, w1) => (r, (fst st, w1))
      end
  end.
Definition pad_writer {W} (wr : writer W) : writer (bool * W) := fun s st => pad_lines wr (split_inclusive s) st.

(** The pretty arm of DebugInner::entry: a fresh PadAdapter per entry. The two steps of
    DebugMap::entry (key, then value) share one. *)
Definition pretty_entry {W} (wr : writer W) (has_fields : bool) (body : writer (bool * W) -> action (bool * W)) : action W :=
  (if has_fields then nothing else wr (bs "
")) >>
  fun w => match (body (pad_writer wr) >> pad_writer wr (bs ",
")) (true, w) with (r, (_, w1)) => (r, w1) end.
(** The other arm. *)
Definition flat_entry {W} (wr : writer W) (has_fields : bool) (body : writer W -> action W) : action W :=
  (if has_fields then wr (bs ", ") else nothing) >> body wr.

(** ** Debug for str *)
Section Str.
(** Which characters are written as they are: core's tables (printable and not grapheme
    extending), a parameter. *)
Variable shown_as_is : Z -> bool.

Definition hex_digit (d : Z) : Z := if d <? 10 then 48 + d else 87 + d.
Fixpoint hex (fuel : nat) (c : Z) (acc : bytes) : bytes :=
  match fuel with
  | O => acc
  | S f => if c <? 16 then hex_digit c :: acc else hex f (c / 16) (hex_digit (c mod 16) :: acc)
  end.
(** char::escape_debug_ext, as called by Debug for str. *)
Definition escape_debug (c : Z) : bytes :=
  if c =? 0 then bs "\0"
  else if c =? 9 then bs "\t"
  else if c =? 13 then bs "\r"
  else if c =? 10 then bs "\n"
  else if c =? 34 then [92; 34]
  else if c =? 92 then [92; 92]
  else if shown_as_is c then utf8_enc c
  else bs "\u{" ++ hex 8 c [] ++ bs "}".

(** str::chars (core::str::validations::next_code_point). *)
Fixpoint chars (s : bytes) : list Z :=
  match s with
  | [] => []
  | a :: s1 =>
      if a <? 128 then a :: chars s1 else
      match s1 with
      | [] => []
      | b :: s2 =>
          if a <? 224 then (a mod 32) * 64 + b mod 64 :: chars s2 else
          match s2 with
          | [] => []
          | c :: s3 =>
              if a <? 240 then (a mod 16) * 4096 + (b mod 64) * 64 + c mod 64 :: chars s3 else
              match s3 with
              | [] => []
              | d :: s4 => (a mod 8) * 262144 + (b mod 64) * 4096 + (c mod 64) * 64 + d mod 64 :: chars s4
              end
          end
      end
  end.
Fixpoint write_all {W} (wr : writer W) (l : list bytes) : action W :=
  match l with [] => nothing | c :: r => wr c >> write_all wr r end.
Definition debug_str {W} (wr : writer W) (s : bytes) : action W :=
  wr [34] >> write_all wr (map escape_debug (chars s)) >> wr [34].

(** ** json::Value *)
Variable ryu : f64 -> bytes.

(** Debug for Value, json/value.rs:46-57; the arms of write!(..) are the pieces of the format
    string and the arguments, in order. Array (json/array.rs:98-103): write_str("Array ") and
    debug_list().entries(self).finish(). Object (json/object.rs:94-99): the same with debug_map.
    An error makes the builders skip the remaining entries. *)
Fixpoint debug_value (k : nat) (alt : bool) {W : Type} (wr : writer W) (v : jval) {struct k} : action W :=
  match k with
  | O => fun w => (Fault FDeep, w)
  | S k' =>
      match v with
      | JvNull => wr (bs "Null")
      | JvBool b => wr (bs "Bool(") >> wr (bs (if b then "true" else "false")) >> wr (bs ")")
      | JvNum n => wr (bs "Number(") >> wr (number_display ryu n) >> wr (bs ")")
      | JvStr s => wr (bs "String(") >> debug_str wr s >> wr (bs ")")
      | JvArr l =>
          wr (bs "Array ") >> wr (bs "[") >>
          (fix entries (has_fields : bool) (l : list jval) : action W :=
             match l with
             | [] => wr (bs "]")
             | e :: r =>
                 (if alt then pretty_entry wr has_fields (fun wr' => debug_value k' alt wr' e)
                  else flat_entry wr has_fields (fun wr' => debug_value k' alt wr' e)) >>
                 entries true r
             end) false l
      | JvObj l =>
          wr (bs "Object ") >> wr (bs "{") >>
          (fix entries (has_fields : bool) (l : list (bytes * jval)) : action W :=
             match l with
             | [] => wr (bs "}")
             | (n, e) :: r =>
                 (if alt then pretty_entry wr has_fields (fun wr' => debug_str wr' n >> wr' (bs ": ") >> debug_value k' alt wr' e)
                  else flat_entry wr has_fields (fun wr' => debug_str wr' n >> wr' (bs ": ") >> debug_value k' alt wr' e)) >>
                 entries true r
             end) false l
      end
  end.

(** format!("{:?}", v) and format!("{:#?}", v): the writer is a String, which never fails
    (alloc::fmt::format; an error of Debug would be a panic). *)
Definition string_writer : writer bytes := fun s out => (Ok tt, out ++ s).
Definition format_debug (k : nat) (alt : bool) (v : jval) : res bytes :=
  match debug_value k alt string_writer v [] with
  | (Ok _, out) => Ok out
  | (Err, _) => Fault FPanic
  | (Fault f, _) => Fault f
  end.
End Str.
