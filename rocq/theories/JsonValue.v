(** Drop, Clone and Display of json::Value, Array, Object and Number.

    [k] is the native recursion budget, as in Impls.v. *)
From Coq Require Import String ZArith List Bool Floats.SpecFloat.
From Verif Require Import Base F64 Types.
Import ListNotations.
Open Scope Z_scope.

(** Values have no identity; what a drop releases is recorded as a trace of the
    values (nodes) whose storage has been released. *)
Definition trace := list jval.

(** The while loop of drop::safely, json/drop.rs:12-26. `for child in vec` moves the
    elements out of the container (json/array.rs:25-28, 66-68, object.rs:29-32, 60-62: its
    own Drop does not run), pushes them in order and releases the container; in the
    last arm the popped value is dropped by [glue], the drop glue of Value. *)
Fixpoint safely_loop (glue : jval -> trace -> res trace) (fuel : nat) (stack : list jval)
    (tr : trace) : res trace :=
  match fuel with
  | O => Fault FFuel
  | S f =>
      match stack with
      | [] => Ok tr
      | value :: stack' =>
          match value with
          | JvArr vec => safely_loop glue f (rev vec ++ stack') (tr ++ [value])
          | JvObj m => safely_loop glue f (rev (map snd m) ++ stack') (tr ++ [value])
          | _ => let* tr1 := glue value tr in safely_loop glue f stack' tr1
          end
      end
  end.

(** json/drop.rs:4-27. `_ => return` drops the argument. [fuel] bounds the number of
    iterations of the loop. *)
Definition safely (glue : jval -> trace -> res trace) (fuel : nat) (value : jval) (tr : trace)
  : res trace :=
  match value with
  | JvArr _ | JvObj _ => safely_loop glue fuel [value] tr
  | _ => glue value tr
  end.

(** `self.inner.drain(..).for_each(drop::safely)`, json/array.rs:19-23, and the loop of
    Object::drop, json/object.rs:21-27. *)
Fixpoint drop_children (glue : jval -> trace -> res trace) (fuel : nat) (l : list jval)
    (tr : trace) : res trace :=
  match l with
  | [] => Ok tr
  | c :: l' => let* tr1 := safely glue fuel c tr in drop_children glue fuel l' tr1
  end.

(** Drop glue of a Value going out of scope: glue -> Array::drop / Object::drop ->
    drop::safely -> glue (of what safely lets go out of scope), each a native call. *)
Fixpoint drop_value (k fuel : nat) (v : jval) (tr : trace) : res trace :=
  match k with
  | O => Fault FDeep
  | S k1 =>
      let container (l : list jval) :=
        match k1 with
        | O | S O => Fault FDeep
        | S (S k3) =>
            let* tr1 := drop_children (drop_value k3 fuel) fuel l tr in
            Ok (tr1 ++ [v])
        end in
      match v with
      | JvArr l => container l
      | JvObj l => container (map snd l)
      | _ => Ok (tr ++ [v])
      end
  end.

(** derive(Clone) for Value (json/value.rs:29), Clone for Array (json/array.rs:50-55) and
    derive(Clone) for Object (json/object.rs:16): each clones its elements with
    Value::clone, a native recursion. *)
Fixpoint clone_value (k : nat) (v : jval) : res jval :=
  match k with
  | O => Fault FDeep
  | S k' =>
      match v with
      | JvArr l =>
          let* l' :=
            (fix go (l : list jval) : res (list jval) :=
               match l with
               | [] => Ok []
               | c :: r => let* c' := clone_value k' c in let* r' := go r in Ok (c' :: r')
               end) l in
          Ok (JvArr l')
      | JvObj l =>
          let* l' :=
            (fix go (l : list (bytes * jval)) : res (list (bytes * jval)) :=
               match l with
               | [] => Ok []
               | (n, c) :: r =>
                   let* c' := clone_value k' c in let* r' := go r in Ok ((n, c') :: r')
               end) l in
          Ok (JvObj l')
      | _ => Ok v
      end
  end.

(** ryu::Buffer::format: like format_finite, but prints NaN and infinities too. *)
Definition ryu_format (ryu : f64 -> bytes) (f : f64) : bytes :=
  match f with
  | S754_nan => bs "NaN"
  | S754_infinity s => bs (if s then "-inf" else "inf")
  | _ => ryu f
  end.

(** Display for Number, json/number.rs:14-22. *)
Definition number_display (ryu : f64 -> bytes) (n : jnum) : bytes :=
  match n with
  | NU64 n => itoa n
  | NI64 n => itoa n
  | NF64 f => ryu_format ryu f
  end.

(** Default for Value, json/value.rs:39-44. *)
Definition value_default : jval := JvNull.
