(** C60: specification. *)
From Coq Require Import ZArith List Bool.
From Verif Require Import Base Utf8 F64 Grammar Types Ser UserTypes UserSpec FromStr OpenSer OpenSerSpec RoundSpec.
Import ListNotations.
Open Scope nat_scope.

Section Spec.
Context {G St X K SQ MP : Type}.
Variable U : user St X K SQ MP.
Variable ryu : f64 -> bytes.
Variable oc : bool.

(** Whatever the state of the world, to_string(&c) succeeds and writes a JSON text. *)
Definition is_written (c : cval X K) : Prop :=
  forall st, exists s st', writes U ryu c st (Ok s) st' /\ text_ok s /\ json_text s.
(** k.to_string() is always n. *)
Definition key_is (k : K) (n : bytes) : Prop := forall st, exists st', x_key U k st = (Ok n, st').

(** The struct that is read against the members that were written, in whatever order: each
    field of the struct comes back from the member of its name, or there is no member of
    its name and its type has a default (as Option<T> has). *)
Definition field_from (ms : list (bytes * cval X K)) {A} (name : bytes) (T : utype G A) (a : A) : Prop :=
  (exists c, In (name, c) ms /\ comes_back U ryu oc T c a) \/
  (~ In name (map fst ms) /\ forall g, exists g', u_default T g = (Ok (Some a), g')).
Fixpoint fields_from (fs : list (ufield G)) (ms : list (bytes * cval X K)) : fvals fs -> Prop :=
  match fs with
  | [] => fun _ => True
  | f :: fs' => fun vs => field_from ms (f_name f) (f_u f) (fst vs) /\ fields_from fs' ms (snd vs)
  end.
End Spec.
