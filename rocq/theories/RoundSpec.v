(** C58: specification. *)
From Coq Require Import ZArith List Bool.
From Verif Require Import Base Utf8 F64 Types Ser UserTypes UserSpec FromStr OpenSer OpenSerSpec.
Import ListNotations.
Open Scope nat_scope.

Section Spec.
Context {G St X K SQ MP : Type}.
Variable U : user St X K SQ MP.
Variable ryu : f64 -> bytes.
Variable oc : bool.

(** Whatever the state of the world, to_string(&c) succeeds and writes a JSON text (valid
    UTF-8, within the limit on runs of digits), and from_str::<T> of that text is Ok(a). *)
Definition comes_back {A} (T : utype G A) (c : cval X K) (a : A) : Prop :=
  forall st g, exists s st' g',
    writes U ryu c st (Ok s) st' /\ text_ok s /\ json_text s /\ user_from_str T oc s g = (Ok a, g').

(** Keys of maps: k.to_string() succeeds, K::from_str of it is Ok(key). *)
Definition key_comes_back {Key} (parse : bytes -> G -> res Key * G) (k : K) (key : Key) : Prop :=
  forall st g, exists ks st' g', x_key U k st = (Ok ks, st') /\ parse ks g = (Ok key, g').

(** The text written is not null. *)
Definition not_null (c : cval X K) : Prop := forall st s st', writes U ryu c st (Ok s) st' -> ~ Grammar.JText Grammar.DNull s.

(** Field by field: same name, and the value comes back. *)
Fixpoint fields_come_back (fs : list (ufield G)) (cs : list (rstr * cval X K)) : fvals fs -> Prop :=
  match fs, cs with
  | [], [] => fun _ => True
  | f :: fs', (n, c) :: cs' => fun vs =>
      text n = f_name f /\ comes_back (f_u f) c (fst vs) /\ fields_come_back fs' cs' (snd vs)
  | _, _ => fun _ => False
  end.
End Spec.
