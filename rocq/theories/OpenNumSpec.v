(** C57: when the numbers of an open world are those of Rust's types. *)
From Coq Require Import ZArith List Bool.
From Verif Require Import Base Utf8 F64 Types Ser OpenSer.
Import ListNotations.

Section Spec.
Context {St X K SQ MP : Type}.
Variable U : user St X K SQ MP.
Variable fp : f64 -> Prop.

(** The floats in a value, apart from those in user-defined objects. *)
Fixpoint floats_are (c : cval X K) : Prop :=
  match c with
  | CFloat f => fp f
  | CRef c' => floats_are c'
  | COption (Some c') => floats_are c'
  | CPair a b => floats_are a /\ floats_are b
  | CSlice l => fold_right (fun c P => floats_are c /\ P) True l
  | CMap l => fold_right (fun kc P => floats_are (snd kc) /\ P) True l
  | CStruct l => fold_right (fun nc P => floats_are (snd nc) /\ P) True l
  | _ => True
  end.
Definition seq_are (q : oseq X K SQ) : Prop :=
  match q with
  | OUserSeq _ => True
  | OSlice l => floats_are (CSlice l)
  | OTuple a b _ => floats_are a /\ floats_are b
  end.
Definition map_are (m : omap X K MP) : Prop :=
  match m with
  | OUserMap _ => True
  | OEntries l => floats_are (CMap l)
  | OFields l _ => floats_are (CStruct l)
  end.
Definition frag_are (f : fragment (oseq X K SQ) (omap X K MP)) : Prop :=
  match f with
  | FU64 n => (0 <= n <= u64_MAX)%Z
  | FI64 n => (i64_MIN <= n <= i64_MAX)%Z
  | FF64 f => fp f
  | FSeq q => seq_are q
  | FMap m => map_are m
  | _ => True
  end.
(** User-defined objects hand out a u64, an i64, such floats, and values with such floats. *)
Definition numbers_are : Prop :=
  (forall x st f st', x_begin U x st = (Ok f, st') -> frag_are f) /\
  (forall q st c q' st', x_seq_next U q st = (Ok (Some c), q', st') -> floats_are c) /\
  (forall m st k c m' st', x_map_next U m st = (Ok (Some (k, c)), m', st') -> floats_are c).
End Spec.
