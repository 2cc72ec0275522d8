(** Serialize in an open world: values built from the crate's impls (src/ser/impls.rs), from
    derived structs and enums (derive/src/ser.rs) and from objects of user-defined types,
    nested in any way. A user-defined impl can hand out anything, also containers of the
    crate, their iterators, and further user-defined objects. *)
From Coq Require Import String ZArith List Bool Floats.SpecFloat.
From Verif Require Import Base Utf8 F64 Lexer Types Ser.
Import ListNotations.
Open Scope Z_scope.

(** A str: bytes that are valid UTF-8. *)
Record rstr := mk_rstr { text : bytes; text_utf8 : str_ok text = true }.

(** [X]: the user-defined objects; [K]: the keys of maps (any type with ToString).
    A reference, Box or Cow is [CRef]; a slice, array or Vec is [CSlice]; a HashMap or
    BTreeMap is the list of its entries in the order of iteration. Simplification: the
    native recursion of begin() through references is not counted here (see C45). *)
Inductive cval (X K : Type) :=
| CUser (x : X)
| CUnit
| CBool (b : bool)
| CStr (s : rstr)
| CUnsigned (n : Z)
| CSigned (n : Z)
| CFloat (f : f64)
| CRef (c : cval X K)
| COption (o : option (cval X K))
| CPair (a b : cval X K)
| CSlice (l : list (cval X K))
| CMap (l : list (K * cval X K))
| CStruct (fields : list (rstr * cval X K))
| CVariant (name : rstr).
Arguments CUser {X K}. Arguments CUnit {X K}. Arguments CBool {X K}. Arguments CStr {X K}.
Arguments CUnsigned {X K}. Arguments CSigned {X K}. Arguments CFloat {X K}. Arguments CRef {X K}.
Arguments COption {X K}. Arguments CPair {X K}. Arguments CSlice {X K}. Arguments CMap {X K}.
Arguments CStruct {X K}. Arguments CVariant {X K}.

(** The iterators: user-defined ones and the crate's. *)
Inductive oseq (X K SQ : Type) :=
| OUserSeq (q : SQ)
(* SliceStream, ser/impls.rs:219: the elements not yet yielded *)
| OSlice (rest : list (cval X K))
(* TupleStream, ser/impls.rs:126-130 *)
| OTuple (first second : cval X K) (state : nat).
Arguments OUserSeq {X K SQ}. Arguments OSlice {X K SQ}. Arguments OTuple {X K SQ}.
Inductive omap (X K MP : Type) :=
| OUserMap (m : MP)
(* HashMapStream, BTreeMapStream, ser/impls.rs:187, 239: the entries not yet yielded *)
| OEntries (rest : list (K * cval X K))
(* __Map, derive/src/ser.rs:65-68 *)
| OFields (data : list (rstr * cval X K)) (state : nat).
Arguments OUserMap {X K MP}. Arguments OEntries {X K MP}. Arguments OFields {X K MP}.

(** The user-defined impls: Serialize::begin, Seq::next, Map::next (ser/mod.rs:117-133), the
    drops of the iterators, and ToString::to_string of the keys. *)
Record user (St X K SQ MP : Type) := mk_user {
  x_begin : X -> St -> res (fragment (oseq X K SQ) (omap X K MP)) * St;
  x_seq_next : SQ -> St -> res (option (cval X K)) * SQ * St;
  x_map_next : MP -> St -> res (option (bytes * cval X K)) * MP * St;
  x_seq_drop : SQ -> St -> res unit * St;
  x_map_drop : MP -> St -> res unit * St;
  x_key : K -> St -> res bytes * St
}.
Arguments x_begin {St X K SQ MP}. Arguments x_seq_next {St X K SQ MP}. Arguments x_map_next {St X K SQ MP}.
Arguments x_seq_drop {St X K SQ MP}. Arguments x_map_drop {St X K SQ MP}. Arguments x_key {St X K SQ MP}.

Section Open.
Context {St X K SQ MP : Type}.
Variable U : user St X K SQ MP.
Notation frag := (fragment (oseq X K SQ) (omap X K MP)).

(** Serialize::begin. *)
Fixpoint c_begin (c : cval X K) (st : St) : res frag * St :=
  match c with
  | CUser x => x_begin U x st
  | CUnit => (Ok FNull, st)                              (* ser/impls.rs:15-19 *)
  | CBool b => (Ok (FBool b), st)                        (* ser/impls.rs:21-25 *)
  | CStr s => (Ok (FStr (text s)), st)                        (* ser/impls.rs:27-37 *)
  | CUnsigned n => (Ok (FU64 (wrap_u 64 n)), st)         (* ser/impls.rs:39-52 *)
  | CSigned n => (Ok (FI64 (wrap_s 64 n)), st)           (* ser/impls.rs:54-67 *)
  | CFloat f => (Ok (FF64 f), st)                        (* ser/impls.rs:69-79 *)
  | CRef c' => c_begin c' st                             (* ser/impls.rs:81-97, 111-118 *)
  | COption (Some c') => c_begin c' st                   (* ser/impls.rs:99-109 *)
  | COption None => (Ok FNull, st)
  | CPair a b => (Ok (FSeq (OTuple a b 0)), st)          (* ser/impls.rs:120-150 *)
  | CSlice l => (Ok (FSeq (OSlice l)), st)               (* ser/impls.rs:152-177, 215-232 *)
  | CMap l => (Ok (FMap (OEntries l)), st)               (* ser/impls.rs:180-212, 234-256 *)
  | CStruct fs => (Ok (FMap (OFields fs 0)), st)         (* derive/src/ser.rs:57-64 *)
  | CVariant name => (Ok (FStr (text name)), st)              (* derive/src/ser.rs:120-128 *)
  end.

(** Seq::next. *)
Definition o_seq_next (q : oseq X K SQ) (st : St) : res (option (cval X K)) * oseq X K SQ * St :=
  match q with
  | OUserSeq q =>
      let '(r, q', st1) := x_seq_next U q st in (r, OUserSeq q', st1)
  | OSlice [] => (Ok None, OSlice [], st)                (* ser/impls.rs:225-228 *)
  | OSlice (c :: rest) => (Ok (Some c), OSlice rest, st)
  | OTuple a b state =>                                  (* ser/impls.rs:133-141 *)
      (Ok (match state with O => Some a | S O => Some b | _ => None end), OTuple a b (S state), st)
  end.

(** Map::next. *)
Definition o_map_next (m : omap X K MP) (st : St) : res (option (bytes * cval X K)) * omap X K MP * St :=
  match m with
  | OUserMap m =>
      let '(r, m', st1) := x_map_next U m st in (r, OUserMap m', st1)
  | OEntries [] => (Ok None, OEntries [], st)            (* ser/impls.rs:194-197, 249-252 *)
  | OEntries ((k, c) :: rest) =>
      match x_key U k st with
      | (Ok s, st1) => (Ok (Some (s, c)), OEntries rest, st1)
      | (Err, st1) => (Err, OEntries rest, st1)
      | (Fault f, st1) => (Fault f, OEntries rest, st1)
      end
  | OFields fs state =>                                  (* derive/src/ser.rs:71-83 *)
      (Ok (option_map (fun nc => (text (fst nc), snd nc)) (nth_error fs state)), OFields fs (S state), st)
  end.

(** The crate's iterators borrow: nothing happens when they are dropped. *)
Definition o_seq_drop (q : oseq X K SQ) (st : St) : res unit * St :=
  match q with OUserSeq q => x_seq_drop U q st | _ => (Ok tt, st) end.
Definition o_map_drop (m : omap X K MP) (st : St) : res unit * St :=
  match m with OUserMap m => x_map_drop U m st | _ => (Ok tt, st) end.
Definition open_iface : siface St (cval X K) (oseq X K SQ) (omap X K MP) := {|
  i_begin := c_begin;
  i_seq_next := o_seq_next;
  i_map_next := o_map_next;
  i_seq_drop := o_seq_drop;
  i_map_drop := o_map_drop
|}.
End Open.
