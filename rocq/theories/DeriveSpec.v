(** What the documentation says about #[derive(Serialize, Deserialize)]: which items are
    supported, and under which name a field or variant is written and read. Independent of
    the functions of Derive.v. *)
From Coq Require Import String ZArith List Bool.
From Verif Require Import Base Types Derive.
Import ListNotations.
Open Scope Z_scope.

(** A Rust identifier, [name] or [r#name]; a name contains no '#'. *)
Definition NoHash (name : bytes) : Prop := ~ In 35 name.
Definition Ident (ident name : bytes) : Prop :=
  NoHash name /\ (ident = name \/ ident = bs "r#" ++ name).

(** The metas of all the #[serde(..)] attributes, in order; there is no such list if one
    of them is not of that form. Other attributes don't matter. *)
Inductive SerdeMetas : list attribute -> list meta -> Prop :=
| sm_nil : SerdeMetas [] []
| sm_other a attrs ms :
    a_path a <> bs "serde" -> SerdeMetas attrs ms -> SerdeMetas (a :: attrs) ms
| sm_serde a attrs ms1 ms :
    a_path a = bs "serde" -> a_metas a = Some ms1 -> SerdeMetas attrs ms ->
    SerdeMetas (a :: attrs) (ms1 ++ ms).

(** The wire name: that of the only meta, #[serde(rename = "name")], or, without any
    meta, the identifier without r#. With any other metas there is none. *)
Inductive WireName (attrs : list attribute) (ident : bytes) : bytes -> Prop :=
| wn_ident name : SerdeMetas attrs [] -> Ident ident name -> WireName attrs ident name
| wn_rename name :
    SerdeMetas attrs [mkmeta (bs "rename") (RhsStr name)] -> WireName attrs ident name.

(** The items the derives support: structs with named fields, and enums without generics
    all of whose variants are units; every field or variant has a wire name. The
    container's own attributes don't matter. *)
Inductive Derivable : data -> bool -> Prop :=
| dv_struct fs generic :
    Forall (fun f => exists n, WireName (f_attrs f) (f_ident f) n) fs ->
    Derivable (DataStruct (FieldsNamed fs)) generic
| dv_enum vs :
    Forall (fun v => v_fields v = FieldsUnit /\ exists n, WireName (v_attrs v) (v_ident v) n) vs ->
    Derivable (DataEnum vs) false.

(** The identifiers of an item, as the Rust grammar guarantees them. *)
Definition idents (d : data) : list bytes :=
  match d with
  | DataStruct (FieldsNamed fs) => map f_ident fs
  | DataEnum vs => map v_ident vs
  | _ => []
  end.
Definition legal_idents (d : data) : Prop :=
  NoDup (idents d) /\ Forall (fun x => exists n, Ident x n) (idents d).
