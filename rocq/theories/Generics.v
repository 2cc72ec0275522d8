(** derive/src/bound.rs, derive/src/fallback.rs and the headers of the items that
    derive/src/{ser,de}.rs generate, on an abstract syntax of generics. Bounds, where
    predicates, types of const parameters and defaults written by the user ([B], [W], [C],
    [D]) are only copied by the macros, so they are left opaque. The bodies of the generated
    impls are in Derive.v. *)
From Coq Require Import String ZArith List Bool.
From Verif Require Import Base Types Derive.
Import ListNotations.
Open Scope nat_scope.

(** The traits the generated code implements: miniserde::Serialize, miniserde::Deserialize,
    and those of the helper types: ser::Map, de::Visitor, de::Map. *)
Inductive trait := TSerialize | TDeserialize | TSerMap | TVisitor | TDeMap.

Section Syntax.
Context {B W C D : Type}.

(** syn::TypeParamBound: a lifetime or something else. *)
Inductive gbound := BLifetime (l : bytes) | BUser (b : B).
(** syn::GenericParam. The names of lifetimes include the quote. *)
Inductive gparam :=
| GLifetime (l : bytes) (bounds : list bytes)
| GType (x : bytes) (bounds : list gbound) (default : option D)
| GConst (x : bytes) (c : C) (default : option D).
(** syn::WherePredicate: the user's, and `x: trait`. *)
Inductive wpred := WUser (w : W) | WImpl (x : bytes) (t : trait).
(** syn::Generics: lt_token.is_some(), params, where_clause. *)
Record generics := mkgenerics { g_lt : bool; g_params : list gparam; g_where : option (list wpred) }.

(** param.ident, param.lifetime. *)
Definition pname (p : gparam) : bytes := match p with GLifetime l _ => l | GType x _ _ => x | GConst x _ _ => x end.
Definition is_lifetime (p : gparam) : bool := match p with GLifetime _ _ => true | _ => false end.
(** generics.type_params(). *)
Fixpoint type_params (ps : list gparam) : list bytes :=
  match ps with
  | [] => []
  | GType x _ _ :: ps' => x :: type_params ps'
  | _ :: ps' => type_params ps'
  end.

(** syn's Generics::split_for_impl (trusted description of syn 2): ImplGenerics prints the
    lifetimes and then the other parameters, without their defaults; TypeGenerics prints
    the names in the same order. *)
Definition no_default (p : gparam) : gparam :=
  match p with
  | GLifetime l b => GLifetime l b
  | GType x b _ => GType x b None
  | GConst x c _ => GConst x c None
  end.
Definition in_order (ps : list gparam) : list gparam :=
  filter is_lifetime ps ++ filter (fun p => negb (is_lifetime p)) ps.
Definition impl_generics (g : generics) : list gparam := map no_default (in_order (g_params g)).
Definition ty_generics (g : generics) : list bytes := map pname (in_order (g_params g)).

(** derive/src/bound.rs:22-30: the closure that adds the bound to a parameter. *)
Definition push_bound (l : bytes) (p : gparam) : gparam :=
  match p with
  | GLifetime x b => GLifetime x (b ++ [l])
  | GType x b d => GType x (b ++ [BLifetime l]) d
  | GConst x c d => GConst x c d
  end.
(** derive/src/bound.rs:8-37. *)
Definition with_lifetime_bound (g : generics) (l : bytes) : generics :=
  mkgenerics (g_lt g) (GLifetime l [] :: map (push_bound l) (g_params g)) (g_where g).

(** derive/src/bound.rs:39-51. *)
Definition where_clause_with_bound (g : generics) (t : trait) : list wpred :=
  match g_where g with None => [] | Some ps => ps end ++ map (fun x => WImpl x t) (type_params (g_params g)).

(** The types of the fields of the helper structs. *)
Inductive hty :=
| HUsize
| HSelf (args : list bytes)       (* #ident #ty_generics *)
| HOption (t : hty)
| HRef (l : bytes) (t : hty)      (* &'l t, &'l mut t *)
| HField (f : bytes).             (* the type of the user's field f *)

(** The headers of the generated items. [const _: () = { .. }] is left out. *)
Inductive item :=
| IStruct (name : bytes) (params : list gparam) (w : option (list wpred)) (fields : list (bytes * hty))
| IImpl (params : list gparam) (t : trait) (self : bytes) (args : list bytes) (w : option (list wpred))
| ICompileError.

(** The item a derive macro is applied to. *)
Record ginput := mkginput { gi_attrs : list attribute; gi_ident : bytes; gi_generics : generics; gi_data : data }.
(** What Derive.v looks at. *)
Definition plain (i : ginput) : derive_input :=
  mkinput (gi_attrs i) (gi_ident i) (g_lt (gi_generics i)) (match g_where (gi_generics i) with Some _ => true | None => false end) (gi_data i).

Definition lt_a : bytes := bs "'__a".

(** derive/src/ser.rs:54-86 *)
Definition ser_struct_items (i : ginput) : list item :=
  let g := gi_generics i in
  let wg := with_lifetime_bound g lt_a in
  let bw := where_clause_with_bound g TSerialize in
  [ IImpl (impl_generics g) TSerialize (gi_ident i) (ty_generics g) (Some bw);
    IStruct (bs "__Map") (impl_generics wg) (g_where g)
      [(bs "data", HRef lt_a (HSelf (ty_generics g))); (bs "state", HUsize)];
    IImpl (impl_generics wg) TSerMap (bs "__Map") (ty_generics wg) (Some bw) ].
(** derive/src/ser.rs:116-131 *)
Definition ser_enum_items (i : ginput) : list item := [ IImpl [] TSerialize (gi_ident i) [] None ].
(** derive/src/fallback.rs:5-21 *)
Definition fallback_ser (i : ginput) : list item :=
  let g := gi_generics i in
  [ ICompileError; IImpl (impl_generics g) TSerialize (gi_ident i) (ty_generics g) (g_where g) ].
(** derive/src/ser.rs:8-16, 18-34 *)
Definition expand_ser (i : ginput) : list item :=
  match derive_ser (plain i) with
  | Ok (SerStruct _) => ser_struct_items i
  | Ok (SerEnum _) => ser_enum_items i
  | _ => fallback_ser i
  end.

(** derive/src/de.rs:52-114 *)
Definition de_struct_items (i : ginput) (fieldname : list bytes) : list item :=
  let g := gi_generics i in
  let wg := with_lifetime_bound g lt_a in
  let bw := where_clause_with_bound g TDeserialize in
  [ IStruct (bs "__Visitor") (impl_generics g) (g_where g) [(bs "__out", HOption (HSelf (ty_generics g)))];
    IImpl (impl_generics g) TDeserialize (gi_ident i) (ty_generics g) (Some bw);
    IImpl (impl_generics g) TVisitor (bs "__Visitor") (ty_generics g) (Some bw);
    IStruct (bs "__State") (impl_generics wg) (g_where g)
      (map (fun f => (f, HOption (HField f))) fieldname ++ [(bs "__out", HRef lt_a (HOption (HSelf (ty_generics g))))]);
    IImpl (impl_generics wg) TDeMap (bs "__State") (ty_generics wg) (Some bw) ].
(** derive/src/de.rs:144-175 *)
Definition de_enum_items (i : ginput) : list item :=
  [ IStruct (bs "__Visitor") [] None [(bs "__out", HOption (HSelf []))];
    IImpl [] TDeserialize (gi_ident i) [] None;
    IImpl [] TVisitor (bs "__Visitor") [] None ].
(** derive/src/fallback.rs:23-39 *)
Definition fallback_de (i : ginput) : list item :=
  let g := gi_generics i in
  [ ICompileError; IImpl (impl_generics g) TDeserialize (gi_ident i) (ty_generics g) (g_where g) ].
(** derive/src/de.rs:8-16, 18-34 *)
Definition expand_de (i : ginput) : list item :=
  match derive_de (plain i) with
  | Ok (DeStruct slots _ _ _) => de_struct_items i (map fst slots)
  | Ok (DeEnum _) => de_enum_items i
  | _ => fallback_de i
  end.
End Syntax.
Arguments gbound : clear implicits.
Arguments gparam : clear implicits.
Arguments wpred : clear implicits.
Arguments generics : clear implicits.
Arguments ginput : clear implicits.
Arguments item : clear implicits.
