(** The derive macros: derive/src/attr.rs and derive/src/{ser,de}.rs, on an abstract syntax
    of the items they are applied to (the part of syn's DeriveInput they look at), and the
    code they generate. *)
From Coq Require Import String ZArith List Bool.
From Verif Require Import Base Types.
Import ListNotations.
Open Scope Z_scope.

(** One nested meta of #[serde(..)]: its path and its right-hand side. *)
Inductive meta_rhs := RhsStr (s : bytes) | RhsOther | RhsNone.
Record meta := mkmeta { m_path : bytes; m_rhs : meta_rhs }.

(** An attribute: its path and the nested metas, or None if it does not have the form
    #[path(meta, ..)]. *)
Record attribute := mkattr { a_path : bytes; a_metas : option (list meta) }.

(** The closure given to parse_nested_meta, derive/src/attr.rs:13-24. *)
Definition rename_meta (rename : option bytes) (m : meta) : res (option bytes) :=
  if bytes_eqb (m_path m) (bs "rename") then
    match m_rhs m with
    | RhsStr s => match rename with Some _ => Err | None => Ok (Some s) end
    | _ => Err
    end
  else Err.

Fixpoint rename_metas (rename : option bytes) (ms : list meta) : res (option bytes) :=
  match ms with
  | [] => Ok rename
  | m :: ms' => let* r := rename_meta rename m in rename_metas r ms'
  end.

(** derive/src/attr.rs:5-28. *)
Fixpoint attr_rename_loop (rename : option bytes) (attrs : list attribute)
  : res (option bytes) :=
  match attrs with
  | [] => Ok rename
  | a :: attrs' =>
      if negb (bytes_eqb (a_path a) (bs "serde")) then attr_rename_loop rename attrs'
      else
        match a_metas a with
        | None => Err
        | Some ms => let* r := rename_metas rename ms in attr_rename_loop r attrs'
        end
  end.
Definition attr_rename (attrs : list attribute) : res (option bytes) :=
  attr_rename_loop None attrs.

(** str::trim_start_matches("r#"): strips the prefix as often as it occurs. *)
Fixpoint trim_raw (fuel : nat) (s : bytes) : bytes :=
  match fuel with
  | O => s
  | S f =>
      match s with
      | a :: b :: s' => if (a =? 114) && (b =? 35) then trim_raw f s' else s
      | _ => s
      end
  end.

(** derive/src/attr.rs:42-44. *)
Definition unraw (ident : bytes) : bytes := trim_raw (List.length ident) ident.

(** derive/src/attr.rs:31-40 (name_of_field and name_of_variant are the same). *)
Definition name_of (attrs : list attribute) (ident : bytes) : res bytes :=
  let* rename := attr_rename attrs in
  Ok (match rename with Some s => s | None => unraw ident end).

(** syn's Fields: named fields with attributes, identifier and type. *)
Record field := mkfield { f_attrs : list attribute; f_ident : bytes; f_ty : ty }.
Inductive fields := FieldsNamed (fs : list field) | FieldsUnnamed (n : nat) | FieldsUnit.
Record variant := mkvariant { v_attrs : list attribute; v_ident : bytes; v_fields : fields }.
Inductive data :=
| DataStruct (fs : fields)
| DataEnum (vs : list variant)
| DataUnion.
Record derive_input := mkinput {
  i_attrs : list attribute; (* of the container; never looked at *)
  i_ident : bytes;
  has_generics : bool;      (* generics.lt_token.is_some() *)
  has_where : bool;         (* generics.where_clause.is_some() *)
  i_data : data
}.

(** iter().map(f).collect::<Result<Vec<_>>>(). *)
Fixpoint collect {A B} (f : A -> res B) (l : list A) : res (list B) :=
  match l with
  | [] => Ok []
  | a :: l' => let* b := f a in let* bs := collect f l' in Ok (b :: bs)
  end.

(** ** The generated code. What is kept of it: the arms of its matches and the fields it
    mentions, by identifier. *)

(** Variants of a fieldless enum, derive/src/ser.rs:99-114, de.rs:127-142. *)
Definition unit_variant (v : variant) : res bytes :=
  match v_fields v with FieldsUnit => Ok (v_ident v) | _ => Err end.

(** *** Serialize *)
Inductive ser_code :=
(* match __state { index => Some((name, &self.data.field)), .. } *)
| SerStruct (arms : list (nat * (bytes * bytes)))
(* match self { Enum::Var => Fragment::Str(name), .. } *)
| SerEnum (arms : list (bytes * bytes)).

(** derive/src/ser.rs:36-87. [#(..)* ] repeats over index, fieldstr and fieldname together. *)
Definition ser_struct (fs : list field) : res ser_code :=
  let fieldname := map f_ident fs in
  let* fieldstr := collect (fun f => name_of (f_attrs f) (f_ident f)) fs in
  Ok (SerStruct (combine (seq 0 (List.length fs)) (combine fieldstr fieldname))).

(** derive/src/ser.rs:89-132. *)
Definition ser_enum (i : derive_input) (vs : list variant) : res ser_code :=
  if has_generics i || has_where i then Err else
  let* var_idents := collect unit_variant vs in
  let* names := collect (fun v => name_of (v_attrs v) (v_ident v)) vs in
  Ok (SerEnum (combine var_idents names)).

(** derive/src/ser.rs:18-34. Err means that the macro expands to a compile_error!
    (derive/src/fallback.rs). *)
Definition derive_ser (i : derive_input) : res ser_code :=
  match i_data i with
  | DataStruct (FieldsNamed fs) => ser_struct fs
  | DataEnum vs => ser_enum i vs
  | DataStruct _ => Err
  | DataUnion => Err
  end.

(** *** Deserialize *)
Inductive de_code :=
| DeStruct
    (slots : list (bytes * ty))        (* struct __State { field: Option<ty>, .. }, initially
                                          Deserialize::default() *)
    (key_arms : list (bytes * bytes))  (* match __k { name => begin(&mut self.field), .. } *)
    (takes : list bytes)               (* let field = self.field.take().ok_or(Error)?; .. *)
    (ctor : list bytes)                (* Ident { field, .. } *)
(* match s { name => Enum::Var, .. _ => Err } *)
| DeEnum (arms : list (bytes * bytes)).

(** derive/src/de.rs:36-115. *)
Definition de_struct (fs : list field) : res de_code :=
  let fieldname := map f_ident fs in
  let fieldty := map f_ty fs in
  let* fieldstr := collect (fun f => name_of (f_attrs f) (f_ident f)) fs in
  Ok (DeStruct (combine fieldname fieldty) (combine fieldstr fieldname) fieldname fieldname).

(** derive/src/de.rs:117-176. *)
Definition de_enum (i : derive_input) (vs : list variant) : res de_code :=
  if has_generics i || has_where i then Err else
  let* var_idents := collect unit_variant vs in
  let* names := collect (fun v => name_of (v_attrs v) (v_ident v)) vs in
  Ok (DeEnum (combine names var_idents)).

(** derive/src/de.rs:18-34. *)
Definition derive_de (i : derive_input) : res de_code :=
  match i_data i with
  | DataStruct (FieldsNamed fs) => de_struct fs
  | DataEnum vs => de_enum i vs
  | DataStruct _ => Err
  | DataUnion => Err
  end.

(** ** What the generated code does. A match takes the first arm that matches; a struct is
    accessed by field identifier. *)
Fixpoint match_nat {A} (n : nat) (arms : list (nat * A)) : option A :=
  match arms with
  | [] => None
  | (p, a) :: r => if Nat.eqb n p then Some a else match_nat n r
  end.
Fixpoint match_str {A} (s : bytes) (arms : list (bytes * A)) : option A :=
  match arms with
  | [] => None
  | (p, a) :: r => if bytes_eqb s p then Some a else match_str s r
  end.

(** __Map::next, derive/src/ser.rs:71-83: the key, and the field that is borrowed. *)
Definition gen_next {V} (arms : list (nat * (bytes * bytes))) (data : list (bytes * V)) (state : nat)
  : option (bytes * V) :=
  match match_nat state arms with
  | Some (name, fld) => option_map (pair name) (match_str fld data)
  | None => None
  end.

(** begin, derive/src/ser.rs:120-128: the string for a variant. *)
Definition gen_variant_name (arms : list (bytes * bytes)) (var : bytes) : option bytes := match_str var arms.

(** __State::key, derive/src/de.rs:92-99: the field that is begun; None means ignore. *)
Definition gen_key (arms : list (bytes * bytes)) (k : bytes) : option bytes := match_str k arms.

(** self.field.take(). *)
Fixpoint take_slot {V} (fld : bytes) (slots : list (bytes * option V)) : option V * list (bytes * option V) :=
  match slots with
  | [] => (None, [])
  | (n, o) :: r =>
      if bytes_eqb fld n then (o, (n, None) :: r)
      else let '(x, r') := take_slot fld r in (x, (n, o) :: r')
  end.
(** let field = self.field.take().ok_or(Error)?; .. , derive/src/de.rs:102-104: the local
    variables bound, and the state left behind. *)
Fixpoint gen_takes {V} (takes : list bytes) (slots : list (bytes * option V))
  : option (list (bytes * V)) * list (bytes * option V) :=
  match takes with
  | [] => (Some [], slots)
  | fld :: r =>
      match take_slot fld slots with
      | (None, s1) => (None, s1)
      | (Some v, s1) => let '(l, s2) := gen_takes r s1 in (option_map (cons (fld, v)) l, s2)
      end
  end.
(** Ident { field, .. }, derive/src/de.rs:105-109: every field from the variable of the same
    name. *)
Fixpoint gen_ctor {V} (ctor : list bytes) (vars : list (bytes * V)) : option (list (bytes * V)) :=
  match ctor with
  | [] => Some []
  | fld :: r =>
      match match_str fld vars, gen_ctor r vars with
      | Some v, Some l => Some ((fld, v) :: l)
      | _, _ => None
      end
  end.
(** __State::finish, derive/src/de.rs:101-111: None is Err. *)
Definition gen_finish {V} (takes ctor : list bytes) (slots : list (bytes * option V))
  : option (list (bytes * V)) * list (bytes * option V) :=
  let '(vars, s1) := gen_takes takes slots in
  (match vars with Some vars => gen_ctor ctor vars | None => None end, s1).

(** string, derive/src/de.rs:165-172: the variant; None is Err. *)
Definition gen_variant (arms : list (bytes * bytes)) (s : bytes) : option bytes := match_str s arms.

(** ** The declaration Ser.v and Impls.v work with: wire names and types by position. *)
Definition decl_of (i : derive_input) : res decl :=
  match i_data i with
  | DataStruct (FieldsNamed fs) =>
      let* names := collect (fun f => name_of (f_attrs f) (f_ident f)) fs in
      Ok (DStruct (combine names (map f_ty fs)))
  | DataEnum vs =>
      let* names := collect (fun v => name_of (v_attrs v) (v_ident v)) vs in
      Ok (DEnum names)
  | _ => Err
  end.
