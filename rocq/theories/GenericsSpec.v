(** C59: specification. What Rust makes of the header of a generic item: the arguments a
    type can be instantiated with, and for which of them an impl is available. Independent
    of the functions of Generics.v that build headers. *)
From Coq Require Import String ZArith List Bool.
From Verif Require Import Base Types Derive Generics.
Import ListNotations.
Open Scope nat_scope.

(** Generic arguments; [Ty], [Lt], [Cn] are the types, lifetimes and constants of a program. *)
Inductive garg (Ty Lt Cn : Type) := ALife (l : Lt) | AType (t : Ty) | AConst (c : Cn).
Arguments ALife {Ty Lt Cn}. Arguments AType {Ty Lt Cn}. Arguments AConst {Ty Lt Cn}.

(** The program: which lifetimes and types outlive which lifetimes, which types implement
    which traits, the constants of a type, and what the user's own bounds and predicates
    mean, given what the names of the parameters stand for. *)
Record world (B W C Ty Lt Cn : Type) := mk_world {
  lt_static : Lt;
  lt_outlives : Lt -> Lt -> Prop;
  ty_outlives : Ty -> Lt -> Prop;
  implements : Ty -> trait -> Prop;
  has_type : Cn -> C -> Prop;
  user_bound : (bytes -> option (garg Ty Lt Cn)) -> Ty -> B -> Prop;
  user_pred : (bytes -> option (garg Ty Lt Cn)) -> W -> Prop;
  field_ok : (bytes -> option (garg Ty Lt Cn)) -> bytes -> Prop  (* the type of a field of the item is well-formed *)
}.
Arguments lt_static {B W C Ty Lt Cn}. Arguments lt_outlives {B W C Ty Lt Cn}. Arguments ty_outlives {B W C Ty Lt Cn}.
Arguments implements {B W C Ty Lt Cn}. Arguments has_type {B W C Ty Lt Cn}. Arguments user_bound {B W C Ty Lt Cn}.
Arguments user_pred {B W C Ty Lt Cn}. Arguments field_ok {B W C Ty Lt Cn}.

(** The identifier of a parameter. *)
Definition param_name {B C D} (p : gparam B C D) : bytes :=
  match p with GLifetime x _ => x | GType x _ _ => x | GConst x _ _ => x end.

Section Spec.
Context {B W C D Ty Lt Cn : Type}.
Variable M : world B W C Ty Lt Cn.
Notation arg := (garg Ty Lt Cn).
Notation subst := (bytes -> option arg).
Notation param := (gparam B C D).
Notation pred := (wpred W).

Definition lifetime (s : subst) (l : bytes) : option Lt :=
  if list_eq_dec Z.eq_dec l (bs "'static") then Some (lt_static M)
  else match s l with Some (ALife a) => Some a | _ => None end.
(** Something holds of the lifetime called l. *)
Definition at_lifetime (s : subst) (l : bytes) (P : Lt -> Prop) : Prop := exists a, lifetime s l = Some a /\ P a.

(** The argument [a] given for the parameter [p] has the right kind and meets its bounds. *)
Definition meets (s : subst) (p : param) (a : arg) : Prop :=
  match p, a with
  | GLifetime _ bounds, ALife x => Forall (fun l => at_lifetime s l (lt_outlives M x)) bounds
  | GType _ bounds _, AType t =>
      Forall (fun b => match b with BLifetime l => at_lifetime s l (ty_outlives M t) | BUser b => user_bound M s t b end) bounds
  | GConst _ c _, AConst n => has_type M n c
  | _, _ => False
  end.
Definition pred_holds (s : subst) (w : pred) : Prop :=
  match w with
  | WUser w => user_pred M s w
  | WImpl x t => exists ty, s x = Some (AType ty) /\ implements M ty t
  end.
Definition where_holds (s : subst) (w : option (list pred)) : Prop :=
  match w with None => True | Some ps => Forall (pred_holds s) ps end.

(** With the arguments [args] for the parameters, all bounds and predicates hold; the names
    stand for the arguments, and nothing else has a name. *)
Definition given (ps : list param) (args : list arg) (s : subst) : Prop :=
  Forall2 (fun p a => s (param_name p) = Some a) ps args /\ (forall x, ~ In x (map param_name ps) -> s x = None).
Definition admits (ps : list param) (w : option (list pred)) (args : list arg) : Prop :=
  exists s, given ps args s /\ Forall2 (meets s) ps args /\ where_holds s w.

(** impl<ps> T for Self<names> where w applies to Self<args>: some choice of arguments for
    ps makes the names the arguments and meets the bounds. *)
Definition applies (ps : list param) (names : list bytes) (w : option (list pred)) (args : list arg) : Prop :=
  exists qs s, given ps qs s /\ Forall2 (meets s) ps qs /\ where_holds s w /\ Forall2 (fun x a => s x = Some a) names args.
(** Self<args>: T. *)
Definition available (items : list (item B W C D)) (t : trait) (self : bytes) (args : list arg) : Prop :=
  exists ps names w, In (IImpl ps t self names w) items /\ applies ps names w args.

(** A legal item: the parameters have distinct names other than 'static, lifetimes come
    first, and there are none without <. *)
Fixpoint lifetimes_first (ps : list param) : Prop :=
  match ps with
  | [] => True
  | GLifetime _ _ :: ps' => lifetimes_first ps'
  | _ :: ps' => Forall (fun p => match p with GLifetime _ _ => False | _ => True end) ps'
  end.
Definition legal (g : generics B W C D) : Prop :=
  NoDup (map param_name (g_params g)) /\ ~ In (bs "'static") (map param_name (g_params g)) /\ lifetimes_first (g_params g) /\
  (g_lt g = false -> g_params g = []).
(** The instances of the item that are types. *)
Definition instance (g : generics B W C D) (args : list arg) : Prop := admits (g_params g) (g_where g) args.

(** The type arguments implement the trait; everything lives as long as [l]. *)
Definition all_implement (t : trait) (args : list arg) : Prop := forall ty, In (AType ty) args -> implements M ty t.
Definition all_outlive (l : Lt) (args : list arg) : Prop :=
  forall a, In a args -> match a with ALife x => lt_outlives M x l | AType ty => ty_outlives M ty l | AConst _ => True end.

(** Names are resolved lexically: the bounds only mention the parameters of the item and
    'static, and what the user's bounds, predicates and field types mean only depends on what
    these stand for. *)
Definition in_scope (g : generics B W C D) (x : bytes) : Prop := In x (map param_name (g_params g)).
Definition closed (g : generics B W C D) : Prop :=
  (forall p, In p (g_params g) -> match p with
     | GLifetime _ bounds => forall l, In l bounds -> in_scope g l \/ l = bs "'static"
     | GType _ bounds _ => forall l, In (BLifetime l) bounds -> in_scope g l \/ l = bs "'static"
     | GConst _ _ _ => True end) /\
  (forall ps x t, g_where g = Some ps -> In (WImpl x t) ps -> in_scope g x).
Definition scoped (g : generics B W C D) : Prop :=
  forall s s', (forall x, in_scope g x -> s x = s' x) ->
    (forall t b, user_bound M s t b -> user_bound M s' t b) /\ (forall w, user_pred M s w -> user_pred M s' w) /\
    (forall f, field_ok M s f -> field_ok M s' f).

(** A type of a field of a helper struct is well-formed; it outlives l. *)
Fixpoint named_args (s : subst) (names : list bytes) : option (list arg) :=
  match names with
  | [] => Some []
  | x :: r => match s x, named_args s r with Some a, Some l => Some (a :: l) | _, _ => None end
  end.
Fixpoint h_outlives (s : subst) (t : hty) (l : Lt) : Prop :=
  match t with
  | HUsize => True
  | HSelf names => exists args, named_args s names = Some args /\ all_outlive l args
  | HOption t => h_outlives s t l
  | HRef a t => at_lifetime s a (fun a => lt_outlives M a l) /\ h_outlives s t l
  | HField _ => False
  end.
Fixpoint h_ok (g : generics B W C D) (s : subst) (t : hty) : Prop :=
  match t with
  | HUsize => True
  | HSelf names => exists args, named_args s names = Some args /\ instance g args
  | HOption t => h_ok g s t
  | HRef l t => h_ok g s t /\ at_lifetime s l (h_outlives s t)
  | HField f => field_ok M s f
  end.
End Spec.
