(** What a type reads from an event tree, as a total function (no heap, no builders). *)
From Coq Require Import String ZArith List Bool Lia Floats.SpecFloat.
From Verif Require Import Base Utf8 F64 Lexer Driver Grammar LexSpec Types Impls Tree DriverFacts.
Import ListNotations.
Open Scope Z_scope.

Section MapM.
Context {A B : Type}.
Variable f : A -> option B.
Fixpoint mapM (l : list A) : option (list B) :=
  match l with
  | [] => Some []
  | a :: l' => match f a, mapM l' with Some b, Some bs => Some (b :: bs) | _, _ => None end
  end.
End MapM.

Definition as_json (v : val) : option jval := match v with VJson j => Some j | _ => None end.
Definition obind {A B} (o : option A) (f : A -> option B) : option B :=
  match o with Some a => f a | None => None end.

Definition is_null (t : ptree) : bool := match t with PLeaf ENull => true | _ => false end.

(** Option<T> and Box<T> around a core type. *)
Fixpoint de_wrap (core : ty -> option val) (null : bool) (T : ty) : option val :=
  match T with
  | TOption T' => if null then Some VNone else option_map VSome (de_wrap core null T')
  | TBox T' => option_map VBox (de_wrap core null T')
  | _ => core T
  end.

Section Denote.
Variable E : env.

Section Children.
Variable rd : ptree -> ty -> option val.

Definition de_seq (T : ty) (items : list ptree) : option val :=
  match T with
  | TPair a b =>
      match items with
      | [x; y] => match rd x a, rd y b with Some va, Some vb => Some (VPair va vb) | _, _ => None end
      | _ => None
      end
  | TVec t => option_map VSeq (mapM (fun x => rd x t) items)
  | TArr t n =>
      if Nat.eqb (List.length items) n then option_map VSeq (mapM (fun x => rd x t) items) else None
  | TValue => option_map (fun l => VJson (JvArr l)) (mapM (fun x => obind (rd x TValue) as_json) items)
  | TArray => option_map VJArr (mapM (fun x => obind (rd x TValue) as_json) items)
  | _ => None
  end.

Definition de_jobj (members : list (bytes * ptree)) : option (list (bytes * jval)) :=
  option_map (fun kvs => fold_left (fun m kv => minsert bytes_cmp (fst kv) (snd kv) m) kvs [])
    (mapM (fun m : bytes * ptree =>
             option_map (fun j => (fst m, j)) (obind (rd (snd m) TValue) as_json)) members).

(** The fields after reading the members one after the other. *)
Section Fields.
Variable fs : list (bytes * ty).
Fixpoint de_fields (members : list (bytes * ptree)) (st : list (option val))
  : option (list (option val)) :=
  match members with
  | [] => Some st
  | (k, x) :: members' =>
      match find_name k (map fst fs) 0 with
      | Some i =>
          match nth_error fs i with
          | Some (_, t) =>
              match rd x t with
              | Some v => de_fields members' (upd st i (Some v))
              | None => None
              end
          | None => None
          end
      | None => if complete x then de_fields members' st else None
      end
  end.
End Fields.

Definition de_map (T : ty) (members : list (bytes * ptree)) : option val :=
  match T with
  | TMap _ K t =>
      option_map (fun kvs => VMap (fold_left (fun m kv => minsert key_cmp (fst kv) (snd kv) m) kvs []))
        (mapM (fun m : bytes * ptree =>
                 match key_from_str K (fst m), rd (snd m) t with
                 | Some k, Some v => Some (k, v)
                 | _, _ => None
                 end) members)
  | TValue => option_map (fun l => VJson (JvObj l)) (de_jobj members)
  | TObject => option_map VJObj (de_jobj members)
  | TNamed id =>
      match nth_error E id with
      | Some (DStruct fs) =>
          obind (de_fields fs members (map (fun f => default_slot (snd f)) fs)) (fun st =>
          option_map VStruct (read_all st))
      | _ => None
      end
  | _ => None
  end.
End Children.

Fixpoint de (t : ptree) (T : ty) {struct t} : option val :=
  de_wrap
    (fun T =>
       match t with
       | PBad => None
       | PLeaf ev => opt (leaf_prim E T ev)
       | PSeq items closed => if closed then de_seq de T items else None
       | PMap members closed => if closed then de_map de T members else None
       end)
    (is_null t) T.
End Denote.
