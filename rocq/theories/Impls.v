(** The Deserialize impls: src/de/impls.rs, src/json/{value,number,array,object}.rs,
    src/ignore.rs and the code generated by derive/src/de.rs, over an explicit heap.

    Places (src/place.rs) are raw pointers to `Option<T>` slots. Every builder box is
    one heap allocation whose `Option` fields are its slots; a place is (allocation,
    slot, number of `Some`s to descend: the visitor of Option<T> hands out
    `self.out.as_mut().unwrap()`, a pointer into the payload of a `Some`). Using a
    released allocation, descending through `None`, releasing twice and reading an
    uninitialised array element are [Fault FUB]. The lifetime transmutes of
    src/careful.rs and NonuniqueBox (src/ptr.rs) have no other effect here.

    [k] is the native recursion budget: a method that calls the same method of a
    wrapped type passes k-1 and faults with [FDeep] at 0. *)
From Coq Require Import String ZArith List Bool Floats.SpecFloat.
From Verif Require Import Base Utf8 F64 Lexer Driver Types.
Import ListNotations.
Open Scope Z_scope.

Record place := mkplace { p_loc : nat; p_slot : nat; p_depth : nat }.

(** &mut dyn Visitor: a place together with the vtable of Place<T>, or the static IGNORE. *)
Inductive vh := VhPlace (p : place) (t : ty) | VhIgnore.

(** Box<dyn Seq> / Box<dyn Map>: an allocation, or the zero-sized Box<Ignore>. *)
Inductive bh := BhIgnore | BhAt (l : nat).

Inductive obj :=
(* `let mut out = None` in from_str and in Box's visitor methods (json/de.rs:34,
   de/impls.rs:171..206), NonuniqueBox<Option<T>> (de/impls.rs:213, 223) *)
| OCell (o : option val)
(* VecBuilder, de/impls.rs:431-435 *)
| OVec (t : ty) (out : place) (vec : list val) (element : option val)
(* ArrayBuilder, de/impls.rs:486-491; None = uninitialised or moved-out element *)
| OArr (t : ty) (n : nat) (out : place) (array : list (option val)) (alen : nat)
       (element : option val)
(* TupleBuilder, de/impls.rs:377-380 *)
| OTup (ta tb : ty) (out : place) (a b : option val)
(* MapBuilder, de/impls.rs:566-571, 635-640 *)
| OMap (k : kty) (t : ty) (out : place) (map : list (val * val)) (key value : option val)
(* ArrayBuilder of json::Value (isval) and json::Array, json/value.rs:125-129, array.rs:127-131 *)
| OJArr (isval : bool) (out : place) (array : list jval) (element : option val)
(* ObjectBuilder of json::Value (isval) and json::Object, json/value.rs:152-157, object.rs:131-136 *)
| OJObj (isval : bool) (out : place) (object : list (bytes * jval)) (key : option bytes)
        (value : option val)
(* __State, derive/src/de.rs:84-89 *)
| OStruct (fs : list (bytes * ty)) (out : place) (fields : list (option val))
(* BoxSeq, BoxMap, de/impls.rs:233-238, 262-267 *)
| OBoxSeq (out : place) (value : nat) (seq : bh)
| OBoxMap (out : place) (value : nat) (map : bh).

(** None = released allocation; addresses are never reused. *)
Definition heap := list (option obj).

Definition M (A : Type) := heap -> res A * heap.
Definition ret {A} (a : A) : M A := fun h => (Ok a, h).
Definition throw {A} : M A := fun h => (Err, h).
Definition crash {A} (f : fault) : M A := fun h => (Fault f, h).
Definition mbind {A B} (m : M A) (f : A -> M B) : M B := fun h =>
  match m h with
  | (Ok a, h') => f a h'
  | (Err, h') => (Err, h')
  | (Fault e, h') => (Fault e, h')
  end.
Notation "'do' x <- m ; k" := (mbind m (fun x => k))
  (at level 200, x pattern, m at level 100, k at level 200, right associativity).

Fixpoint upd {A} (l : list A) (i : nat) (a : A) : list A :=
  match l, i with
  | [], _ => []
  | _ :: l', O => a :: l'
  | x :: l', S i' => x :: upd l' i' a
  end.

Definition malloc (o : obj) : M nat := fun h => (Ok (length h), h ++ [Some o]).
Definition mget (l : nat) : M obj := fun h =>
  match nth_error h l with Some (Some o) => (Ok o, h) | _ => (Fault FUB, h) end.
Definition mset (l : nat) (o : obj) : M unit := fun h =>
  match nth_error h l with Some (Some _) => (Ok tt, upd h l (Some o)) | _ => (Fault FUB, h) end.
Definition mfree (l : nat) : M unit := fun h =>
  match nth_error h l with Some (Some _) => (Ok tt, upd h l None) | _ => (Fault FUB, h) end.

(** The `Option` fields of an allocation that places can point to. *)
Definition get_slot (o : obj) (i : nat) : option (option val) :=
  match o, i with
  | OCell x, O => Some x
  | OVec _ _ _ e, O => Some e
  | OArr _ _ _ _ _ e, O => Some e
  | OTup _ _ _ a _, O => Some a
  | OTup _ _ _ _ b, S O => Some b
  | OMap _ _ _ _ _ v, O => Some v
  | OJArr _ _ _ e, O => Some e
  | OJObj _ _ _ _ v, O => Some v
  | OStruct _ _ fields, i => nth_error fields i
  | _, _ => None
  end.

Definition set_slot (o : obj) (i : nat) (x : option val) : obj :=
  match o, i with
  | OCell _, O => OCell x
  | OVec t p v _, O => OVec t p v x
  | OArr t n p a l _, O => OArr t n p a l x
  | OTup ta tb p _ b, O => OTup ta tb p x b
  | OTup ta tb p a _, S O => OTup ta tb p a x
  | OMap k t p m key _, O => OMap k t p m key x
  | OJArr b p a _, O => OJArr b p a x
  | OJObj b p m key _, O => OJObj b p m key x
  | OStruct fs p fields, i => OStruct fs p (upd fields i x)
  | o, _ => o
  end.

(** Reading and writing the payload [d] levels of `Some` below an Option. *)
Fixpoint descend (d : nat) (o : option val) : option (option val) :=
  match d with
  | O => Some o
  | S d' =>
      match o with
      | Some VNone => descend d' None
      | Some (VSome v) => descend d' (Some v)
      | _ => None
      end
  end.
Definition embed (o : option val) : option val :=
  match o with None => Some VNone | Some v => Some (VSome v) end.
Fixpoint rebuild (d : nat) (o x : option val) : option (option val) :=
  match d with
  | O => Some x
  | S d' =>
      match o with
      | Some VNone => option_map embed (rebuild d' None x)
      | Some (VSome v) => option_map embed (rebuild d' (Some v) x)
      | _ => None
      end
  end.

Definition place_read (p : place) : M (option val) :=
  do o <- mget (p_loc p);
  match get_slot o (p_slot p) with
  | None => crash FUB
  | Some s =>
      match descend (p_depth p) s with
      | None => crash FUB
      | Some x => ret x
      end
  end.

Definition place_write (p : place) (x : option val) : M unit :=
  do o <- mget (p_loc p);
  match get_slot o (p_slot p) with
  | None => crash FUB
  | Some s =>
      match rebuild (p_depth p) s x with
      | None => crash FUB
      | Some s' => mset (p_loc p) (set_slot o (p_slot p) s')
      end
  end.

(** self.out.as_mut().unwrap() after `self.out = Some(None)`, de/impls.rs:316-350. *)
Definition inner_place (p : place) : place := mkplace (p_loc p) (p_slot p) (S (p_depth p)).
Definition slot0 (l : nat) : place := mkplace l 0 0.

Fixpoint find_name (k : bytes) (ns : list bytes) (i : nat) : option nat :=
  match ns with
  | [] => None
  | n :: ns' => if bytes_eqb k n then Some i else find_name k ns' (S i)
  end.

Section Impls.
Variable E : env.

(** Visitor methods for primitives of the types that write a value directly. The
    default methods (de/mod.rs:233-270) return Err. *)
Definition leaf_prim (t : ty) (ev : event) : res val :=
  match t, ev with
  | TUnit, ENull => Ok VUnit                              (* de/impls.rs:23-26 *)
  | TBool, EBool b => Ok (VBool b)                        (* de/impls.rs:38-41 *)
  | TString, EStr s => Ok (VStr s)                        (* de/impls.rs:53-56 *)
  | TInt true b, ENeg n =>                                (* de/impls.rs:70-77 *)
      if int_min true b <=? n then Ok (VInt (wrap_s b n)) else Err
  | TInt true b, ENonneg n =>                             (* de/impls.rs:79-86 *)
      if n <=? int_max true b then Ok (VInt (wrap_s b n)) else Err
  | TInt false b, ENonneg n =>                            (* de/impls.rs:107-114 *)
      if n <=? int_max false b then Ok (VInt (wrap_u b n)) else Err
  | TF32, ENeg n | TF32, ENonneg n => Ok (VF32 (f32_of_Z n)) (* de/impls.rs:135-143 *)
  | TF32, EFloat f => Ok (VF32 (f32_of_f64 f))            (* de/impls.rs:145-148 *)
  | TF64, ENeg n | TF64, ENonneg n => Ok (VF64 (f64_of_Z n))
  | TF64, EFloat f => Ok (VF64 f)
  | TValue, ENull => Ok (VJson JvNull)                    (* json/value.rs:77-105 *)
  | TValue, EBool b => Ok (VJson (JvBool b))
  | TValue, EStr s => Ok (VJson (JvStr s))
  | TValue, ENeg n => Ok (VJson (JvNum (NI64 n)))
  | TValue, ENonneg n => Ok (VJson (JvNum (NU64 n)))
  | TValue, EFloat f => Ok (VJson (JvNum (NF64 f)))
  | TNumber, ENeg n => Ok (VNum (NI64 n))                 (* json/number.rs:39-52 *)
  | TNumber, ENonneg n => Ok (VNum (NU64 n))
  | TNumber, EFloat f => Ok (VNum (NF64 f))
  | TNamed id, EStr s =>                                  (* derive/src/de.rs:165-172 *)
      match nth_error E id with
      | Some (DEnum ns) =>
          match find_name s ns 0 with Some i => Ok (VEnum i) | None => Err end
      | _ => Err
      end
  | _, _ => Err
  end.

(** null/boolean/string/negative/nonnegative/float on Place<T>. *)
Fixpoint vis_prim (k : nat) (t : ty) (p : place) (ev : event) : M unit :=
  match k with
  | O => crash FDeep
  | S k' =>
      match t with
      | TOption t' =>                                     (* de/impls.rs:311-339 *)
          match ev with
          | ENull => place_write p (Some VNone)
          | _ =>
              do _ <- place_write p (Some VNone);
              vis_prim k' t' (inner_place p) ev
          end
      | TBox t' =>                                        (* de/impls.rs:170-210 *)
          do c <- malloc (OCell None);
          fun h =>
            match vis_prim k' t' (slot0 c) ev h with
            | (Ok _, h1) =>
                (do o <- place_read (slot0 c);
                 match o with
                 | None => crash FPanic
                 | Some v =>
                     do _ <- mfree c;
                     place_write p (Some (VBox v))
                 end) h1
            | (Err, h1) => (do _ <- mfree c; throw) h1
            | (Fault e, h1) => (Fault e, h1)
            end
      | _ =>
          match leaf_prim t ev with
          | Ok v => place_write p (Some v)
          | Err => throw
          | Fault e => crash e
          end
      end
  end.

(** Visitor::seq on Place<T>. *)
Fixpoint vis_seq (k : nat) (t : ty) (p : place) : M bh :=
  match k with
  | O => crash FDeep
  | S k' =>
      match t with
      | TOption t' =>                                     (* de/impls.rs:341-344 *)
          do _ <- place_write p (Some VNone);
          vis_seq k' t' (inner_place p)
      | TBox t' =>                                        (* de/impls.rs:212-220 *)
          do c <- malloc (OCell None);
          fun h =>
            match vis_seq k' t' (slot0 c) h with
            | (Ok s, h1) => (do l <- malloc (OBoxSeq p c s); ret (BhAt l)) h1
            | (Err, h1) => (do _ <- mfree c; throw) h1
            | (Fault e, h1) => (Fault e, h1)
            end
      | TPair a b => do l <- malloc (OTup a b p None None); ret (BhAt l) (* de/impls.rs:369-374 *)
      | TVec t' => do l <- malloc (OVec t' p [] None); ret (BhAt l)      (* de/impls.rs:422-428 *)
      | TArr t' n =>                                                     (* de/impls.rs:476-483 *)
          do l <- malloc (OArr t' n p (repeat None n) 0 None); ret (BhAt l)
      | TValue => do l <- malloc (OJArr true p [] None); ret (BhAt l)    (* json/value.rs:107-113 *)
      | TArray => do l <- malloc (OJArr false p [] None); ret (BhAt l)   (* json/array.rs:118-124 *)
      | _ => throw                                        (* de/mod.rs:263-265 *)
      end
  end.

(** Deserialize::default(): None except for Option<T> (de/mod.rs:225-227, de/impls.rs:300-302). *)
Definition default_slot (t : ty) : option val :=
  match t with TOption _ => Some VNone | _ => None end.

(** Visitor::map on Place<T>. *)
Fixpoint vis_map (k : nat) (t : ty) (p : place) : M bh :=
  match k with
  | O => crash FDeep
  | S k' =>
      match t with
      | TOption t' =>                                     (* de/impls.rs:346-349 *)
          do _ <- place_write p (Some VNone);
          vis_map k' t' (inner_place p)
      | TBox t' =>                                        (* de/impls.rs:222-230 *)
          do c <- malloc (OCell None);
          fun h =>
            match vis_map k' t' (slot0 c) h with
            | (Ok s, h1) => (do l <- malloc (OBoxMap p c s); ret (BhAt l)) h1
            | (Err, h1) => (do _ <- mfree c; throw) h1
            | (Fault e, h1) => (Fault e, h1)
            end
      | TMap _ kt t' => do l <- malloc (OMap kt t' p [] None None); ret (BhAt l) (* de/impls.rs:556-563, 625-632 *)
      | TValue => do l <- malloc (OJObj true p [] None None); ret (BhAt l)   (* json/value.rs:115-122 *)
      | TObject => do l <- malloc (OJObj false p [] None None); ret (BhAt l) (* json/object.rs:121-128 *)
      | TNamed id =>                                      (* derive/src/de.rs:74-81 *)
          match nth_error E id with
          | Some (DStruct fs) =>
              do l <- malloc (OStruct fs p (map (fun f => default_slot (snd f)) fs));
              ret (BhAt l)
          | _ => throw
          end
      | _ => throw                                        (* de/mod.rs:267-269 *)
      end
  end.

(** VecBuilder::shift, de/impls.rs:438-442. *)
Definition vec_shift (vec : list val) (element : option val) : list val :=
  match element with Some e => vec ++ [e] | None => vec end.

(** ArrayBuilder::shift, de/impls.rs:494-500: None when the array is full. *)
Definition arr_shift (array : list (option val)) (alen : nat) (element : option val)
  : option (list (option val) * nat) :=
  match element with
  | Some e =>
      if Nat.ltb alen (length array) then Some (upd array alen (Some e), S alen) else None
  | None => Some (array, alen)
  end.

(** shift of the map builders, de/impls.rs:578-582, 646-650. *)
Definition map_shift (m : list (val * val)) (key value : option val) : list (val * val) :=
  match key, value with Some k, Some v => minsert key_cmp k v m | _, _ => m end.

(** shift of the json array and object builders, json/value.rs:132-136, 160-164,
    array.rs:134-138, object.rs:139-143. A slot of type Option<Value> only ever holds
    a [VJson]. *)
Definition jarr_shift (a : list jval) (element : option val) : res (list jval) :=
  match element with
  | Some (VJson j) => Ok (a ++ [j])
  | Some _ => Fault FUB
  | None => Ok a
  end.
Definition jobj_shift (m : list (bytes * jval)) (key : option bytes) (value : option val)
  : res (list (bytes * jval)) :=
  match key, value with
  | Some k, Some (VJson j) => Ok (minsert bytes_cmp k j m)
  | Some _, Some _ => Fault FUB
  | _, _ => Ok m
  end.

Definition lift {A} (r : res A) : M A := fun h => (r, h).

(** Seq::element. *)
Fixpoint seq_element (k : nat) (s : bh) : M vh :=
  match k with
  | O => crash FDeep
  | S k' =>
      match s with
      | BhIgnore => ret VhIgnore                          (* ignore.rs:55-57 *)
      | BhAt l =>
          do o <- mget l;
          match o with
          | OVec t p vec e =>                             (* de/impls.rs:449-452 *)
              do _ <- mset l (OVec t p (vec_shift vec e) None);
              ret (VhPlace (slot0 l) t)
          | OArr t n p a alen e =>                        (* de/impls.rs:507-510 *)
              match arr_shift a alen e with
              | None => do _ <- mset l (OArr t n p a alen None); throw
              | Some (a', alen') =>
                  do _ <- mset l (OArr t n p a' alen' None);
                  ret (VhPlace (slot0 l) t)
              end
          | OTup ta tb p a b =>                           (* de/impls.rs:387-395 *)
              match a with
              | None => ret (VhPlace (mkplace l 0 0) ta)
              | Some _ =>
                  match b with
                  | None => ret (VhPlace (mkplace l 1 0) tb)
                  | Some _ => throw
                  end
              end
          | OJArr isval p a e =>                          (* json/value.rs:140-143, array.rs:142-145 *)
              do a' <- lift (jarr_shift a e);
              do _ <- mset l (OJArr isval p a' None);
              ret (VhPlace (slot0 l) TValue)
          | OBoxSeq _ _ s' => seq_element k' s'           (* de/impls.rs:250-252 *)
          | _ => crash FUB                                (* not a Seq: vtable mismatch *)
          end
      end
  end.

(** array[..len] must be initialised; used when dropping, de/impls.rs:528-534. *)
Fixpoint all_init (l : list (option val)) : bool :=
  match l with [] => true | Some _ :: l' => all_init l' | None :: _ => false end.

Fixpoint read_all (l : list (option val)) : option (list val) :=
  match l with
  | [] => Some []
  | Some v :: l' => option_map (cons v) (read_all l')
  | None :: _ => None
  end.

(** Drop glue of Box<dyn Seq>. BoxSeq: its Drop impl drops the inner seq
    (de/impls.rs:240-244), then its NonuniqueBox field is released, then the box.
    ArrayBuilder drops its initialised elements (de/impls.rs:528-534). *)
Fixpoint seq_drop (k : nat) (s : bh) : M unit :=
  match k with
  | O => crash FDeep
  | S k' =>
      match s with
      | BhIgnore => ret tt
      | BhAt l =>
          do o <- mget l;
          match o with
          | OVec _ _ _ _ | OTup _ _ _ _ _ | OJArr _ _ _ _ => mfree l
          | OArr _ _ _ a alen _ =>
              do init <- lift (slice a 0 alen);
              if all_init init then mfree l else crash FUB
          | OBoxSeq _ c s' =>
              do _ <- seq_drop k' s';
              do _ <- mfree c;
              mfree l
          | _ => crash FUB
          end
      end
  end.

Definition jarr_out (isval : bool) (a : list jval) : val :=
  if isval then VJson (JvArr a) else VJArr a.
Definition jobj_out (isval : bool) (m : list (bytes * jval)) : val :=
  if isval then VJson (JvObj m) else VJObj m.

(** Seq::finish. *)
Fixpoint seq_finish (k : nat) (s : bh) : M unit :=
  match k with
  | O => crash FDeep
  | S k' =>
      match s with
      | BhIgnore => ret tt                                (* ignore.rs:59-61 *)
      | BhAt l =>
          do o <- mget l;
          match o with
          | OVec t p vec e =>                             (* de/impls.rs:454-458 *)
              do _ <- mset l (OVec t p [] None);
              place_write p (Some (VSeq (vec_shift vec e)))
          | OArr t n p a alen e =>                        (* de/impls.rs:512-525 *)
              match arr_shift a alen e with
              | None => do _ <- mset l (OArr t n p a alen None); throw
              | Some (a', alen') =>
                  do _ <- mset l (OArr t n p a' alen' None);
                  if Nat.ltb alen' n then throw else
                  do _ <- place_write p None;
                  match read_all a' with
                  | None => crash FUB
                  | Some vs =>
                      do _ <- place_write p (Some (VSeq vs));
                      mset l (OArr t n p (repeat None n) 0 None)
                  end
              end
          | OTup ta tb p a b =>                           (* de/impls.rs:397-404 *)
              do _ <- mset l (OTup ta tb p None None);
              match a, b with
              | Some va, Some vb => place_write p (Some (VPair va vb))
              | _, _ => throw
              end
          | OJArr isval p a e =>                          (* json/value.rs:145-149, array.rs:147-151 *)
              do a' <- lift (jarr_shift a e);
              do _ <- mset l (OJArr isval p [] None);
              place_write p (Some (jarr_out isval a'))
          | OBoxSeq p c s' =>                             (* de/impls.rs:254-259 *)
              do _ <- seq_finish k' s';
              do _ <- seq_drop k' s';
              do _ <- mset l (OBoxSeq p c BhIgnore);
              do o' <- place_read (slot0 c);
              match o' with
              | None => crash FPanic
              | Some v =>
                  do _ <- place_write (slot0 c) None;
                  place_write p (Some (VBox v))
              end
          | _ => crash FUB
          end
      end
  end.

(** Map::key. *)
Fixpoint map_key (k : nat) (m : bh) (key : bytes) : M vh :=
  match k with
  | O => crash FDeep
  | S k' =>
      match m with
      | BhIgnore => ret VhIgnore                          (* ignore.rs:65-67 *)
      | BhAt l =>
          do o <- mget l;
          match o with
          | OMap kt t p mp ko vo =>                       (* de/impls.rs:591-598, 658-665 *)
              let mp' := map_shift mp ko vo in
              match key_from_str kt key with
              | None => do _ <- mset l (OMap kt t p mp' None None); throw
              | Some kv =>
                  do _ <- mset l (OMap kt t p mp' (Some kv) None);
                  ret (VhPlace (slot0 l) t)
              end
          | OJObj isval p mp ko vo =>                     (* json/value.rs:168-172, object.rs:147-151 *)
              do mp' <- lift (jobj_shift mp ko vo);
              do _ <- mset l (OJObj isval p mp' (Some key) None);
              ret (VhPlace (slot0 l) TValue)
          | OStruct fs p fields =>                        (* derive/src/de.rs:92-99 *)
              match find_name key (map fst fs) 0 with
              | Some i =>
                  match nth_error fs i with
                  | Some (_, t) => ret (VhPlace (mkplace l i 0) t)
                  | None => crash FUB
                  end
              | None => ret VhIgnore
              end
          | OBoxMap _ _ m' => map_key k' m' key           (* de/impls.rs:279-281 *)
          | _ => crash FUB
          end
      end
  end.

(** let f1 = self.f1.take().ok_or(Error)?; ..., derive/src/de.rs:102-104: the values
    if all are present, and the fields left behind. *)
Fixpoint take_fields (fields : list (option val)) : option (list val) * list (option val) :=
  match fields with
  | [] => (Some [], [])
  | None :: rest => (None, None :: rest)
  | Some v :: rest =>
      let '(r, rest') := take_fields rest in
      (option_map (cons v) r, None :: rest')
  end.

(** Drop glue of Box<dyn Map>; BoxMap as BoxSeq (de/impls.rs:269-273). *)
Fixpoint map_drop (k : nat) (m : bh) : M unit :=
  match k with
  | O => crash FDeep
  | S k' =>
      match m with
      | BhIgnore => ret tt
      | BhAt l =>
          do o <- mget l;
          match o with
          | OMap _ _ _ _ _ _ | OJObj _ _ _ _ _ | OStruct _ _ _ => mfree l
          | OBoxMap _ c m' =>
              do _ <- map_drop k' m';
              do _ <- mfree c;
              mfree l
          | _ => crash FUB
          end
      end
  end.

(** Map::finish. *)
Fixpoint map_finish (k : nat) (m : bh) : M unit :=
  match k with
  | O => crash FDeep
  | S k' =>
      match m with
      | BhIgnore => ret tt                                (* ignore.rs:69-71 *)
      | BhAt l =>
          do o <- mget l;
          match o with
          | OMap kt t p mp ko vo =>                       (* de/impls.rs:600-604, 667-671 *)
              do _ <- mset l (OMap kt t p [] None None);
              place_write p (Some (VMap (map_shift mp ko vo)))
          | OJObj isval p mp ko vo =>                     (* json/value.rs:174-178, object.rs:153-157 *)
              do mp' <- lift (jobj_shift mp ko vo);
              do _ <- mset l (OJObj isval p [] None None);
              place_write p (Some (jobj_out isval mp'))
          | OStruct fs p fields =>                        (* derive/src/de.rs:101-111 *)
              let '(r, fields') := take_fields fields in
              do _ <- mset l (OStruct fs p fields');
              match r with
              | None => throw
              | Some vs => place_write p (Some (VStruct vs))
              end
          | OBoxMap p c m' =>                             (* de/impls.rs:283-288 *)
              do _ <- map_finish k' m';
              do _ <- map_drop k' m';
              do _ <- mset l (OBoxMap p c BhIgnore);
              do o' <- place_read (slot0 c);
              match o' with
              | None => crash FPanic
              | Some v =>
                  do _ <- place_write (slot0 c) None;
                  place_write p (Some (VBox v))
              end
          | _ => crash FUB
          end
      end
  end.

(** Visitor methods through the trait object (ignore.rs:21-51 for VhIgnore). *)
Definition vis (k : nat) (v : vh) (ev : event) : M unit :=
  match v with VhIgnore => ret tt | VhPlace p t => vis_prim k t p ev end.

Definition heap_iface (k : nat) : iface heap vh bh bh := {|
  v_null := fun v => vis k v ENull;
  v_bool := fun v b => vis k v (EBool b);
  v_str := fun v s => vis k v (EStr s);
  v_neg := fun v n => vis k v (ENeg n);
  v_nonneg := fun v n => vis k v (ENonneg n);
  v_float := fun v f => vis k v (EFloat f);
  v_seq := fun v => match v with VhIgnore => ret BhIgnore | VhPlace p t => vis_seq k t p end;
  v_map := fun v => match v with VhIgnore => ret BhIgnore | VhPlace p t => vis_map k t p end;
  s_element := seq_element k;
  s_finish := seq_finish k;
  s_drop := seq_drop k;
  m_key := map_key k;
  m_finish := map_finish k;
  m_drop := map_drop k
|}.

(** json/de.rs:30-37: `let mut out = None; from_str_impl(j, T::begin(&mut out))?;
    out.ok_or(Error)`. Also returns the final heap; address 0 is `out`. *)
Definition from_str_heap (k : nat) (oc : bool) (t : ty) (j : bytes) : res val * heap :=
  let r := from_str_impl (heap_iface k) oc j (VhPlace (slot0 0) t) [Some (OCell None)] in
  (let* _ := fst r in
   let* o := fst (place_read (slot0 0) (snd r)) in
   match o with Some v => Ok v | None => Err end,
   snd r).

Definition from_str (k : nat) (oc : bool) (t : ty) (j : bytes) : res val :=
  fst (from_str_heap k oc t j).

End Impls.
