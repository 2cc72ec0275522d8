(** Ownership of the storage of json::Value, Array and Object: the hand-written Drop impls,
    the unsafe `take`, into_iter, FromIterator, Clone, driven by an arbitrary safe client.

    A label stands for a resource that must be released exactly once: a scalar value, the
    buffer of a Vec (None: no buffer yet), all nodes of a BTreeMap, a String used as key.
    Releasing a label twice, or using it after its release, is undefined behaviour.
    [k] is the native recursion budget, as in Impls.v. Values are moved bitwise: a copy made
    by ptr::read carries the same labels. Running out of memory is not modelled. *)
From Coq Require Import String ZArith List Bool Arith.
From Verif Require Import Base F64 Types.
Import ListNotations.

Inductive leafv := VNull | VBool (b : bool) | VNum (n : jnum) | VStr (s : bytes).
(** enum Value, json/value.rs:29-37; Array, json/array.rs:13-17; Object, json/object.rs:15-19 *)
Inductive lval :=
| LLeaf (i : nat) (v : leafv)
| LArr (b : option nat) (l : list lval)
| LObj (b : option nat) (l : list (nat * bytes * lval)).
(** Vec<Value> and its IntoIter; BTreeMap<String, Value> and its IntoIter, entries in order *)
Definition vec := (option nat * list lval)%type.
Notation entry := (nat * bytes * lval)%type.
Definition bmap := (option nat * list entry)%type.

(** Released labels, in order; next label. *)
Record mem := mkm { m_freed : list nat; m_next : nat }.
Definition M A := mem -> res (A * mem).
Definition ret {A} (a : A) : M A := fun w => Ok (a, w).
Definition bind {A B} (m : M A) (f : A -> M B) : M B := fun w =>
  match m w with
  | Ok (a, w') => f a w'
  | Err => Err
  | Fault e => Fault e
  end.
Notation "'do' x <- m ; f" := (bind m (fun x => f)) (at level 60, right associativity, x pattern).
Definition crash {A} (f : fault) : M A := fun _ => Fault f.
(** The client's program makes no sense (no such handle, not an array...). *)
Definition stuck {A} : M A := fun _ => Err.

Definition alloc : M nat := fun w => Ok (m_next w, mkm (m_freed w) (S (m_next w))).
Definition touch (b : option nat) : M unit := fun w =>
  match b with
  | Some i => if in_dec Nat.eq_dec i (m_freed w) then Fault FUB else Ok (tt, w)
  | None => Ok (tt, w)
  end.
Definition release (b : option nat) : M unit :=
  do _ <- touch b;
  fun w => Ok (tt, mkm (m_freed w ++ match b with Some i => [i] | None => [] end) (m_next w)).

Fixpoint each {A} (f : A -> M unit) (l : list A) : M unit :=
  match l with [] => ret tt | x :: l' => do _ <- f x; each f l' end.

(** ** The standard library's containers *)

(** Drop of a Vec<Value> or of its IntoIter: the (remaining) elements, then the buffer. *)
Definition vec_drop (glue : lval -> M unit) (v : vec) : M unit :=
  do _ <- each glue (snd v); release (fst v).
(** Drop of a BTreeMap<String, Value> or of its IntoIter *)
Definition map_drop (glue : lval -> M unit) (m : bmap) : M unit :=
  do _ <- each (fun e : entry => let '(ki, _, c) := e in do _ <- release (Some ki); glue c) (snd m);
  release (fst m).

Definition vec_push (x : lval) (v : vec) : M vec :=
  do _ <- touch (fst v);
  match fst v with
  | Some i => ret (Some i, snd v ++ [x])
  | None => do i <- alloc; ret (Some i, snd v ++ [x])
  end.
Fixpoint vec_extend (xs : list lval) (v : vec) : M vec :=
  match xs with [] => ret v | x :: xs' => do v' <- vec_push x v; vec_extend xs' v' end.
(** Vec::remove *)
Definition vec_remove (i : nat) (v : vec) : M (option lval * vec) :=
  do _ <- touch (fst v);
  match nth_error (snd v) i with
  | Some x => ret (Some x, (fst v, firstn i (snd v) ++ skipn (S i) (snd v)))
  | None => ret (None, v)
  end.
Definition vec_truncate (glue : lval -> M unit) (n : nat) (v : vec) : M vec :=
  do _ <- touch (fst v);
  do _ <- each glue (skipn n (snd v));
  ret (fst v, firstn n (snd v)).

(** BTreeMap::insert: an existing entry keeps its key. *)
Fixpoint ent_insert (ki : nat) (k : bytes) (c : lval) (l : list entry) : option lval * list entry :=
  match l with
  | [] => (None, [(ki, k, c)])
  | (ki', k', c') :: l' =>
      match bytes_cmp k k' with
      | Lt => (None, (ki, k, c) :: l)
      | Eq => (Some c', (ki', k', c) :: l')
      | Gt => let (o, r) := ent_insert ki k c l' in (o, (ki', k', c') :: r)
      end
  end.
Definition map_insert (k : bytes) (c : lval) (m : bmap) : M (option lval * bmap) :=
  do _ <- touch (fst m);
  do ki <- alloc;
  let (o, l) := ent_insert ki k c (snd m) in
  do _ <- match o with Some _ => release (Some ki) | None => ret tt end;
  match fst m with
  | Some i => ret (o, (Some i, l))
  | None => do i <- alloc; ret (o, (Some i, l))
  end.
(** BTreeMap::remove: the key is dropped. *)
Fixpoint ent_remove (k : bytes) (l : list entry) : option (nat * lval) * list entry :=
  match l with
  | [] => (None, [])
  | (ki', k', c') :: l' =>
      match bytes_cmp k k' with
      | Eq => (Some (ki', c'), l')
      | _ => let (o, r) := ent_remove k l' in (o, (ki', k', c') :: r)
      end
  end.
Definition map_remove (k : bytes) (m : bmap) : M (option lval * bmap) :=
  do _ <- touch (fst m);
  match ent_remove k (snd m) with
  | (Some (ki, c), l) => do _ <- release (Some ki); ret (Some c, (fst m, l))
  | (None, l) => ret (None, (fst m, l))
  end.
(** BTreeMap::from_iter: of two entries with the same key the earlier one is dropped, key
    and value. *)
Fixpoint ent_replace (ki : nat) (k : bytes) (c : lval) (l : list entry) : option (nat * lval) * list entry :=
  match l with
  | [] => (None, [(ki, k, c)])
  | (ki', k', c') :: l' =>
      match bytes_cmp k k' with
      | Lt => (None, (ki, k, c) :: l)
      | Eq => (Some (ki', c'), (ki, k, c) :: l')
      | Gt => let (o, r) := ent_replace ki k c l' in (o, (ki', k', c') :: r)
      end
  end.
Fixpoint ents_from_iter (glue : lval -> M unit) (xs : list (bytes * lval)) (l : list entry) : M (list entry) :=
  match xs with
  | [] => ret l
  | (k, c) :: xs' =>
      do ki <- alloc;
      let (o, l') := ent_replace ki k c l in
      do _ <- match o with Some (kj, old) => do _ <- release (Some kj); glue old | None => ret tt end;
      ents_from_iter glue xs' l'
  end.
Definition map_from_iter (glue : lval -> M unit) (xs : list (bytes * lval)) : M bmap :=
  do l <- ents_from_iter glue xs [];
  match l with [] => ret (None, []) | _ => do i <- alloc; ret (Some i, l) end.

(** ** Drop *)

(** A ManuallyDrop<Array> or ManuallyDrop<Object> going out of scope *)
Definition manually_drop {A} (x : A) : M unit := ret tt.
(** fn take, json/array.rs:25-28 *)
Definition take_array (array : vec) : M vec :=
  let inner := array (* ptr::read(&array.inner) *) in
  do _ <- manually_drop array; ret inner.
(** fn take, json/object.rs:29-32 *)
Definition take_object (object : bmap) : M bmap :=
  let inner := object in
  do _ <- manually_drop object; ret inner.

(** The number of nodes of a value, to bound the loop of drop::safely. *)
Fixpoint nodes (v : lval) : nat :=
  S (match v with
     | LLeaf _ _ => 0
     | LArr _ l => list_sum (map nodes l)
     | LObj _ l => list_sum (map (fun e => nodes (snd e)) l)
     end).

Fixpoint push_children (l : list lval) (stack : list lval) : list lval :=
  match l with [] => stack | c :: l' => push_children l' (c :: stack) end.
(** `for (_, child) in map { stack.push(child); }`, json/drop.rs:19-22: the key is dropped. *)
Fixpoint push_entries (l : list entry) (stack : list lval) : M (list lval) :=
  match l with
  | [] => ret stack
  | (ki, _, c) :: l' => do _ <- release (Some ki); push_entries l' (c :: stack)
  end.
(** The loop of drop::safely, json/drop.rs:12-26; the head of [stack] is its top. At the
    end of a for loop its iterator, now empty, is dropped. *)
Fixpoint safely_loop (glue : lval -> M unit) (fuel : nat) (stack : list lval) : M unit :=
  match fuel with
  | O => crash FFuel
  | S f =>
      match stack with
      | [] => ret tt
      | LArr b l :: stack' =>
          do inner <- take_array (b, l);
          do _ <- touch (fst inner);
          let stack1 := push_children (snd inner) stack' in
          do _ <- vec_drop glue (fst inner, []);
          safely_loop glue f stack1
      | LObj b l :: stack' =>
          do inner <- take_object (b, l);
          do _ <- touch (fst inner);
          do stack1 <- push_entries (snd inner) stack';
          do _ <- map_drop glue (fst inner, []);
          safely_loop glue f stack1
      | value :: stack' => do _ <- glue value; safely_loop glue f stack'
      end
  end.
(** drop::safely, json/drop.rs:4-27 *)
Definition safely (glue : lval -> M unit) (value : lval) : M unit :=
  match value with
  | LLeaf _ _ => glue value
  | _ => safely_loop glue (S (nodes value)) [value]
  end.

(** Array::drop, json/array.rs:19-23: `self.inner.drain(..).for_each(drop::safely)`.
    Returns what is in `inner` afterwards. *)
Definition array_drop (glue : lval -> M unit) (inner : vec) : M vec :=
  do _ <- touch (fst inner);
  do _ <- each (safely glue) (snd inner);
  ret (fst inner, []).
(** Object::drop, json/object.rs:21-27 *)
Definition object_drop (glue : lval -> M unit) (inner : bmap) : M bmap :=
  let taken := inner (* mem::take *) in
  do _ <- touch (fst taken);
  do _ <- each (fun e : entry => let '(ki, _, c) := e in do _ <- safely glue c; release (Some ki)) (snd taken);
  do _ <- map_drop glue (fst taken, []);
  ret (None, []).

(** Drop glue of Value: Drop::drop of the Array or Object, then its field. Each is a native
    call. *)
Fixpoint glue (k : nat) (v : lval) : M unit :=
  match k with
  | O => crash FDeep
  | S k1 =>
      match v with
      | LLeaf i _ => release (Some i)
      | LArr b l =>
          match k1 with
          | S (S k3) => do inner <- array_drop (glue k3) (b, l); vec_drop (glue k3) inner
          | _ => crash FDeep
          end
      | LObj b l =>
          match k1 with
          | S (S k3) => do inner <- object_drop (glue k3) (b, l); map_drop (glue k3) inner
          | _ => crash FDeep
          end
      end
  end.

(** ** Clone: derive(Clone) for Value (json/value.rs:29), Clone for Array
    (json/array.rs:50-55), derive(Clone) for Object (json/object.rs:16). Cloning an empty
    container allocates nothing. *)
Fixpoint lclone (k : nat) (v : lval) : M lval :=
  match k with
  | O => crash FDeep
  | S k' =>
      match v with
      | LLeaf i x => do _ <- touch (Some i); do j <- alloc; ret (LLeaf j x)
      | LArr b l =>
          do _ <- touch b;
          do b' <- match l with [] => ret None | _ => do j <- alloc; ret (Some j) end;
          do l' <-
            (fix go (l : list lval) : M (list lval) :=
               match l with
               | [] => ret []
               | c :: r => do c' <- lclone k' c; do r' <- go r; ret (c' :: r')
               end) l;
          ret (LArr b' l')
      | LObj b l =>
          do _ <- touch b;
          do b' <- match l with [] => ret None | _ => do j <- alloc; ret (Some j) end;
          do l' <-
            (fix go (l : list entry) : M (list entry) :=
               match l with
               | [] => ret []
               | (ki, n, c) :: r =>
                   do _ <- touch (Some ki); do kj <- alloc;
                   do c' <- lclone k' c; do r' <- go r; ret ((kj, n, c') :: r')
               end) l;
          ret (LObj b' l')
      end
  end.

(** Array::clone_from, json/array.rs:57-59: Vec::clone_from truncates, overwrites the common
    part element by element (`*self = source.clone()`), and appends clones of the rest. *)
Fixpoint clone_over (k : nat) (tl sl : list lval) : M (list lval) :=
  match tl, sl with
  | t :: tl', s :: sl' =>
      do c <- lclone k s; do _ <- glue k t; do r <- clone_over k tl' sl'; ret (c :: r)
  | _, _ => ret tl
  end.
Definition clone_all (k : nat) : list lval -> M (list lval) :=
  fix go (sl : list lval) : M (list lval) :=
    match sl with [] => ret [] | s :: sl' => do c <- lclone k s; do r <- go sl'; ret (c :: r) end.
Definition array_clone_from (k : nat) (target : vec) (source : list lval) : M vec :=
  do t1 <- vec_truncate (glue k) (length source) target;
  let n := length (snd t1) in
  do l1 <- clone_over k (snd t1) (firstn n source);
  do l2 <- clone_all k (skipn n source);
  vec_extend l2 (fst t1, l1).

(** ** The client *)

(** &mut to the value at a path: indices of array elements or object entries *)
Fixpoint at_path {A} (f : lval -> M (A * lval)) (p : list nat) (v : lval) : M (A * lval) :=
  match p with
  | [] => f v
  | i :: p' =>
      match v with
      | LLeaf _ _ => stuck
      | LArr b l =>
          do _ <- touch b;
          match nth_error l i with
          | None => stuck
          | Some c => do (a, c') <- at_path f p' c; ret (a, LArr b (firstn i l ++ c' :: skipn (S i) l))
          end
      | LObj b l =>
          do _ <- touch b;
          match nth_error l i with
          | None => stuck
          | Some (ki, n, c) =>
              do (a, c') <- at_path f p' c; ret (a, LObj b (firstn i l ++ (ki, n, c') :: skipn (S i) l))
          end
      end
  end.

(** What the client owns: values, iterators made by into_iter *)
Inductive handle := HVal (v : lval) | HVec (v : vec) | HMap (m : bmap).

Inductive pop :=
| PLeaf (v : leafv)                                  (* Value::Null, Value::String(..)... *)
| PArr | PObj                                        (* Array::new, Object::new *)
| PPush (h : nat) (p : list nat) (h2 : nat)          (* array.push(v) *)
| PRemoveAt (h : nat) (p : list nat) (i : nat)       (* array.remove(i), pop(): None if there is no such element *)
| PTruncate (h : nat) (p : list nat) (n : nat)       (* array.truncate(n) *)
| PInsert (h : nat) (p : list nat) (k : bytes) (h2 : nat) (* object.insert(k, v) *)
| PRemove (h : nat) (p : list nat) (k : bytes)       (* object.remove(k) *)
| PClear (h : nat) (p : list nat)                    (* array.clear(), object.clear() *)
| PReplace (h : nat) (p : list nat) (h2 : nat)       (* mem::replace(place, v) *)
| PAssign (h : nat) (p : list nat) (h2 : nat)        (* *place = v *)
| PIter (h : nat)                                    (* into_iter() *)
| PNext (h : nat) | PNextBack (h : nat)
| PCollectA (hs : list nat)                          (* Array::from_iter *)
| PCollectO (xs : list (bytes * nat))                (* Object::from_iter *)
| PClone (h : nat) (p : list nat)
| PCloneFrom (h : nat) (p : list nat) (h2 : nat) (p2 : list nat)
| PDrop (h : nat) | PForget (h : nat).

(** Slots of the client (None: moved out, dropped), memory, labels lost by mem::forget
    (bookkeeping). Every operation that yields something appends a slot. *)
Record state := mks { s_slots : list (option handle); s_mem : mem; s_lost : list nat }.
Definition init : state := mks [] (mkm [] 0) [].

Definition set_slot (h : nat) (o : option handle) (sl : list (option handle)) :=
  firstn h sl ++ o :: skipn (S h) sl.
Definition get (h : nat) (sl : list (option handle)) : M (handle * list (option handle)) :=
  match nth_error sl h with
  | Some (Some x) => ret (x, set_slot h None sl)
  | _ => stuck
  end.
Definition get_val (h : nat) (sl : list (option handle)) : M (lval * list (option handle)) :=
  do (x, sl') <- get h sl; match x with HVal v => ret (v, sl') | _ => stuck end.
(** Run f on the value at a path of handle h, in place. *)
Definition modify {A} (h : nat) (p : list nat) (f : lval -> M (A * lval)) (sl : list (option handle))
  : M (A * list (option handle)) :=
  do (v, sl') <- get_val h sl;
  do (a, v') <- at_path f p v;
  ret (a, set_slot h (Some (HVal v')) sl').
Fixpoint get_vals (hs : list nat) (sl : list (option handle)) : M (list lval * list (option handle)) :=
  match hs with
  | [] => ret ([], sl)
  | h :: hs' => do (v, sl1) <- get_val h sl; do (vs, sl2) <- get_vals hs' sl1; ret (v :: vs, sl2)
  end.

Definition oval (o : option lval) : option handle := match o with Some v => Some (HVal v) | None => None end.

(** Labels *)
Definition olab (b : option nat) : list nat := match b with Some i => [i] | None => [] end.
Fixpoint labs (v : lval) : list nat :=
  match v with
  | LLeaf i _ => [i]
  | LArr b l => olab b ++ flat_map labs l
  | LObj b l => olab b ++ flat_map (fun e => fst (fst e) :: labs (snd e)) l
  end.
Definition hlabs (x : handle) : list nat :=
  match x with HVal v => labs v | HVec (b, l) => labs (LArr b l) | HMap (b, l) => labs (LObj b l) end.
Definition slabs (sl : list (option handle)) : list nat :=
  flat_map (fun o => match o with Some x => hlabs x | None => [] end) sl.

Definition drop_handle (k : nat) (x : handle) : M unit :=
  match x with HVal v => glue k v | HVec v => vec_drop (glue k) v | HMap m => map_drop (glue k) m end.

(** One operation on the slots. *)
Definition exec (k : nat) (op : pop) (sl : list (option handle)) : M (list (option handle)) :=
  match op with
  | PLeaf v => do i <- alloc; ret (sl ++ [Some (HVal (LLeaf i v))])
  | PArr => ret (sl ++ [Some (HVal (LArr None []))])
  | PObj => ret (sl ++ [Some (HVal (LObj None []))])
  | PPush h p h2 =>
      do (x, sl1) <- get_val h2 sl;
      do (_, sl2) <- modify h p (fun v =>
        match v with LArr b l => do a <- vec_push x (b, l); ret (tt, LArr (fst a) (snd a)) | _ => stuck end) sl1;
      ret sl2
  | PRemoveAt h p i =>
      do (o, sl1) <- modify h p (fun v =>
        match v with LArr b l => do (o, a) <- vec_remove i (b, l); ret (o, LArr (fst a) (snd a)) | _ => stuck end) sl;
      ret (sl1 ++ [oval o])
  | PTruncate h p n =>
      do (_, sl1) <- modify h p (fun v =>
        match v with LArr b l => do a <- vec_truncate (glue k) n (b, l); ret (tt, LArr (fst a) (snd a)) | _ => stuck end) sl;
      ret sl1
  | PInsert h p key h2 =>
      do (x, sl1) <- get_val h2 sl;
      do (o, sl2) <- modify h p (fun v =>
        match v with LObj b l => do (o, m) <- map_insert key x (b, l); ret (o, LObj (fst m) (snd m)) | _ => stuck end) sl1;
      ret (sl2 ++ [oval o])
  | PRemove h p key =>
      do (o, sl1) <- modify h p (fun v =>
        match v with LObj b l => do (o, m) <- map_remove key (b, l); ret (o, LObj (fst m) (snd m)) | _ => stuck end) sl;
      ret (sl1 ++ [oval o])
  | PClear h p =>
      do (_, sl1) <- modify h p (fun v =>
        match v with
        | LArr b l => do a <- vec_truncate (glue k) 0 (b, l); ret (tt, LArr (fst a) (snd a))
        | LObj b l => do _ <- touch b; do _ <- map_drop (glue k) (b, l); ret (tt, LObj None [])
        | LLeaf _ _ => stuck
        end) sl;
      ret sl1
  | PReplace h p h2 =>
      do (x, sl1) <- get_val h2 sl;
      do (old, sl2) <- modify h p (fun v => ret (v, x)) sl1;
      ret (sl2 ++ [Some (HVal old)])
  | PAssign h p h2 =>
      do (x, sl1) <- get_val h2 sl;
      do (_, sl2) <- modify h p (fun v => do _ <- glue k v; ret (tt, x)) sl1;
      ret sl2
  | PIter h =>
      (* IntoIterator for Array, json/array.rs:61-68, and for Object, json/object.rs:55-62 *)
      do (x, sl1) <- get_val h sl;
      match x with
      | LArr b l => do v <- take_array (b, l); ret (sl1 ++ [Some (HVec v)])
      | LObj b l => do m <- take_object (b, l); ret (sl1 ++ [Some (HMap m)])
      | LLeaf _ _ => stuck
      end
  | PNext h =>
      do (x, sl1) <- get h sl;
      match x with
      | HVec (b, l) =>
          do _ <- touch b;
          match l with
          | [] => ret (set_slot h (Some x) sl1 ++ [None])
          | c :: l' => ret (set_slot h (Some (HVec (b, l'))) sl1 ++ [Some (HVal c)])
          end
      | HMap (b, l) =>
          do _ <- touch b;
          match l with
          | [] => ret (set_slot h (Some x) sl1 ++ [None])
          | (ki, _, c) :: l' => (* the client drops the key *)
              do _ <- release (Some ki);
              ret (set_slot h (Some (HMap (b, l'))) sl1 ++ [Some (HVal c)])
          end
      | HVal _ => stuck
      end
  | PNextBack h =>
      do (x, sl1) <- get h sl;
      match x with
      | HVec (b, l) =>
          do _ <- touch b;
          match rev l with
          | [] => ret (set_slot h (Some x) sl1 ++ [None])
          | c :: r => ret (set_slot h (Some (HVec (b, rev r))) sl1 ++ [Some (HVal c)])
          end
      | HMap (b, l) =>
          do _ <- touch b;
          match rev l with
          | [] => ret (set_slot h (Some x) sl1 ++ [None])
          | (ki, _, c) :: r =>
              do _ <- release (Some ki);
              ret (set_slot h (Some (HMap (b, rev r))) sl1 ++ [Some (HVal c)])
          end
      | HVal _ => stuck
      end
  | PCollectA hs =>
      (* FromIterator for Array, json/array.rs:88-97 *)
      do (vs, sl1) <- get_vals hs sl;
      do a <- vec_extend vs (None, []);
      ret (sl1 ++ [Some (HVal (LArr (fst a) (snd a)))])
  | PCollectO xs =>
      (* FromIterator for Object, json/object.rs:82-91 *)
      do (vs, sl1) <- get_vals (map snd xs) sl;
      do m <- map_from_iter (glue k) (combine (map fst xs) vs);
      ret (sl1 ++ [Some (HVal (LObj (fst m) (snd m)))])
  | PClone h p =>
      do (c, sl1) <- modify h p (fun v => do c <- lclone k v; ret (c, v)) sl;
      ret (sl1 ++ [Some (HVal c)])
  | PCloneFrom h p h2 p2 =>
      do (x, sl1) <- get_val h2 sl;
      do ((_, sl2), x') <- at_path (fun src =>
        do r <- modify h p (fun v =>
          match v, src with
          | LArr b l, LArr bs ss => do _ <- touch bs; do a <- array_clone_from k (b, l) ss; ret (tt, LArr (fst a) (snd a))
          | LObj _ _, LObj _ _ => (* the default: *self = source.clone() *)
              do c <- lclone k src; do _ <- glue k v; ret (tt, c)
          | _, _ => stuck
          end) sl1;
        ret (r, src)) p2 x;
      ret (set_slot h2 (Some (HVal x')) sl2)
  | PDrop h => do (x, sl1) <- get h sl; do _ <- drop_handle k x; ret sl1
  | PForget h => do (_, sl1) <- get h sl; ret sl1
  end.

Definition step (k : nat) (op : pop) (s : state) : res state :=
  match exec k op (s_slots s) (s_mem s) with
  | Ok (sl', w') =>
      Ok (mks sl' w' (s_lost s ++
            match op with
            | PForget h => match nth_error (s_slots s) h with Some (Some x) => hlabs x | _ => [] end
            | _ => []
            end))
  | Err => Err
  | Fault f => Fault f
  end.
Fixpoint run (k : nat) (prog : list pop) (s : state) : res state :=
  match prog with
  | [] => Ok s
  | op :: prog' => let* s' := step k op s in run k prog' s'
  end.
