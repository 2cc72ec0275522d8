(** C55: specification. The same client programs on plain values, where dropping a value or
    an iterator is no action at all, arrays are lists and objects are key-sorted lists. *)
From Coq Require Import String ZArith List Bool Arith.
From Verif Require Import Base Types JsonOwn.
Import ListNotations.

(** What the client can see of its handles. *)
Inductive shandle := SVal (v : jval) | SVec (l : list jval) | SMap (l : list (bytes * jval)).
Definition sslots := list (option shandle).

Definition jleaf (v : leafv) : jval :=
  match v with VNull => JvNull | VBool b => JvBool b | VNum n => JvNum n | VStr s => JvStr s end.

Fixpoint seen (v : lval) : jval :=
  match v with
  | LLeaf _ x => jleaf x
  | LArr _ l => JvArr (map seen l)
  | LObj _ l => JvObj (map (fun e => (snd (fst e), seen (snd e))) l)
  end.
Definition hseen (x : handle) : shandle :=
  match x with
  | HVal v => SVal (seen v)
  | HVec (_, l) => SVec (map seen l)
  | HMap (_, l) => SMap (map (fun e => (snd (fst e), seen (snd e))) l)
  end.
Definition slots_seen (sl : list (option handle)) : sslots := map (option_map hseen) sl.

Definition lookup (k : bytes) (m : list (bytes * jval)) : option jval :=
  option_map snd (find (fun kv => match bytes_cmp k (fst kv) with Eq => true | _ => false end) m).
Definition remove_key (k : bytes) (m : list (bytes * jval)) : list (bytes * jval) :=
  filter (fun kv => match bytes_cmp k (fst kv) with Eq => false | _ => true end) m.

Definition upd {A} (i : nat) (x : A) (l : list A) : list A := firstn i l ++ x :: skipn (S i) l.

(** The value at a path is replaced by f's. *)
Fixpoint place {A} (f : jval -> res (A * jval)) (p : list nat) (v : jval) : res (A * jval) :=
  match p with
  | [] => f v
  | i :: p' =>
      match v with
      | JvArr l =>
          match nth_error l i with
          | Some c => let* r := place f p' c in Ok (fst r, JvArr (upd i (snd r) l))
          | None => Err
          end
      | JvObj l =>
          match nth_error l i with
          | Some (n, c) => let* r := place f p' c in Ok (fst r, JvObj (upd i (n, snd r) l))
          | None => Err
          end
      | _ => Err
      end
  end.

Definition sget (h : nat) (sl : sslots) : res (shandle * sslots) :=
  match nth_error sl h with Some (Some x) => Ok (x, upd h None sl) | _ => Err end.
Definition sget_val (h : nat) (sl : sslots) : res (jval * sslots) :=
  let* r := sget h sl in match fst r with SVal v => Ok (v, snd r) | _ => Err end.
Definition smodify {A} (h : nat) (p : list nat) (f : jval -> res (A * jval)) (sl : sslots) : res (A * sslots) :=
  let* r := sget_val h sl in
  let* q := place f p (fst r) in
  Ok (fst q, upd h (Some (SVal (snd q))) (snd r)).
Fixpoint sget_vals (hs : list nat) (sl : sslots) : res (list jval * sslots) :=
  match hs with
  | [] => Ok ([], sl)
  | h :: hs' => let* r := sget_val h sl in let* q := sget_vals hs' (snd r) in Ok (fst r :: fst q, snd q)
  end.
Definition sval (o : option jval) : option shandle := option_map SVal o.

(** The depth of a value (scalars and empty containers: 0). *)
Fixpoint depth (v : jval) : nat :=
  match v with
  | JvArr l => list_max (map (fun c => S (depth c)) l)
  | JvObj l => list_max (map (fun kv => S (depth (snd kv))) l)
  | _ => O
  end.
(** Cloning recurses: it overflows a native stack of k frames on values of depth k or more. *)
Definition sclone (k : nat) (v : jval) : res jval := if (depth v <? k)%nat then Ok v else Fault FDeep.

Definition sexec (k : nat) (op : pop) (sl : sslots) : res sslots :=
  match op with
  | PLeaf v => Ok (sl ++ [Some (SVal (jleaf v))])
  | PArr => Ok (sl ++ [Some (SVal (JvArr []))])
  | PObj => Ok (sl ++ [Some (SVal (JvObj []))])
  | PPush h p h2 =>
      let* r := sget_val h2 sl in
      let* q := smodify h p (fun v => match v with JvArr l => Ok (tt, JvArr (l ++ [fst r])) | _ => Err end) (snd r) in
      Ok (snd q)
  | PRemoveAt h p i =>
      let* q := smodify h p (fun v =>
        match v with JvArr l => Ok (nth_error l i, JvArr (firstn i l ++ skipn (S i) l)) | _ => Err end) sl in
      Ok (snd q ++ [sval (fst q)])
  | PTruncate h p n =>
      let* q := smodify h p (fun v => match v with JvArr l => Ok (tt, JvArr (firstn n l)) | _ => Err end) sl in
      Ok (snd q)
  | PInsert h p key h2 =>
      let* r := sget_val h2 sl in
      let* q := smodify h p (fun v =>
        match v with JvObj m => Ok (lookup key m, JvObj (minsert bytes_cmp key (fst r) m)) | _ => Err end) (snd r) in
      Ok (snd q ++ [sval (fst q)])
  | PRemove h p key =>
      let* q := smodify h p (fun v =>
        match v with JvObj m => Ok (lookup key m, JvObj (remove_key key m)) | _ => Err end) sl in
      Ok (snd q ++ [sval (fst q)])
  | PClear h p =>
      let* q := smodify h p (fun v =>
        match v with JvArr _ => Ok (tt, JvArr []) | JvObj _ => Ok (tt, JvObj []) | _ => Err end) sl in
      Ok (snd q)
  | PReplace h p h2 =>
      let* r := sget_val h2 sl in
      let* q := smodify h p (fun v => Ok (v, fst r)) (snd r) in
      Ok (snd q ++ [Some (SVal (fst q))])
  | PAssign h p h2 =>
      let* r := sget_val h2 sl in
      let* q := smodify h p (fun _ => Ok (tt, fst r)) (snd r) in
      Ok (snd q)
  | PIter h =>
      let* r := sget_val h sl in
      match fst r with
      | JvArr l => Ok (snd r ++ [Some (SVec l)])
      | JvObj m => Ok (snd r ++ [Some (SMap m)])
      | _ => Err
      end
  | PNext h =>
      let* r := sget h sl in
      match fst r with
      | SVec l => Ok (upd h (Some (SVec (tl l))) (snd r) ++ [sval (hd_error l)])
      | SMap m => Ok (upd h (Some (SMap (tl m))) (snd r) ++ [sval (option_map snd (hd_error m))])
      | SVal _ => Err
      end
  | PNextBack h =>
      let* r := sget h sl in
      match fst r with
      | SVec l => Ok (upd h (Some (SVec (removelast l))) (snd r) ++ [sval (hd_error (rev l))])
      | SMap m => Ok (upd h (Some (SMap (removelast m))) (snd r) ++ [sval (option_map snd (hd_error (rev m)))])
      | SVal _ => Err
      end
  | PCollectA hs => let* r := sget_vals hs sl in Ok (snd r ++ [Some (SVal (JvArr (fst r)))])
  | PCollectO xs =>
      let* r := sget_vals (map snd xs) sl in
      Ok (snd r ++ [Some (SVal (JvObj
        (fold_left (fun m kv => minsert bytes_cmp (fst kv) (snd kv) m) (combine (map fst xs) (fst r)) [])))])
  | PClone h p =>
      let* q := smodify h p (fun v => let* c := sclone k v in Ok (c, v)) sl in
      Ok (snd q ++ [Some (SVal (fst q))])
  | PCloneFrom h p h2 p2 =>
      (* Array::clone_from makes its clones one frame higher: it works up to depth k. *)
      let* r := sget_val h2 sl in
      let* src := place (fun v => Ok (v, v)) p2 (fst r) in
      let* q := smodify h p (fun v =>
        match v, fst src with
        | JvArr _, JvArr _ => let* c := sclone (S k) (fst src) in Ok (tt, c)
        | JvObj _, JvObj _ => let* c := sclone k (fst src) in Ok (tt, c)
        | _, _ => Err
        end) (snd r) in
      Ok (upd h2 (Some (SVal (fst r))) (snd q))
  | PDrop h => let* r := sget h sl in Ok (snd r)
  | PForget h => let* r := sget h sl in Ok (snd r)
  end.
Fixpoint srun (k : nat) (prog : list pop) (sl : sslots) : res sslots :=
  match prog with
  | [] => Ok sl
  | op :: prog' => let* sl' := sexec k op sl in srun k prog' sl'
  end.

(** What the client sees of a run. *)
Definition view (r : res state) : res sslots :=
  match r with Ok s => Ok (slots_seen (s_slots s)) | Err => Err | Fault f => Fault f end.

Definition forgets (op : pop) : bool := match op with PForget _ => true | _ => false end.
Definition clones (op : pop) : bool := match op with PClone _ _ | PCloneFrom _ _ _ _ => true | _ => false end.
