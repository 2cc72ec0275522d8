(** The event tree of a text, and the walk of a visitor over it.

    [ptree] describes what a JSON parser sees of an arbitrary text: the events of a
    value, possibly broken off ([PBad], or [closed = false]) at the first place where
    the text stops being JSON. [feed] is the specification of how the Visitor, Seq
    and Map methods (src/de/mod.rs:233-286) are called on it. *)
From Coq Require Import String ZArith List Bool Lia Floats.SpecFloat.
From Verif Require Import Base Utf8 F64 Lexer Driver Grammar LexSpec.
Import ListNotations.
Open Scope Z_scope.

Inductive ptree :=
| PBad
| PLeaf (ev : event)                             (* a scalar *)
| PSeq (items : list ptree) (closed : bool)
| PMap (members : list (bytes * ptree)) (closed : bool).

(** ** The walk *)
Section Feed.
Context {St V SH MH : Type}.
Variable I : iface St V SH MH.

(** Dropping a Seq or Map never panics. *)
Definition quiet_drops : Prop := forall l st, fst (drop_layer I l st) <> Fault FPanic.

(** An error inside an open layer: the layer is dropped. (So it is when a method panics:
    [on_fault].) *)
Definition drop_err (l : layer SH MH) (st : St) : res unit * St :=
  match drop_layer I l st with
  | (Fault f, st') => (Fault f, st')
  | (_, st') => (Err, st')
  end.

(** The end of a container: finish, then drop. A container that is not properly
    closed is an error. *)
Definition finish_layer (l : layer SH MH) (closed : bool) (st : St) : res unit * St :=
  if closed then
    match (match l with LSeq s => s_finish I s st | LMap m => m_finish I m st end) with
    | (Ok _, st1) =>
        match drop_layer I l st1 with
        | (Fault f, st2) => (Fault f, st2)
        | (_, st2) => (Ok tt, st2)
        end
    | (Err, st1) => drop_err l st1
    | (Fault f, st1) => on_fault I f [l] st1
    end
  else drop_err l st.

Section Children.
Variable feed : ptree -> V -> St -> res unit * St.

(** For every item: element, then the value. *)
Fixpoint feed_items (s : SH) (items : list ptree) (closed : bool) (st : St) : res unit * St :=
  match items with
  | [] => finish_layer (LSeq s) closed st
  | t :: items' =>
      match s_element I s st with
      | (Ok v, st1) =>
          match feed t v st1 with
          | (Ok _, st2) => feed_items s items' closed st2
          | (Err, st2) => drop_err (LSeq s) st2
          | (Fault f, st2) => on_fault I f [LSeq s] st2
          end
      | (Err, st1) => drop_err (LSeq s) st1
      | (Fault f, st1) => on_fault I f [LSeq s] st1
      end
  end.

(** For every member: key, then the value. *)
Fixpoint feed_members (m : MH) (members : list (bytes * ptree)) (closed : bool) (st : St)
  : res unit * St :=
  match members with
  | [] => finish_layer (LMap m) closed st
  | (k, t) :: members' =>
      match m_key I m k st with
      | (Ok v, st1) =>
          match feed t v st1 with
          | (Ok _, st2) => feed_members m members' closed st2
          | (Err, st2) => drop_err (LMap m) st2
          | (Fault f, st2) => on_fault I f [LMap m] st2
          end
      | (Err, st1) => drop_err (LMap m) st1
      | (Fault f, st1) => on_fault I f [LMap m] st1
      end
  end.
End Children.

Fixpoint feed (t : ptree) (v : V) (st : St) {struct t} : res unit * St :=
  match t with
  | PBad => (Err, st)
  | PLeaf ev =>
      match ev with
      | ENull => v_null I v st
      | EBool b => v_bool I v b st
      | EStr s => v_str I v s st
      | ENeg n => v_neg I v n st
      | ENonneg n => v_nonneg I v n st
      | EFloat f => v_float I v f st
      | ESeqStart | EMapStart => (Err, st)
      end
  | PSeq items closed =>
      match v_seq I v st with
      | (Ok s, st1) => feed_items feed s items closed st1
      | (Err, st1) => (Err, st1)
      | (Fault f, st1) => (Fault f, st1)
      end
  | PMap members closed =>
      match v_map I v st with
      | (Ok m, st1) => feed_members feed m members closed st1
      | (Err, st1) => (Err, st1)
      | (Fault f, st1) => (Fault f, st1)
      end
  end.
End Feed.

(** ** The tree of a document *)

(** The event that reports a scalar; containers are built recursively. None when a
    number literal is out of the range of f64. *)
Definition opt {A} (r : res A) : option A := match r with Ok a => Some a | _ => None end.

Fixpoint tree_of (d : doc) : option ptree :=
  match d with
  | DNull => Some (PLeaf ENull)
  | DBool b => Some (PLeaf (EBool b))
  | DStr s => Some (PLeaf (EStr s))
  | DNum n => option_map PLeaf (opt (lit_event n))
  | DArr l =>
      option_map (fun ts => PSeq ts true)
        ((fix go (l : list doc) : option (list ptree) :=
            match l with
            | [] => Some []
            | d :: l' =>
                match tree_of d, go l' with
                | Some t, Some ts => Some (t :: ts)
                | _, _ => None
                end
            end) l)
  | DObj l =>
      option_map (fun ts => PMap ts true)
        ((fix go (l : list (bytes * doc)) : option (list (bytes * ptree)) :=
            match l with
            | [] => Some []
            | (k, d) :: l' =>
                match tree_of d, go l' with
                | Some t, Some ts => Some ((k, t) :: ts)
                | _, _ => None
                end
            end) l)
  end.

Fixpoint trees_of (l : list doc) : option (list ptree) :=
  match l with
  | [] => Some []
  | d :: l' =>
      match tree_of d, trees_of l' with Some t, Some ts => Some (t :: ts) | _, _ => None end
  end.
Fixpoint mtrees_of (l : list (bytes * doc)) : option (list (bytes * ptree)) :=
  match l with
  | [] => Some []
  | (k, d) :: l' =>
      match tree_of d, mtrees_of l' with
      | Some t, Some ts => Some ((k, t) :: ts)
      | _, _ => None
      end
  end.
Lemma tree_of_arr l : tree_of (DArr l) = option_map (fun ts => PSeq ts true) (trees_of l).
Proof. reflexivity. Qed.
Lemma tree_of_obj l : tree_of (DObj l) = option_map (fun ts => PMap ts true) (mtrees_of l).
Proof. reflexivity. Qed.

(** ** The tree of an arbitrary text (recursive descent) *)
Inductive pnext := NItem (s : bytes) | NClose (c : Z) (s : bytes) | NBroken.

(** Between the items of a container. *)
Definition p_next (first : bool) (s : bytes) : pnext :=
  match skip_ws s with
  | c :: r =>
      if (c =? 44) && negb first then NItem r
      else if (c =? 93) || (c =? 125) then NClose c r
      else if first then NItem (c :: r) else NBroken
  | [] => if first then NItem [] else NBroken
  end.

Fixpoint pval (n : nat) (s : bytes) {struct n} : ptree * option bytes :=
  match n with
  | O => (PBad, None)
  | S n' =>
      match tok s with
      | Ok (ESeqStart, s1) => let '(l, c, o) := pitems n' true s1 in (PSeq l c, o)
      | Ok (EMapStart, s1) => let '(l, c, o) := pmembers n' true s1 in (PMap l c, o)
      | Ok (ev, s1) => (PLeaf ev, Some s1)
      | _ => (PBad, None)
      end
  end
with pitems (n : nat) (first : bool) (s : bytes) {struct n} : list ptree * bool * option bytes :=
  match n with
  | O => ([], false, None)
  | S n' =>
      match p_next first s with
      | NBroken => ([], false, None)
      | NClose c r => if c =? 93 then ([], true, Some r) else ([], false, None)
      | NItem s1 =>
          match pval n' s1 with
          | (t, Some r) => let '(l, c, o) := pitems n' false r in (t :: l, c, o)
          | (t, None) => ([t], false, None)
          end
      end
  end
with pmembers (n : nat) (first : bool) (s : bytes) {struct n}
  : list (bytes * ptree) * bool * option bytes :=
  match n with
  | O => ([], false, None)
  | S n' =>
      match p_next first s with
      | NBroken => ([], false, None)
      | NClose c r => if c =? 125 then ([], true, Some r) else ([], false, None)
      | NItem s1 =>
          match skip_ws s1 with
          | c :: s2 =>
              if c =? 34 then
                match p_string s2 with
                | Some (k, s3) =>
                    match skip_ws s3 with
                    | c' :: s4 =>
                        if c' =? 58 then
                          match pval n' s4 with
                          | (t, Some r) =>
                              let '(l, c, o) := pmembers n' false r in ((k, t) :: l, c, o)
                          | (t, None) => ([(k, t)], false, None)
                          end
                        else ([(k, PBad)], false, None)
                    | [] => ([(k, PBad)], false, None)
                    end
                | None => ([], false, None)
                end
              else ([], false, None)
          | [] => ([], false, None)
          end
      end
  end.

Definition pv (s : bytes) : ptree * option bytes := pval (2 * List.length s + 1) s.
Definition pi (first : bool) (s : bytes) := pitems (2 * List.length s + 2) first s.
Definition pm (first : bool) (s : bytes) := pmembers (2 * List.length s + 2) first s.
