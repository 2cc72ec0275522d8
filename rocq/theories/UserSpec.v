(** C56: specification. How a value of a generic type is read, in terms of how values of
    its type parameters are read. Nothing here mentions the builders of src/de/impls.rs. *)
From Coq Require Import ZArith List Bool.
From Verif Require Import Base Lexer Driver Grammar Tree DocSpec UserTypes.
Import ListNotations.

(** A way to read values of type A: given the parse tree of (a part of) the text, the
    world and the content of the place before, the outcome and the world and place after. *)
Definition reader (G A : Type) : Type := ptree -> G -> option A -> res unit * (G * option A).

(** What remains when a builder's state is forgotten. *)
Definition seen {G A U R} (r : res R * (G * (option A * U))) : res R * (G * option A) :=
  (fst r, (fst (snd r), fst (snd (snd r)))).

(** How a user-defined type reads: begin, then the calls for the tree. *)
Definition reads {G A} (T : utype G A) : reader G A := fun t g o =>
  match u_begin T g o with
  | (Ok v, st) => seen (feed (u_ops T) t v st)
  | (Err, st) => (Err, (fst st, fst (snd st)))
  | (Fault f, st) => (Fault f, (fst st, fst (snd st)))
  end.

(** No method of a visitor is called for such a tree: the text breaks off before that. *)
Definition broken (t : ptree) : bool :=
  match t with PBad | PLeaf ESeqStart | PLeaf EMapStart => true | _ => false end.

(** All of the tree is there. *)
Fixpoint whole (t : ptree) : bool :=
  match t with
  | PSeq l c => forallb whole l && c
  | PMap l c => forallb (fun kt => whole (snd kt)) l && c
  | _ => negb (broken t)
  end.

(** Stores the outcome of reading a container: on success the place holds the value, else
    it keeps what it had. *)
Definition store {G C} (o : option C) (closed : bool) (r : res (option C) * G) : res unit * (G * option C) :=
  match r with
  | (Ok (Some c), g) => if closed then (Ok tt, (g, Some c)) else (Err, (g, o))
  | (Ok None, g) => (Err, (g, o))
  | (Err, g) => (Err, (g, o))
  | (Fault f, g) => (Fault f, (g, o))
  end.

Section Readers.
Context {G A : Type}.
Variable D : reader G A.

(** One value after the other, each into an empty place. *)
Fixpoint read_all (items : list ptree) (g : G) (acc : list A) : res (list A) * G :=
  match items with
  | [] => (Ok acc, g)
  | t :: items' =>
      match D t g None with
      | (Ok _, (g', o)) => read_all items' g' (acc ++ olist o)
      | (Err, (g', _)) => (Err, g')
      | (Fault f, (g', _)) => (Fault f, g')
      end
  end.

Definition read_vec : reader G (list A) := fun t g o =>
  match t with
  | PSeq items closed => let r := read_all items g [] in store o closed (rmap Some (fst r), snd r)
  | _ => (Err, (g, o))
  end.

(** The same, but giving up before item n + 1 when more than n values were read. *)
Fixpoint read_upto (n : nat) (items : list ptree) (g : G) (acc : list A) : res (list A) * G :=
  match items with
  | [] => (Ok acc, g)
  | t :: items' =>
      if (n <? List.length acc)%nat then (Err, g)
      else
        match D t g None with
        | (Ok _, (g', o)) => read_upto n items' g' (acc ++ olist o)
        | (Err, (g', _)) => (Err, g')
        | (Fault f, (g', _)) => (Fault f, g')
        end
  end.

Definition read_arr (n : nat) : reader G (list A) := fun t g o =>
  match t with
  | PSeq items closed =>
      let r := read_upto n items g [] in
      store o closed (rmap (fun l => if (List.length l =? n)%nat then Some l else None) (fst r), snd r)
  | _ => (Err, (g, o))
  end.

(** null is None; everything else is read as T, into an empty place, and whatever T leaves
    there is the option's content (also after an error). *)
Definition read_opt : reader G (option A) := fun t g o =>
  if broken t then (Err, (g, o))
  else
    match t with
    | PLeaf ENull => (Ok tt, (g, Some None))
    | _ => let '(r, (g', o')) := D t g None in (r, (g', Some o'))
    end.

(** Box<T> is T, except that it panics if T reports success without filling the place. *)
Definition read_box : reader G A := fun t g o =>
  if broken t then (Err, (g, o))
  else
    match D t g None with
    | (Ok _, (g', Some a)) => (Ok tt, (g', Some a))
    | (Ok _, (g', None)) => (Fault FPanic, (g', o))
    | (Err, (g', _)) => (Err, (g', o))
    | (Fault f, (g', _)) => (Fault f, (g', o))
    end.

(** Members in document order: the key, then the value; a later entry is inserted over an
    earlier one. *)
Section Map.
Context {K M : Type}.
Variable parse : bytes -> G -> res K * G.
Variable empty : M.
Variable insert : K -> A -> M -> M.
Fixpoint read_entries (ms : list (bytes * ptree)) (g : G) (m : M) : res M * G :=
  match ms with
  | [] => (Ok m, g)
  | (k, t) :: ms' =>
      match parse k g with
      | (Ok key, g1) =>
          match D t g1 None with
          | (Ok _, (g2, Some a)) => read_entries ms' g2 (insert key a m)
          | (Ok _, (g2, None)) => read_entries ms' g2 m
          | (Err, (g2, _)) => (Err, g2)
          | (Fault f, (g2, _)) => (Fault f, g2)
          end
      | (Err, g1) => (Err, g1)
      | (Fault f, g1) => (Fault f, g1)
      end
  end.
Definition read_map : reader G M := fun t g o =>
  match t with
  | PMap ms closed => let r := read_entries ms g empty in store o closed (rmap Some (fst r), snd r)
  | _ => (Err, (g, o))
  end.
End Map.
End Readers.

(** Two places: an item goes into the first one that is empty. *)
Section Pair.
Context {G A B : Type}.
Variables (DA : reader G A) (DB : reader G B).
Fixpoint read_two (items : list ptree) (g : G) (oa : option A) (ob : option B) : res (option A * option B) * G :=
  match items with
  | [] => (Ok (oa, ob), g)
  | t :: items' =>
      match oa, ob with
      | None, _ =>
          match DA t g None with
          | (Ok _, (g', oa')) => read_two items' g' oa' ob
          | (Err, (g', _)) => (Err, g')
          | (Fault f, (g', _)) => (Fault f, g')
          end
      | Some _, None =>
          match DB t g None with
          | (Ok _, (g', ob')) => read_two items' g' oa ob'
          | (Err, (g', _)) => (Err, g')
          | (Fault f, (g', _)) => (Fault f, g')
          end
      | Some _, Some _ => (Err, g)
      end
  end.
Definition read_pair : reader G (A * B) := fun t g o =>
  match t with
  | PSeq items closed =>
      let r := read_two items g None None in
      store o closed (rmap (fun p => match p with (Some a, Some b) => Some (a, b) | _ => None end) (fst r), snd r)
  | _ => (Err, (g, o))
  end.
End Pair.

(** A struct: one place per field, holding the field type's default before the first
    member is read. *)
Section Struct.
Context {G : Type}.

Fixpoint fopts (fs : list (ufield G)) : Type :=
  match fs with [] => unit | f :: fs' => (option (f_ty f) * fopts fs')%type end.
Fixpoint defaults (fs : list (ufield G)) (g : G) : res (fopts fs) * G :=
  match fs with
  | [] => (Ok tt, g)
  | f :: fs' =>
      match u_default (f_u f) g with
      | (Ok o, g1) => let r := defaults fs' g1 in (rmap (pair o) (fst r), snd r)
      | (Err, g1) => (Err, g1)
      | (Fault x, g1) => (Fault x, g1)
      end
  end.
(** Reads a member into the first field of that name; None if there is none. *)
Fixpoint read_field (fs : list (ufield G)) (k : bytes) (t : ptree) (g : G)
  : fopts fs -> option (res unit * (G * fopts fs)) :=
  match fs with
  | [] => fun _ => None
  | f :: fs' => fun ps =>
      if list_eq_dec Z.eq_dec k (f_name f) then
        let '(r, (g', o)) := reads (f_u f) t g (fst ps) in Some (r, (g', (o, snd ps)))
      else
        match read_field fs' k t g (snd ps) with
        | Some (r, (g', ps')) => Some (r, (g', (fst ps, ps')))
        | None => None
        end
  end.
Fixpoint read_fields (fs : list (ufield G)) (ms : list (bytes * ptree)) (g : G) (ps : fopts fs)
  : res (fopts fs) * G :=
  match ms with
  | [] => (Ok ps, g)
  | (k, t) :: ms' =>
      match read_field fs k t g ps with
      | Some (Ok _, (g', ps')) => read_fields fs ms' g' ps'
      | Some (Err, (g', _)) => (Err, g')
      | Some (Fault f, (g', _)) => (Fault f, g')
      | None => if whole t then read_fields fs ms' g ps else (Err, g)
      end
  end.
Fixpoint all_some (fs : list (ufield G)) : fopts fs -> option (fvals fs) :=
  match fs with
  | [] => fun _ => Some tt
  | f :: fs' => fun ps =>
      match fst ps, all_some fs' (snd ps) with Some a, Some r => Some (a, r) | _, _ => None end
  end.
Definition read_struct (fs : list (ufield G)) : reader G (fvals fs) := fun t g o =>
  match t with
  | PMap ms closed =>
      match defaults fs g with
      | (Ok ps, g1) =>
          let r := read_fields fs ms g1 ps in store o closed (rmap (all_some fs) (fst r), snd r)
      | (Err, g1) => (Err, (g1, o))
      | (Fault f, g1) => (Fault f, (g1, o))
      end
  | _ => (Err, (g, o))
  end.
End Struct.

(** ** Texts *)

(** What from_str makes of a reader: the text must be one value and white space, and the
    place must be filled in the end. *)
Definition read_text {G A} (D : reader G A) (s : bytes) (g : G) : res A * G :=
  let '(t, rest) := pv s in
  match D t g None with
  | (Ok _, (g', o)) =>
      (match o, rest with
       | Some a, Some r => match LexSpec.skip_ws r with [] => Ok a | _ :: _ => Err end
       | _, _ => Err
       end, g')
  | (Err, (g', _)) => (Err, g')
  | (Fault f, (g', _)) => (Fault f, g')
  end.

(** T reports success only after it has filled an empty place. *)
Definition fills {G A} (T : utype G A) : Prop :=
  forall t g g' o, reads T t g None = (Ok tt, (g', o)) -> o <> None.
(** What T reads does not depend on what the place held before. *)
Definition overwrites {G A} (T : utype G A) : Prop :=
  forall t g o1 o2,
    fst (reads T t g o1) = fst (reads T t g o2) /\
    fst (snd (reads T t g o1)) = fst (snd (reads T t g o2)) /\
    (fst (reads T t g o1) = Ok tt -> snd (reads T t g o1) = snd (reads T t g o2)).

(** "[" s1 "," s2 "," ... sn "]", "{" k1 ":" s1 "," ... "}". *)
Fixpoint joined (ss : list bytes) : bytes :=
  match ss with
  | [] => []
  | [s] => s
  | s :: ss' => s ++ 44%Z :: joined ss'
  end.
Definition array_text (ss : list bytes) : bytes := 91%Z :: joined ss ++ [93%Z].
Definition object_text (ms : list (bytes * bytes)) : bytes :=
  123%Z :: joined (map (fun m => fst m ++ 58%Z :: snd m) ms) ++ [125%Z].

(** A JSON text all of whose numbers can be read. *)
Definition json_text (s : bytes) : Prop := exists d, JText d s /\ Forall lit_readable (lits d).

(** The text of an object key. *)
Definition key_text (kt : bytes) (k : bytes) : Prop := JText (DStr k) kt.

Section Texts.
Context {G A : Type}.
Variable T : utype G A.
Variable oc : bool.
(** from_str::<T> on one text after the other; stops at the first failure. *)
Fixpoint from_str_each (ss : list bytes) (g : G) : res (list A) * G :=
  match ss with
  | [] => (Ok [], g)
  | s :: ss' =>
      match user_from_str T oc s g with
      | (Ok a, g1) => let r := from_str_each ss' g1 in (rmap (cons a) (fst r), snd r)
      | (Err, g1) => (Err, g1)
      | (Fault f, g1) => (Fault f, g1)
      end
  end.
(** K::from_str and from_str::<T> on one member after the other, inserting as it goes. *)
Section Map.
Context {K M : Type}.
Variable parse : bytes -> G -> res K * G.
Variable insert : K -> A -> M -> M.
Fixpoint from_str_entries (ms : list (bytes * bytes)) (g : G) (m : M) : res M * G :=
  match ms with
  | [] => (Ok m, g)
  | (k, s) :: ms' =>
      match parse k g with
      | (Ok key, g1) =>
          match user_from_str T oc s g1 with
          | (Ok a, g2) => from_str_entries ms' g2 (insert key a m)
          | (Err, g2) => (Err, g2)
          | (Fault f, g2) => (Fault f, g2)
          end
      | (Err, g1) => (Err, g1)
      | (Fault f, g1) => (Fault f, g1)
      end
  end.
End Map.
End Texts.

Section StructTexts.
Context {G : Type}.
Variable oc : bool.
(** from_str of the first field type of that name; None if there is none. *)
Fixpoint from_str_field (fs : list (ufield G)) (k s : bytes) (g : G) : fopts fs -> option (res (fopts fs) * G) :=
  match fs with
  | [] => fun _ => None
  | f :: fs' => fun ps =>
      if list_eq_dec Z.eq_dec k (f_name f) then
        let r := user_from_str (f_u f) oc s g in Some (rmap (fun a => (Some a, snd ps)) (fst r), snd r)
      else
        match from_str_field fs' k s g (snd ps) with
        | Some (r, g') => Some (rmap (pair (fst ps)) r, g')
        | None => None
        end
  end.
(** Members of unknown names are skipped, the last one of a name counts. *)
Fixpoint from_str_fields (fs : list (ufield G)) (ms : list (bytes * bytes)) (g : G) (ps : fopts fs) : res (fopts fs) * G :=
  match ms with
  | [] => (Ok ps, g)
  | (k, s) :: ms' =>
      match from_str_field fs k s g ps with
      | Some (Ok ps', g') => from_str_fields fs ms' g' ps'
      | Some (Err, g') => (Err, g')
      | Some (Fault f, g') => (Fault f, g')
      | None => from_str_fields fs ms' g ps
      end
  end.
(** Fields that have no value in the end: an error. *)
Definition require {C} (r : res (option C) * G) : res C * G :=
  (match fst r with Ok (Some c) => Ok c | Ok None => Err | Err => Err | Fault f => Fault f end, snd r).
Definition from_str_struct (fs : list (ufield G)) (ms : list (bytes * bytes)) (g : G) : res (fvals fs) * G :=
  match defaults fs g with
  | (Ok ps, g1) => let r := from_str_fields fs ms g1 ps in require (rmap (all_some fs) (fst r), snd r)
  | (Err, g1) => (Err, g1)
  | (Fault f, g1) => (Fault f, g1)
  end.
End StructTexts.
