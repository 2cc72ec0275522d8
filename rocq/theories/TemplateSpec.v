(** Specification for C70: documents with one place left open; texts in lines. *)
From Coq Require Import String ZArith List Bool.
From Verif Require Import Base Utf8 Grammar.
Import ListNotations.
Open Scope Z_scope.

(** A document with a hole in place of one value. *)
Inductive template :=
| Hole
| InArr (before : list doc) (C : template) (after : list doc)
| InObj (before : list (bytes * doc)) (k : bytes) (C : template) (after : list (bytes * doc)).
Fixpoint fill (C : template) (d : doc) : doc :=
  match C with
  | Hole => d
  | InArr l1 C l2 => DArr (l1 ++ fill C d :: l2)
  | InObj l1 k C l2 => DObj (l1 ++ (k, fill C d) :: l2)
  end.
(** The text with which a place in a template is tried out. *)
Definition probe : bytes := bs "[""""]".

(** One text per line. *)
Fixpoint lines (s : bytes) : list bytes :=
  match s with
  | [] => [[]]
  | c :: r =>
      match lines r with
      | l :: ls => if c =? 10 then [] :: l :: ls else (c :: l) :: ls
      | [] => []
      end
  end.
Definition as_lines (l : list bytes) : bytes := flat_map (fun s => s ++ [10]) l.
