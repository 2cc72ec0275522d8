(** Specification for C73: documents that differ only in the order of the members of their
    objects. Specification only: it models no code of /repo. *)
From Coq Require Import ZArith List Bool.
From Verif Require Import Base Grammar Types Reading.
Import ListNotations.

(** The values of the members called [k], in the order in which they are written. *)
Definition members (k : bytes) (l : list (bytes * doc)) : list doc :=
  map snd (filter (fun kd => bytes_eqb (fst kd) k) l).

(** At every depth, each object has the same members, those with equal names in the same
    order; members with different names may have changed places. *)
Inductive Reordered : doc -> doc -> Prop :=
| re_same d : Reordered d d
| re_arr l l' : Forall2 Reordered l l' -> Reordered (DArr l) (DArr l')
| re_obj l l' : (forall k, Forall2 Reordered (members k l) (members k l')) -> Reordered (DObj l) (DObj l').

(** A finer relation, made of single steps, that also respects maps with integer keys: two
    neighbouring members may change places if no key type of a map reads their names as the
    same key (in particular the names are different, as strings are among the key types). *)
Inductive Shuffled : doc -> doc -> Prop :=
| sh_same d : Shuffled d d
| sh_trans a b c : Shuffled a b -> Shuffled b c -> Shuffled a c
| sh_element l1 d d' l2 : Shuffled d d' -> Shuffled (DArr (l1 ++ d :: l2)) (DArr (l1 ++ d' :: l2))
| sh_member l1 k d d' l2 : Shuffled d d' -> Shuffled (DObj (l1 ++ (k, d) :: l2)) (DObj (l1 ++ (k, d') :: l2))
| sh_swap l1 k1 d1 k2 d2 l2 : (forall K v, KeyReads K k1 v -> ~ KeyReads K k2 v) ->
    Shuffled (DObj (l1 ++ (k1, d1) :: (k2, d2) :: l2)) (DObj (l1 ++ (k2, d2) :: (k1, d1) :: l2)).
