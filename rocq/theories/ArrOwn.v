(** [T; N] for an arbitrary user-defined element type T: who owns each element, and what
    happens when dropping an element panics. Elements are numbered in the order in which
    the user's visitors produce them; a bit copy keeps the number. Simplification: the
    only observable of an element is its drop. *)
From Coq Require Import List Bool Arith Lia.
From Verif Require Import Base.
Import ListNotations.

Section Arr.
(** Length of the array, and the elements whose drop panics. *)
Variable N : nat.
Variable bomb : nat -> bool.

(** MaybeUninit<T>. *)
Inductive mslot := Uninit | Val (x : nat).

(** ArrayBuilder, de/impls.rs:486-491 (without the reference to the place). *)
Record abld := mkab { ab_array : list mslot; ab_len : nat; ab_element : option nat }.

(** The place `out: Option<[T; N]>`, the builder if one is open, the elements dropped so
    far, those moved out to the caller, and the number of elements produced. *)
Record astate := mka {
  a_out : option (list nat);
  a_bld : option abld;
  a_dropped : list nat;
  a_taken : list nat;
  a_next : nat
}.

(** Drop glue of T. Dropping a value again is undefined behaviour. *)
Definition drop_one (x : nat) (d : list nat) : res unit * list nat :=
  if in_dec Nat.eq_dec x d then (Fault FUB, d)
  else (if bomb x then Fault FPanic else Ok tt, d ++ [x]).
Definition drop_opt (o : option nat) (d : list nat) : res unit * list nat :=
  match o with Some x => drop_one x d | None => (Ok tt, d) end.
(** Something dropped while a panic unwinds: a second panic aborts the process. *)
Definition cleanup (r : res unit * list nat) : res unit * list nat :=
  match r with
  | (Fault FPanic, d) => (Fault FAbort, d)
  | (Fault f, d) => (Fault f, d)
  | (_, d) => (Fault FPanic, d)
  end.
(** Drop glue of [T; N]: after a panic, the remaining elements are still dropped. *)
Fixpoint drop_array (l : list nat) (d : list nat) : res unit * list nat :=
  match l with
  | [] => (Ok tt, d)
  | x :: l' =>
      match drop_one x d with
      | (Fault FPanic, d1) => cleanup (drop_array l' d1)
      | (Fault f, d1) => (Fault f, d1)
      | (_, d1) => drop_array l' d1
      end
  end.

(** ArrayBuilder::shift, de/impls.rs:494-500. When the array is full, `e` goes out of
    scope on the way out. *)
Definition ab_shift (b : abld) (d : list nat) : res unit * abld * list nat :=
  match ab_element b with
  | None => (Ok tt, b, d)
  | Some e =>
      if ab_len b <? length (ab_array b)
      then (Ok tt, mkab (firstn (ab_len b) (ab_array b) ++ Val e :: skipn (S (ab_len b)) (ab_array b)) (S (ab_len b)) None, d)
      else
        let b' := mkab (ab_array b) (ab_len b) None in
        match drop_one e d with
        | (Ok _, d1) => (Err, b', d1)
        | (r, d1) => (r, b', d1)
        end
  end.

(** The elements of the array as [T; N]: an uninitialised one is undefined behaviour. *)
Fixpoint read_array (l : list mslot) : option (list nat) :=
  match l with
  | [] => Some []
  | Uninit :: _ => None
  | Val x :: l' => option_map (cons x) (read_array l')
  end.

(** ArrayBuilder::finish, de/impls.rs:512-525. An assignment drops the old value and
    stores the new one even if that drop panics. The read copies the array, which keeps
    its bits. *)
Definition ab_finish (b : abld) (out : option (list nat)) (d : list nat)
  : res unit * abld * option (list nat) * list nat :=
  match ab_shift b d with
  | (Ok _, b1, d1) =>
      if ab_len b1 <? N then (Err, b1, out, d1) else
      match (match out with Some l => drop_array l d1 | None => (Ok tt, d1) end) with
      | (Ok _, d2) =>
          match read_array (ab_array b1) with
          | None => (Fault FUB, b1, None, d2)
          | Some l => (Ok tt, mkab (ab_array b1) 0 (ab_element b1), Some l, d2)
          end
      | (r, d2) => (r, b1, None, d2)
      end
  | (r, b1, d1) => (r, b1, out, d1)
  end.

(** ArrayBuilder::drop, de/impls.rs:528-534: the loop stops at the first panic. *)
Fixpoint drop_loop (l : list mslot) (d : list nat) : res unit * list nat :=
  match l with
  | [] => (Ok tt, d)
  | Uninit :: _ => (Fault FUB, d)
  | Val x :: l' =>
      match drop_one x d with
      | (Ok _, d1) => drop_loop l' d1
      | (r, d1) => (r, d1)
      end
  end.
(** Drop glue of Box<dyn Seq> on an ArrayBuilder: Drop::drop, then the field `element`
    (the field `array` has no drop glue). Slicing beyond the array panics. *)
Definition ab_drop (b : abld) (d : list nat) : res unit * list nat :=
  match (if ab_len b <=? length (ab_array b) then drop_loop (firstn (ab_len b) (ab_array b)) d else (Fault FPanic, d)) with
  | (Ok _, d1) => drop_opt (ab_element b) d1
  | (Fault FPanic, d1) => cleanup (drop_opt (ab_element b) d1)
  | (r, d1) => (r, d1)
  end.

(** What safe code and the user's Visitor for T can do. *)
Inductive aop :=
| AOpen            (* Visitor::seq of Place<[T; N]>, de/impls.rs:476-483 *)
| AElement         (* Seq::element, de/impls.rs:507-510 *)
| AAssign          (* the user's visitor: *out = Some(a new element) *)
| ATakeElement     (* the user's visitor: out.take() *)
| AFinish          (* Seq::finish *)
| AClose           (* the builder goes out of scope *)
| AForget          (* mem::forget(builder) *)
| ATakeOut         (* out.take(), when no builder is open *)
| AClearOut.       (* out = None, when no builder is open *)

Definition a_init : astate := mka None None [] [] 0.

(** None: rejected by the compiler. (The user's visitor exists only after a successful
    element(); the model allows its steps whenever a builder is open.) *)
Definition astep (op : aop) (s : astate) : option (res unit * astate) :=
  let '(mka out bld d tk n) := s in
  match bld, op with
  | None, AOpen => Some (Ok tt, mka out (Some (mkab (repeat Uninit N) 0 None)) d tk n)
  | None, ATakeOut => Some (Ok tt, mka None None d (tk ++ match out with Some l => l | None => [] end) n)
  | None, AClearOut =>
      let r := match out with Some l => drop_array l d | None => (Ok tt, d) end in
      Some (fst r, mka None None (snd r) tk n)
  | Some b, AElement => let '(r, b', d') := ab_shift b d in Some (r, mka out (Some b') d' tk n)
  | Some b, AAssign =>
      let r := drop_opt (ab_element b) d in
      Some (fst r, mka out (Some (mkab (ab_array b) (ab_len b) (Some n))) (snd r) tk (S n))
  | Some b, ATakeElement =>
      Some (Ok tt, mka out (Some (mkab (ab_array b) (ab_len b) None)) d (tk ++ match ab_element b with Some x => [x] | None => [] end) n)
  | Some b, AFinish => let '(r, b', out', d') := ab_finish b out d in Some (r, mka out' (Some b') d' tk n)
  | Some b, AClose => let r := ab_drop b d in Some (fst r, mka out None (snd r) tk n)
  | Some b, AForget => Some (Ok tt, mka out None d tk n)
  | _, _ => None
  end.

(** A run; it may go on after a panic, but not after the process is aborted. *)
Inductive aruns : list (aop * res unit) -> astate -> Prop :=
| aruns_nil : aruns [] a_init
| aruns_step tr s op r s' :
    aruns tr s -> Forall (fun e => snd e <> Fault FAbort) tr ->
    astep op s = Some (r, s') -> aruns (tr ++ [(op, r)]) s'.
End Arr.
