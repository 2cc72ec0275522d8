(** C53: specification. *)
From Coq Require Import List Bool Arith.
From Verif Require Import Base ArrOwn.
Import ListNotations.

(** Elements may be lost without being dropped only by forgetting the builder, or when the
    drop of the builder itself panics. *)
Definition loses (e : aop * res unit) : bool :=
  match e with
  | (AForget, _) => true
  | (AClose, Fault _) => true
  | _ => false
  end.

Definition olist {A} (o : option A) : list A := match o with Some x => [x] | None => [] end.
Definition outl (o : option (list nat)) : list nat := match o with Some l => l | None => [] end.

(** What a trace says about the elements of the open builder: how many elements were made
    so far, which ones were in the place when `element` or `finish` was called (at most N),
    and which one is in the place now. *)
Record seen := mkseen { sn_next : nat; sn_kept : list nat; sn_cur : option nat }.
Definition see (N : nat) (k : seen) (e : aop * res unit) : seen :=
  let '(mkseen n kept cur) := k in
  match e with
  | (AOpen, _) => mkseen n [] None
  | (AElement, _) => mkseen n (firstn N (kept ++ olist cur)) None
  | (AAssign, _) => mkseen (S n) kept (Some n)
  | (ATakeElement, _) => mkseen n kept None
  | (AFinish, Ok _) => mkseen n [] None
  | (AFinish, _) => mkseen n (firstn N (kept ++ olist cur)) None
  | _ => k
  end.
Definition seen_of (N : nat) (tr : list (aop * res unit)) : seen := fold_left (see N) tr (mkseen 0 [] None).
