(** C54: specification. *)
From Coq Require Import List Bool Arith.
From Verif Require Import Base ArrOwn ArrSpec BoxOwn.
Import ListNotations.

(** The value in the caller's variable. *)
Definition w_out (w : world) : list nat :=
  match nth_error (w_heap w) 0 with Some (Some c) => olist (c_val c) | _ => [] end.
(** Every cell but the caller's variable was freed. *)
Definition all_freed (w : world) : Prop :=
  forall k, 0 < k -> k < length (w_heap w) -> nth_error (w_heap w) k = Some None.
(** User code that does not panic, values whose drop does not panic. *)
Definition no_user_panics (bomb : nat -> bool) (U : nat -> list uact * uend) : Prop :=
  (forall x, bomb x = false) /\ (forall i, snd (U i) <> UPanic).
Definition not_aborted (tr : list (xop * res unit)) : Prop := Forall (fun e => snd e <> Fault FAbort) tr.
Definition forgets_some (tr : list (xop * res unit)) : bool := existsb (fun e => match fst e with XForget => true | _ => false end) tr.
(** The user's builder, if b still holds one (that is, until finish succeeds). *)
Fixpoint user_builder (b : bld) : list nat :=
  match b with BUser _ _ i => [i] | BIgnore => [] | BBox _ _ _ _ inner => user_builder inner end.
