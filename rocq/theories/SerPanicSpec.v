(** Serialize implementations that panic: iterators are numbered in the order in which they
    are handed out, calls are recorded with their outcome, and a small machine says which
    sequences of calls respect the nesting of the iterators. *)
From Coq Require Import ZArith List Bool.
From Verif Require Import Base F64 Lexer Ser ParseSpec PanicSpec.
Import ListNotations.

Inductive sevent :=
| EBegin (opened : option nat) (o : outcome)   (* begin(), and the iterator it returned *)
| ENext (n : nat) (o : outcome)                (* next() of iterator n *)
| EDrop (n : nat) (o : outcome).               (* iterator n is dropped *)

Section Numbered.
Context {St D SQ MP : Type}.
Variable I : siface St D SQ MP.
(** The state of I, the number of iterators so far, the events so far. *)
Definition nst : Type := St * nat * list sevent.

(** The implementation I, its iterators numbered, recording every call. *)
Definition numbered_ser : siface nst D (nat * SQ) (nat * MP) := {|
  i_begin := fun d '(st, n, l) =>
    match i_begin I d st with
    | (Ok (FSeq q), st1) => (Ok (FSeq (n, q)), (st1, S n, l ++ [EBegin (Some n) OOk]))
    | (Ok (FMap m), st1) => (Ok (FMap (n, m)), (st1, S n, l ++ [EBegin (Some n) OOk]))
    | (Ok FNull, st1) => (Ok FNull, (st1, n, l ++ [EBegin None OOk]))
    | (Ok (FBool b), st1) => (Ok (FBool b), (st1, n, l ++ [EBegin None OOk]))
    | (Ok (FStr s), st1) => (Ok (FStr s), (st1, n, l ++ [EBegin None OOk]))
    | (Ok (FU64 z), st1) => (Ok (FU64 z), (st1, n, l ++ [EBegin None OOk]))
    | (Ok (FI64 z), st1) => (Ok (FI64 z), (st1, n, l ++ [EBegin None OOk]))
    | (Ok (FF64 f), st1) => (Ok (FF64 f), (st1, n, l ++ [EBegin None OOk]))
    | (Err, st1) => (Err, (st1, n, l ++ [EBegin None OErr]))
    | (Fault f, st1) => (Fault f, (st1, n, l ++ [EBegin None (OFault f)]))
    end;
  i_seq_next := fun nq '(st, n, l) =>
    let '(r, q', st1) := i_seq_next I (snd nq) st in (r, (fst nq, q'), (st1, n, l ++ [ENext (fst nq) (outcome_of r)]));
  i_map_next := fun nm '(st, n, l) =>
    let '(r, m', st1) := i_map_next I (snd nm) st in (r, (fst nm, m'), (st1, n, l ++ [ENext (fst nm) (outcome_of r)]));
  i_seq_drop := fun nq '(st, n, l) =>
    let '(r, st1) := i_seq_drop I (snd nq) st in (r, (st1, n, l ++ [EDrop (fst nq) (outcome_of r)]));
  i_map_drop := fun nm '(st, n, l) =>
    let '(r, st1) := i_map_drop I (snd nm) st in (r, (st1, n, l ++ [EDrop (fst nm) (outcome_of r)]))
|}.

(** No method returns an error (in Rust they cannot). *)
Definition infallible : Prop :=
  (forall d st, fst (i_begin I d st) <> Err) /\
  (forall q st, fst (fst (i_seq_next I q st)) <> Err) /\
  (forall m st, fst (fst (i_map_next I m st)) <> Err).
End Numbered.

(** The iterators open after a sequence of events, the innermost first. None if next() is
    called on, or a drop hits, an iterator that is not the innermost open one: an outer
    iterator must not be touched while an inner one, which may borrow from it, is alive. *)
Fixpoint nest (open : list nat) (l : list sevent) : option (list nat) :=
  match l with
  | [] => Some open
  | EBegin None _ :: l' => nest open l'
  | EBegin (Some n) _ :: l' => nest (n :: open) l'
  | ENext n _ :: l' => match open with k :: _ => if Nat.eqb n k then nest open l' else None | [] => None end
  | EDrop n _ :: l' => match open with k :: open' => if Nat.eqb n k then nest open' l' else None | [] => None end
  end.

(** The iterators handed out and dropped. *)
Definition ev_opened (e : sevent) : list nat := match e with EBegin (Some n) _ => [n] | _ => [] end.
Definition ev_dropped (e : sevent) : list nat := match e with EDrop n _ => [n] | _ => [] end.

(** What may follow what: after the first panic only drops. *)
Definition sev_drop (e : sevent) : bool := match e with EDrop _ _ => true | _ => false end.
Definition sev_outcome (e : sevent) : outcome := match e with EBegin _ o | ENext _ o | EDrop _ o => o end.
Definition sev_step (s : status) (e : sevent) : option status :=
  match s, sev_drop e, sev_outcome e with
  | Running, false, OErr => None
  | Running, _, OFault FPanic => Some Panicking
  | Running, _, OFault f => Some (Dead f)
  | Running, _, _ => Some Running
  | Panicking, true, OFault FPanic => Some (Dead FAbort)
  | Panicking, true, OFault f => Some (Dead f)
  | Panicking, true, _ => Some Panicking
  | _, _, _ => None
  end.
Fixpoint sev_run (s : status) (l : list sevent) : option status :=
  match l with
  | [] => Some s
  | e :: l' => match sev_step s e with Some s' => sev_run s' l' | None => None end
  end.
(** The result of to_string a status calls for. If nothing panics, to_string returns, or it
    is still running when the budget is used up. *)
Definition scalls_for (s : status) (r : res bytes) : Prop :=
  match s with
  | Running => (exists out, r = Ok out) \/ r = Fault FFuel
  | Failing => False
  | Panicking => r = Fault FPanic
  | Dead f => r = Fault f
  end.
