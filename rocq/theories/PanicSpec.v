(** Specifications for failing and panicking user code: the outcome of every call is
    recorded, and a little automaton says what a run that respects them looks like. *)
From Coq Require Import ZArith List Bool.
From Verif Require Import Base F64 Lexer Driver ParseSpec.
Import ListNotations.

Section Panics.
Context {St V SH MH : Type}.
Variable I : iface St V SH MH.
Notation call := (call V SH MH).

(** ** Builders handed out and dropped, according to a list of calls *)
Definition handed_out (c : call) : list (layer SH MH) :=
  match c with CSeq _ (Some q) => [LSeq q] | CMap _ (Some m) => [LMap m] | _ => [] end.
Definition dropped (c : call) : list (layer SH MH) :=
  match c with CSeqDrop q => [LSeq q] | CMapDrop m => [LMap m] | _ => [] end.

(** ** Calls with their outcomes *)
Inductive outcome := OOk | OErr | OFault (f : fault).
Definition outcome_of {A} (r : res A) : outcome :=
  match r with Ok _ => OOk | Err => OErr | Fault f => OFault f end.

Definition trace_call {A} (c : res A -> call) (f : St -> res A * St) (sl : St * list (call * outcome))
  : res A * (St * list (call * outcome)) :=
  let r := f (fst sl) in (fst r, (snd r, snd sl ++ [(c (fst r), outcome_of (fst r))])).

(** The implementation I, also recording every call and how it ended. *)
Definition traced : iface (St * list (call * outcome)) V SH MH := {|
  v_null := fun v => trace_call (fun _ => CNull v) (v_null I v);
  v_bool := fun v b => trace_call (fun _ => CBool v b) (v_bool I v b);
  v_str := fun v s => trace_call (fun _ => CStr v s) (v_str I v s);
  v_neg := fun v n => trace_call (fun _ => CNeg v n) (v_neg I v n);
  v_nonneg := fun v n => trace_call (fun _ => CNonneg v n) (v_nonneg I v n);
  v_float := fun v f => trace_call (fun _ => CFloat v f) (v_float I v f);
  v_seq := fun v => trace_call (fun r => CSeq v (opened r)) (v_seq I v);
  v_map := fun v => trace_call (fun r => CMap v (opened r)) (v_map I v);
  s_element := fun q => trace_call (fun _ => CElement q) (s_element I q);
  s_finish := fun q => trace_call (fun _ => CSeqFinish q) (s_finish I q);
  s_drop := fun q => trace_call (fun _ => CSeqDrop q) (s_drop I q);
  m_key := fun m k => trace_call (fun _ => CKey m k) (m_key I m k);
  m_finish := fun m => trace_call (fun _ => CMapFinish m) (m_finish I m);
  m_drop := fun m => trace_call (fun _ => CMapDrop m) (m_drop I m)
|}.

(** ** What may follow what *)
Inductive status :=
| Running              (* nothing has failed so far *)
| Failing              (* a method returned an error *)
| Panicking            (* a method or a drop panicked: the stack is being unwound *)
| Dead (f : fault).    (* the process is gone *)

(** None: this call must not happen here. After the first failure only drops are allowed,
    after the death of the process nothing. *)
Definition step (s : status) (e : call * outcome) : option status :=
  match s, is_drop (fst e), snd e with
  | Running, _, OOk => Some Running
  | Running, false, OErr => Some Failing
  | Running, true, OErr => Some Running       (* a drop has no result *)
  | Running, _, OFault FPanic => Some Panicking
  | Running, _, OFault f => Some (Dead f)
  | Failing, true, OFault FPanic => Some Panicking
  | Failing, true, OFault f => Some (Dead f)
  | Failing, true, _ => Some Failing
  | Panicking, true, OFault FPanic => Some (Dead FAbort)
  | Panicking, true, OFault f => Some (Dead f)
  | Panicking, true, _ => Some Panicking
  | _, _, _ => None
  end.
Fixpoint run_status (s : status) (log : list (call * outcome)) : option status :=
  match log with
  | [] => Some s
  | e :: log' => match step s e with Some s' => run_status s' log' | None => None end
  end.
(** The status after all calls of a run. *)
Definition status_of (log : list (call * outcome)) : option status := run_status Running log.

(** The result of from_str that a status calls for. If no call fails, it is up to the text:
    success or an error, but no panic. *)
Definition calls_for {A} (s : status) (r : res A) : Prop :=
  match s with
  | Running => is_fault r = false
  | Failing => r = Err
  | Panicking => r = Fault FPanic
  | Dead f => r = Fault f
  end.
(** Methods fail only by returning an error or by panicking; drops do not panic. *)
Definition only_panics {A B} (f : A -> res B * A) : Prop := forall a, orderly (fst (f a)) = true.
Definition tame : Prop :=
  (forall v, only_panics (v_null I v)) /\ (forall v b, only_panics (v_bool I v b)) /\ (forall v s, only_panics (v_str I v s)) /\
  (forall v n, only_panics (v_neg I v n)) /\ (forall v n, only_panics (v_nonneg I v n)) /\ (forall v f, only_panics (v_float I v f)) /\
  (forall v, only_panics (v_seq I v)) /\ (forall v, only_panics (v_map I v)) /\
  (forall q, only_panics (s_element I q)) /\ (forall q, only_panics (s_finish I q)) /\ (forall q, never (s_drop I q)) /\
  (forall m k, only_panics (m_key I m k)) /\ (forall m, only_panics (m_finish I m)) /\ (forall m, never (m_drop I m)).
End Panics.
