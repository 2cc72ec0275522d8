(** Safe clients of the Deserialize impls. `miniserde::de` is public: besides from_str, any
    safe code may call T::begin(&mut out) and then drive the visitors and builders itself.
    A client is a list of operations; what the borrow checker accepts is the stack
    discipline below: a builder borrows from the visitor it came from, a visitor from the
    builder it came from, so only the innermost handle can be used, and a handle can be
    used again once the inner ones are gone. *)
From Coq Require Import ZArith List Bool.
From Verif Require Import Base Utf8 F64 Lexer Driver Types Impls.
Import ListNotations.
Open Scope Z_scope.

(** &mut dyn Visitor, Box<dyn Seq>, Box<dyn Map>: the handles a client holds (de/mod.rs:202-286). *)
Inductive handle := HVisitor (v : vh) | HSeq (s : bh) | HMap (m : bh).

(** The methods of the traits (de/mod.rs:202-286), and what safe Rust can do with any value. *)
Inductive cop :=
| CpVisit (ev : event)       (* null, boolean, string, negative, nonnegative, float *)
| CpSeq | CpMap              (* Visitor::seq, Visitor::map: open a builder *)
| CpElement                  (* Seq::element: obtain a visitor *)
| CpKey (key : bytes)        (* Map::key: obtain a visitor *)
| CpFinish                   (* Seq::finish, Map::finish *)
| CpDone                     (* the innermost handle goes out of scope; builders are dropped *)
| CpForget                   (* mem::forget of the innermost handle *)
| CpBegin                    (* T::begin(&mut out), when nothing borrows from out *)
| CpSet (x : option val).    (* out = x, when nothing borrows from out *)

(** The heap (address 0 is `out`), and the handles alive, the innermost first; the flag of a
    builder says whether a finish() has returned Ok. *)
Record cstate := mkc { c_heap : heap; c_open : list (handle * bool) }.

Section Client.
Variable E : env.
Variable k : nat.
Variable T : ty.
Notation I := (heap_iface E k).

(** let mut out: Option<T> = None; *)
Definition c_init : cstate := mkc [Some (OCell None)] [].

(** A call that returns a new handle borrowing from the innermost one, or Err. *)
Definition opens {A} (r : res A * heap) (f : A -> handle) (below : list (handle * bool)) : res unit * cstate :=
  match r with
  | (Ok a, h) => (Ok tt, mkc h ((f a, false) :: below))
  | (Err, h) => (Err, mkc h below)
  | (Fault e, h) => (Fault e, mkc h below)
  end.
(** finish(&mut self) (de/mod.rs:275-286): the builder stays open. *)
Definition finishes (r : res unit * heap) (b : handle) (done : bool) (below : list (handle * bool)) : res unit * cstate :=
  (fst r, mkc (snd r) ((b, match fst r with Ok _ => true | _ => done end) :: below)).

(** None: rejected by the compiler. *)
Definition cstep (op : cop) (s : cstate) : option (res unit * cstate) :=
  let h := c_heap s in
  match c_open s, op with
  | (HVisitor v, d) :: below, CpVisit ev => let r := vis E k v ev h in Some (fst r, mkc (snd r) (c_open s))
  | (HVisitor v, d) :: below, CpSeq => Some (opens (v_seq I v h) HSeq (c_open s))
  | (HVisitor v, d) :: below, CpMap => Some (opens (v_map I v h) HMap (c_open s))
  | (HVisitor v, d) :: below, (CpDone | CpForget) => Some (Ok tt, mkc h below)
  | (HSeq q, d) :: below, CpElement => Some (opens (s_element I q h) HVisitor (c_open s))
  | (HSeq q, d) :: below, CpFinish => Some (finishes (s_finish I q h) (HSeq q) d below)
  | (HSeq q, d) :: below, CpDone => let r := s_drop I q h in Some (fst r, mkc (snd r) below)
  | (HSeq q, d) :: below, CpForget => Some (Ok tt, mkc h below)
  | (HMap m, d) :: below, CpKey key => Some (opens (m_key I m key h) HVisitor (c_open s))
  | (HMap m, d) :: below, CpFinish => Some (finishes (m_finish I m h) (HMap m) d below)
  | (HMap m, d) :: below, CpDone => let r := m_drop I m h in Some (fst r, mkc (snd r) below)
  | (HMap m, d) :: below, CpForget => Some (Ok tt, mkc h below)
  | [], CpBegin => Some (Ok tt, mkc h [(HVisitor (VhPlace (slot0 0) T), false)])
  | [], CpSet x => let r := place_write (slot0 0) x h in Some (fst r, mkc (snd r) [])
  | _, _ => None
  end.

(** The arguments have the types of the methods' parameters. *)
Definition arg_ok (op : cop) : Prop :=
  match op with
  | CpVisit ENull | CpVisit (EBool _) => True
  | CpVisit (ENeg n) => i64_MIN <= n <= i64_MAX
  | CpVisit (ENonneg n) => 0 <= n <= u64_MAX
  | CpVisit (EFloat f) => f64_ok f = true
  | CpVisit (EStr s) => str_ok s = true
  | CpVisit ESeqStart | CpVisit EMapStart => False
  | CpKey key => str_ok key = true
  | CpSet (Some v) => has_type E T v
  | _ => True
  end.

(** A client runs: the operations with their results. It may catch panics and go on. *)
Fixpoint crun (ops : list cop) (s : cstate) : option (list (res unit) * cstate) :=
  match ops with
  | [] => Some ([], s)
  | op :: ops' =>
      match cstep op s with
      | None => None
      | Some (r, s1) => match crun ops' s1 with Some (rs, s2) => Some (r :: rs, s2) | None => None end
      end
  end.
End Client.

(** The value of `out`. *)
Definition c_out (s : cstate) : option val :=
  match c_heap s with Some (OCell x) :: _ => x | _ => None end.
(** No allocation besides `out` is alive. *)
Definition c_released (s : cstate) : Prop :=
  exists x M, c_heap s = Some (OCell x) :: M /\ Forall (fun c => c = None) M.
Definition forgets (op : cop) : bool := match op with CpForget => true | _ => false end.
