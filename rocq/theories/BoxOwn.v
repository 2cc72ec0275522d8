(** Box<T> for an arbitrary user-defined T, any number of boxes deep: the unsafe code of
    BoxSeq / BoxMap / NonuniqueBox with a heap, a borrow stack per cell (a simplified
    Stacked Borrows: a use of a reference invalidates those derived from older ones after
    it), user code that may do anything with its place and fail or panic anywhere, and
    values whose drop may panic. Values are numbered in the order in which user code makes
    them. BoxSeq and BoxMap have the same code; `key` stands for `element` there. *)
From Coq Require Import List Bool Arith Lia.
From Verif Require Import Base ArrOwn.
Import ListNotations.

(** What user code does with its place: assign a new value (catching or not a panic of the
    drop of the old one), or take the value; and how it ends. *)
Inductive uact := UAssign (catch : bool) | UTake.
Inductive uend := UOk | UErr | UPanic.

Section BoxU.
(** Values whose drop panics; what the i-th call of user code does. *)
Variable bomb : nat -> bool.
Variable U : nat -> list uact * uend.

(** A cell of type Option<T>, with the references to it that may still be used. *)
Record cell := mkcell { c_val : option nat; c_stack : list nat }.
(** Heap (None: freed), next reference, calls of user code so far, builders made and
    dropped by user code, values dropped, taken away by user code or the caller, made. *)
Record world := mkw {
  w_heap : list (option cell);
  w_tags : nat;
  w_calls : nat;
  w_blds : nat;
  w_bdropped : list nat;
  w_dropped : list nat;
  w_taken : list nat;
  w_next : nat
}.

Definition M A := world -> res A * world.
Definition ret {A} (a : A) : M A := fun w => (Ok a, w).
Definition bind {A B} (m : M A) (f : A -> M B) : M B := fun w =>
  match m w with
  | (Ok a, w') => f a w'
  | (Err, w') => (Err, w')
  | (Fault e, w') => (Fault e, w')
  end.
Definition crash {A} (f : fault) : M A := fun w => (Fault f, w).
Definition throw {A} : M A := fun w => (Err, w).
Notation "'do' x <- m ; f" := (bind m (fun x => f)) (at level 60, right associativity, x pattern).

(** Code that runs when a scope is left: a panic during unwinding aborts. *)
Definition leave {A} (r : res A) (fin : M unit) : M A := fun w =>
  match r, fin w with
  | Fault FPanic, (Fault FPanic, w') => (Fault FAbort, w')
  | Fault FPanic, (Fault f, w') => (Fault f, w')
  | Fault FPanic, (_, w') => (Fault FPanic, w')
  | Fault f, _ => (Fault f, w)
  | _, (Fault f, w') => (Fault f, w')
  | _, (_, w') => (r, w')
  end.
Definition finally {A} (m : M A) (fin : M unit) : M A := fun w => let (r, w1) := m w in leave r fin w1.
Definition on_fail {A} (m : M A) (fin : M unit) : M A := fun w =>
  match m w with (Ok a, w1) => (Ok a, w1) | (r, w1) => leave r fin w1 end.

Definition set_heap h w := mkw h (w_tags w) (w_calls w) (w_blds w) (w_bdropped w) (w_dropped w) (w_taken w) (w_next w).
Definition set_cell (l : nat) (c : option cell) (w : world) : world :=
  set_heap (firstn l (w_heap w) ++ c :: skipn (S l) (w_heap w)) w.

(** Dropping a value. *)
Definition dropv (o : option nat) : M unit := fun w =>
  let (r, d) := drop_opt bomb o (w_dropped w) in
  (r, mkw (w_heap w) (w_tags w) (w_calls w) (w_blds w) (w_bdropped w) d (w_taken w) (w_next w)).

(** Using the reference t to cell l: undefined behaviour if the cell was freed or the
    reference invalidated; invalidates the references above t. *)
Fixpoint pop_to (t : nat) (st : list nat) : option (list nat) :=
  match st with
  | [] => None
  | x :: st' => if x =? t then Some st else pop_to t st'
  end.
Definition touch (l t : nat) : M (option nat) := fun w =>
  match nth_error (w_heap w) l with
  | Some (Some c) =>
      match pop_to t (c_stack c) with
      | Some st => (Ok (c_val c), set_cell l (Some (mkcell (c_val c) st)) w)
      | None => (Fault FUB, w)
      end
  | _ => (Fault FUB, w)
  end.
(** &mut *r *)
Definition reborrow (l t : nat) : M nat := fun w =>
  match nth_error (w_heap w) l with
  | Some (Some c) =>
      match pop_to t (c_stack c) with
      | Some st =>
          let n := w_tags w in
          let w' := set_cell l (Some (mkcell (c_val c) (n :: st))) w in
          (Ok n, mkw (w_heap w') (S n) (w_calls w) (w_blds w) (w_bdropped w) (w_dropped w) (w_taken w) (w_next w))
      | None => (Fault FUB, w)
      end
  | _ => (Fault FUB, w)
  end.
Definition store (l : nat) (v : option nat) : M unit := fun w =>
  match nth_error (w_heap w) l with
  | Some (Some c) => (Ok tt, set_cell l (Some (mkcell v (c_stack c))) w)
  | _ => (Fault FUB, w)
  end.
(** *r = v: drops the old value; v is stored even if that panics. *)
Definition assign (l t : nat) (v : option nat) : M unit := do old <- touch l t; do _ <- store l v; dropv old.
(** r.take() *)
Definition take (l t : nat) : M (option nat) := do old <- touch l t; do _ <- store l None; ret old.

(** NonuniqueBox::new(None), ptr.rs:17-21; also a local variable `out: Option<T> = None`. *)
Definition new_cell : M (nat * nat) := fun w =>
  (Ok (length (w_heap w), w_tags w),
   mkw (w_heap w ++ [Some (mkcell None [w_tags w])]) (S (w_tags w)) (w_calls w) (w_blds w) (w_bdropped w) (w_dropped w) (w_taken w) (w_next w)).
(** Moving a NonuniqueBox, ptr.rs:5-9: a NonNull is not retagged (a Box would be: that is
    `reborrow`). *)
Definition nub_move (l t : nat) : M nat := ret t.
(** NonuniqueBox::drop, ptr.rs:53-61; or a local variable going out of scope. The memory is
    released even if the drop of the content panics. *)
Definition free (l t : nat) : M unit :=
  do old <- touch l t; do _ <- (fun w => (Ok tt, set_cell l None w)); dropv old.

(** User code running with the reference t to its place l. *)
Definition fresh : M nat := fun w =>
  (Ok (w_next w), mkw (w_heap w) (w_tags w) (w_calls w) (w_blds w) (w_bdropped w) (w_dropped w) (w_taken w) (S (w_next w))).
Definition give (o : option nat) : M unit := fun w =>
  (Ok tt, mkw (w_heap w) (w_tags w) (w_calls w) (w_blds w) (w_bdropped w) (w_dropped w)
              (w_taken w ++ match o with Some x => [x] | None => [] end) (w_next w)).
Definition catching (m : M unit) : M unit := fun w => match m w with (Fault FPanic, w') => (Ok tt, w') | z => z end.
Definition uact_run (l t : nat) (a : uact) : M unit :=
  match a with
  | UAssign catch => do x <- fresh; (if catch then catching else fun m => m) (assign l t (Some x))
  | UTake => do o <- take l t; give o
  end.
Fixpoint uacts_run (l t : nat) (s : list uact) : M unit :=
  match s with [] => ret tt | a :: s' => do _ <- uact_run l t a; uacts_run l t s' end.
Definition user_call (l t : nat) : M unit := fun w =>
  let '(s, e) := U (w_calls w) in
  (do _ <- uacts_run l t s; match e with UOk => ret tt | UErr => throw | UPanic => crash FPanic end)
    (mkw (w_heap w) (w_tags w) (S (w_calls w)) (w_blds w) (w_bdropped w) (w_dropped w) (w_taken w) (w_next w)).

(** Box<dyn Seq>: the user's builder (its place, its reference, its number), Ignore, or
    BoxSeq { out: (l, t), value: (c, ct), seq }, de/impls.rs:233-238. *)
Inductive bld := BUser (l t i : nat) | BIgnore | BBox (l t c ct : nat) (inner : bld).

(** The user's builder number i is used: undefined behaviour once it was dropped. *)
Definition alive_bld (i : nat) : M unit := fun w =>
  if in_dec Nat.eq_dec i (w_bdropped w) then (Fault FUB, w) else (Ok tt, w).
Definition new_bld : M nat := fun w =>
  (Ok (w_blds w), mkw (w_heap w) (w_tags w) (w_calls w) (S (w_blds w)) (w_bdropped w) (w_dropped w) (w_taken w) (w_next w)).
Definition drop_bld (i : nat) : M unit := fun w =>
  (Ok tt, mkw (w_heap w) (w_tags w) (w_calls w) (w_blds w) (w_bdropped w ++ [i]) (w_dropped w) (w_taken w) (w_next w)).

(** Visitor::seq of Place<Box<...Box<T>>> with n boxes, de/impls.rs:212-220 (map: 222-230).
    If the inner call fails, `value` is dropped. *)
Fixpoint bopen (n l t : nat) : M bld :=
  do t' <- reborrow l t;
  match n with
  | O => do _ <- user_call l t'; do i <- new_bld; ret (BUser l t' i)
  | S n' =>
      do (c, ct) <- new_cell;
      do p <- reborrow c ct;
      do inner <- on_fail (bopen n' c p) (free c ct);
      do ct' <- nub_move c ct;
      ret (BBox l t' c ct' inner)
  end.

(** BoxSeq::element, de/impls.rs:250-252 (BoxMap::key: 278-280), and the calls on the
    visitor it returns. *)
Fixpoint belement (b : bld) : M unit :=
  match b with
  | BUser l t i => do _ <- alive_bld i; user_call l t
  | BIgnore => ret tt
  | BBox _ _ _ _ inner => belement inner
  end.

(** Drop of Box<dyn Seq>. BoxSeq::drop, de/impls.rs:240-244, then the field `value`. *)
Fixpoint bdrop (b : bld) : M unit :=
  match b with
  | BUser l t i =>
      do _ <- alive_bld i; do _ <- drop_bld i;
      fun w => match user_call l t w with (Err, w') => (Ok tt, w') | z => z end
  | BIgnore => ret tt
  | BBox _ _ c ct inner => finally (bdrop inner) (free c ct)
  end.

(** BoxSeq::finish, de/impls.rs:254-259 (BoxMap: 282-287); the builder afterwards. *)
Fixpoint bfinish (b : bld) : world -> res unit * bld * world :=
  match b with
  | BUser l t i => fun w => let (r, w') := (do _ <- alive_bld i; user_call l t) w in (r, b, w')
  | BIgnore => fun w => (Ok tt, b, w)
  | BBox l t c ct inner => fun w =>
      match bfinish inner w with
      | (Ok _, i1, w1) =>
          let (r, w2) := (do _ <- bdrop i1;
                          do o <- take c ct;
                          match o with
                          | None => crash FPanic
                          | Some x => assign l t (Some x)
                          end) w1 in
          (r, BBox l t c ct BIgnore, w2)
      | (r, i1, w1) => (r, BBox l t c ct i1, w1)
      end
  end.

(** Visitor::null/boolean/string/negative/nonnegative/float of Place<Box<...Box<T>>>,
    de/impls.rs:170-210. *)
Fixpoint bscalar (n l t : nat) : M unit :=
  do t' <- reborrow l t;
  match n with
  | O => user_call l t'
  | S n' =>
      do (c, ct) <- new_cell;
      do p <- reborrow c ct;
      finally (do _ <- bscalar n' c p;
               do o <- take c ct;
               match o with
               | None => crash FPanic
               | Some x => assign l t' (Some x)
               end) (free c ct)
  end.

(** The caller's variable `out: Option<Box<...Box<T>>>` is cell 0, reference 0. *)
Definition w_init : world := mkw [Some (mkcell None [0])] 1 0 0 [] [] [] 0.

Inductive xop :=
| XOpen            (* T::begin(&mut out).seq() or .map() *)
| XScalar          (* T::begin(&mut out).null() etc. *)
| XElement         (* builder.element(), or a call on the visitor it returned *)
| XFinish          (* builder.finish() *)
| XClose           (* drop(builder) *)
| XForget          (* mem::forget(builder) *)
| XTakeOut         (* out.take(), when no builder is open *)
| XClearOut.       (* out = None, when no builder is open *)

Definition lift {A} (r : res A) : res unit := match r with Ok _ => Ok tt | Err => Err | Fault f => Fault f end.
(** n boxes. None: rejected by the borrow checker. *)
Definition xstep (n : nat) (op : xop) (s : option bld * world) : option (res unit * (option bld * world)) :=
  let (ob, w) := s in
  match ob, op with
  | None, XOpen => let (r, w') := bopen n 0 0 w in Some (lift r, (match r with Ok b => Some b | _ => None end, w'))
  | None, XScalar => let (r, w') := bscalar n 0 0 w in Some (r, (None, w'))
  | None, XTakeOut => let (r, w') := (do o <- take 0 0; give o) w in Some (r, (None, w'))
  | None, XClearOut => let (r, w') := assign 0 0 None w in Some (r, (None, w'))
  | Some b, XElement => let (r, w') := belement b w in Some (r, (Some b, w'))
  | Some b, XFinish => let '(r, b', w') := bfinish b w in Some (r, (Some b', w'))
  | Some b, XClose => let (r, w') := bdrop b w in Some (r, (None, w'))
  | Some b, XForget => Some (Ok tt, (None, w))
  | _, _ => None
  end.

(** A run; it may go on after a panic, but not after the process is aborted. *)
Inductive xruns (n : nat) : list (xop * res unit) -> option bld * world -> Prop :=
| xruns_nil : xruns n [] (None, w_init)
| xruns_step tr s op r s' :
    xruns n tr s -> Forall (fun e => snd e <> Fault FAbort) tr ->
    xstep n op s = Some (r, s') -> xruns n (tr ++ [(op, r)]) s'.
End BoxU.
