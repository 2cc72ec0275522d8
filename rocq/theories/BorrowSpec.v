(** The borrow rules that the crate switches off with `extend_lifetime!` (src/careful.rs)
    and pointers: handles are numbered as they are handed out, every call is recorded with
    the handle it is made on, and [borrows] is the rule book of the borrow checker. *)
From Coq Require Import ZArith List Bool.
From Verif Require Import Base F64 Lexer Driver Ser.
Import ListNotations.
Open Scope nat_scope.

(** For from_str a place is a `&mut dyn Visitor` and a builder a `Box<dyn Seq>` or
    `Box<dyn Map>` of miniserde::de. For to_string a place is a `&dyn Serialize` and a
    builder a `Box<dyn Seq>` or `Box<dyn Map>` of miniserde::ser. *)
Inductive bev :=
| BUse (p : nat)                    (* a call on place p that hands out nothing *)
| BOpen (p b : nat)                 (* a call on place p that hands out builder b: b borrows from p *)
| BAsk (b : nat) (p : option nat)   (* a call on builder b, which may hand out a place: it borrows from b *)
| BDrop (b : nat).                  (* builder b is dropped *)

Inductive loan := Place (p : nat) | Builder (b : nat).

(** The handles that are alive, the most recent borrow first. A handle must not be used
    while something that borrows from it is alive. A reference ends by not being used any
    more; a Box ends only by being dropped, which counts as a use of what it borrows from.
    None: the rules are violated. *)
Definition expire (s : list loan) : list loan := match s with Place _ :: s' => s' | _ => s end.
Definition borrow_step (s : list loan) (e : bev) : option (list loan) :=
  match e with
  | BUse p => match s with Place q :: _ => if Nat.eqb p q then Some s else None | _ => None end
  | BOpen p b => match s with Place q :: _ => if Nat.eqb p q then Some (Builder b :: s) else None | _ => None end
  | BAsk b o =>
      match expire s with
      | Builder c :: s' =>
          if Nat.eqb b c then Some (match o with Some p => Place p :: Builder c :: s' | None => Builder c :: s' end) else None
      | _ => None
      end
  | BDrop b => match expire s with Builder c :: s' => if Nat.eqb b c then Some s' else None | _ => None end
  end.
Fixpoint borrows (s : list loan) (l : list bev) : option (list loan) :=
  match l with
  | [] => Some s
  | e :: l' => match borrow_step s e with Some s' => borrows s' l' | None => None end
  end.

(** The numbers of the handles that a call hands out, and of the one it is made on. *)
Definition handed (e : bev) : list nat := match e with BOpen _ b => [b] | BAsk _ (Some p) => [p] | _ => [] end.
Definition target (e : bev) : nat := match e with BUse p | BOpen p _ => p | BAsk b _ | BDrop b => b end.

(** The same rules, one by one, for a record of calls. *)
Record borrow_rules (log : list bev) : Prop := {
  (* no two handles have the same number *)
  br_numbers : exists m, flat_map handed log = seq 1 m;
  (* a builder is not touched after it was dropped *)
  br_dropped : forall a b l, log = a ++ BDrop b :: l -> Forall (fun e => target e <> b) l;
  (* a place that borrows from builder b is not used once b is used again or dropped *)
  br_expired : forall a b p c e l, log = a ++ BAsk b (Some p) :: c ++ e :: l -> target e = b -> Forall (fun e' => target e' <> p) l;
  (* before that, all builders that borrow from the place have been dropped *)
  br_builders : forall a b p c e l b', log = a ++ BAsk b (Some p) :: c ++ e :: l -> target e = b -> In (BOpen p b') c -> In (BDrop b') c;
  (* a place is not used while a builder that borrows from it is alive *)
  br_borrowed : forall a p b c e l, log = a ++ BOpen p b :: c ++ e :: l -> ~ In (BDrop b) c -> target e <> p
}.

(** The state of the implementation, the number of handles so far, the calls so far. *)
Definition bst (St : Type) : Type := St * nat * list bev.
(** A new handle gets the next number. *)
Definition hand_out {St H} (ev : option nat -> bev) (f : St -> res H * St) (s : bst St) : res (nat * H) * bst St :=
  let '(st, n, l) := s in
  match f st with
  | (Ok h, st1) => (Ok (n, h), (st1, S n, l ++ [ev (Some n)]))
  | (Err, st1) => (Err, (st1, n, l ++ [ev None]))
  | (Fault e, st1) => (Fault e, (st1, n, l ++ [ev None]))
  end.
Definition record {St A} (ev : bev) (f : St -> res A * St) (s : bst St) : res A * bst St :=
  let '(st, n, l) := s in let '(r, st1) := f st in (r, (st1, n, l ++ [ev])).

(** ** Deserialization *)
Section De.
Context {St V SH MH : Type}.
Variable I : iface St V SH MH.
Definition opens (p : nat) (o : option nat) : bev := match o with Some b => BOpen p b | None => BUse p end.

(** The implementation I, its handles numbered, recording every call. *)
Definition borrowing_de : iface (bst St) (nat * V) (nat * SH) (nat * MH) := {|
  v_null := fun v => record (BUse (fst v)) (v_null I (snd v));
  v_bool := fun v b => record (BUse (fst v)) (v_bool I (snd v) b);
  v_str := fun v s => record (BUse (fst v)) (v_str I (snd v) s);
  v_neg := fun v n => record (BUse (fst v)) (v_neg I (snd v) n);
  v_nonneg := fun v n => record (BUse (fst v)) (v_nonneg I (snd v) n);
  v_float := fun v f => record (BUse (fst v)) (v_float I (snd v) f);
  v_seq := fun v => hand_out (opens (fst v)) (v_seq I (snd v));
  v_map := fun v => hand_out (opens (fst v)) (v_map I (snd v));
  s_element := fun q => hand_out (BAsk (fst q)) (s_element I (snd q));
  s_finish := fun q => record (BAsk (fst q) None) (s_finish I (snd q));
  s_drop := fun q => record (BDrop (fst q)) (s_drop I (snd q));
  m_key := fun m k => hand_out (BAsk (fst m)) (m_key I (snd m) k);
  m_finish := fun m => record (BAsk (fst m) None) (m_finish I (snd m));
  m_drop := fun m => record (BDrop (fst m)) (m_drop I (snd m))
|}.
(** The calls of from_str on the visitor v, which is place 0. *)
Definition de_borrows oc s v st : list bev := snd (snd (from_str_impl borrowing_de oc s (0, v) (st, 1, []))).
(** No drop of a Seq or Map panics. *)
Definition drops_do_not_panic : Prop :=
  (forall q st, fst (s_drop I q st) <> Fault FPanic) /\ (forall m st, fst (m_drop I m st) <> Fault FPanic).
End De.

(** ** Serialization *)
Section Ser.
Context {St D SQ MP : Type}.
Variable I : siface St D SQ MP.

Definition borrowing_ser : siface (bst St) (nat * D) (nat * SQ) (nat * MP) := {|
  i_begin := fun d '(st, n, l) =>
    match i_begin I (snd d) st with
    | (Ok (FSeq q), st1) => (Ok (FSeq (n, q)), (st1, S n, l ++ [BOpen (fst d) n]))
    | (Ok (FMap m), st1) => (Ok (FMap (n, m)), (st1, S n, l ++ [BOpen (fst d) n]))
    | (Ok FNull, st1) => (Ok FNull, (st1, n, l ++ [BUse (fst d)]))
    | (Ok (FBool b), st1) => (Ok (FBool b), (st1, n, l ++ [BUse (fst d)]))
    | (Ok (FStr s), st1) => (Ok (FStr s), (st1, n, l ++ [BUse (fst d)]))
    | (Ok (FU64 z), st1) => (Ok (FU64 z), (st1, n, l ++ [BUse (fst d)]))
    | (Ok (FI64 z), st1) => (Ok (FI64 z), (st1, n, l ++ [BUse (fst d)]))
    | (Ok (FF64 f), st1) => (Ok (FF64 f), (st1, n, l ++ [BUse (fst d)]))
    | (Err, st1) => (Err, (st1, n, l ++ [BUse (fst d)]))
    | (Fault f, st1) => (Fault f, (st1, n, l ++ [BUse (fst d)]))
    end;
  i_seq_next := fun q '(st, n, l) =>
    match i_seq_next I (snd q) st with
    | (Ok (Some d), q', st1) => (Ok (Some (n, d)), (fst q, q'), (st1, S n, l ++ [BAsk (fst q) (Some n)]))
    | (Ok None, q', st1) => (Ok None, (fst q, q'), (st1, n, l ++ [BAsk (fst q) None]))
    | (Err, q', st1) => (Err, (fst q, q'), (st1, n, l ++ [BAsk (fst q) None]))
    | (Fault f, q', st1) => (Fault f, (fst q, q'), (st1, n, l ++ [BAsk (fst q) None]))
    end;
  i_map_next := fun m '(st, n, l) =>
    match i_map_next I (snd m) st with
    | (Ok (Some (k, d)), m', st1) => (Ok (Some (k, (n, d))), (fst m, m'), (st1, S n, l ++ [BAsk (fst m) (Some n)]))
    | (Ok None, m', st1) => (Ok None, (fst m, m'), (st1, n, l ++ [BAsk (fst m) None]))
    | (Err, m', st1) => (Err, (fst m, m'), (st1, n, l ++ [BAsk (fst m) None]))
    | (Fault f, m', st1) => (Fault f, (fst m, m'), (st1, n, l ++ [BAsk (fst m) None]))
    end;
  i_seq_drop := fun q => record (BDrop (fst q)) (i_seq_drop I (snd q));
  i_map_drop := fun m => record (BDrop (fst m)) (i_map_drop I (snd m))
|}.
(** The calls of to_string on the value d, which is place 0. *)
Definition ser_borrows ryu fuel d st : list bev := snd (snd (to_string_impl borrowing_ser ryu fuel (0, d) (st, 1, []))).
End Ser.
