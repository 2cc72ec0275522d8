(** C57: json::to_string of any value built from the crate's types, from derived types and
    from user-defined impls, whatever these do: in terms of to_string of its parts. *)
From Coq Require Import String ZArith List Bool Lia Floats.SpecFloat.
From Verif Require Import Base Utf8 F64 Lexer Types Ser SerSpec OpenSer OpenSerSpec OpenSerFacts OpenSerMain.
Import ListNotations.
Open Scope Z_scope.

Section Claims.
Context {St X K SQ MP : Type}.
Variable U : user St X K SQ MP.
Variable ryu : f64 -> bytes.
Hypothesis HU : rust_like U.
Notation writes := (writes U ryu).
Notation each := (each U ryu).
Notation each_entry := (each_entry U ryu).

(** There is one outcome at most: a text, a panic, or an abort. *)
Theorem C57_one_outcome c st r st' : writes c st r st' ->
  ((exists s, r = Ok s) \/ r = Fault FPanic \/ r = Fault FAbort) /\
  forall r2 st2, writes c st r2 st2 -> r2 = r /\ st2 = st'.
Proof.
  intros H. split; [eapply writes_usual; eassumption|]. intros r2 st2 H2.
  destruct (writes_det U ryu HU _ _ _ _ _ _ H H2) as [-> ->]. split; reflexivity.
Qed.

(** Scalars. *)
Theorem C57_scalars st r st' :
  (writes CUnit st r st' <-> r = Ok (bs "null") /\ st' = st) /\
  (forall b, writes (CBool b) st r st' <-> r = Ok (bs (if b then "true" else "false")) /\ st' = st) /\
  (forall s, writes (CStr s) st r st' <-> r = Ok (quote (text s)) /\ st' = st) /\
  (forall n, 0 <= n < 2 ^ 64 -> (writes (CUnsigned n) st r st' <-> r = Ok (itoa n) /\ st' = st)) /\
  (forall n, - 2 ^ 63 <= n < 2 ^ 63 -> (writes (CSigned n) st r st' <-> r = Ok (itoa n) /\ st' = st)) /\
  (forall f, writes (CFloat f) st r st' <-> r = Ok (if f_is_finite f then ryu f else bs "null") /\ st' = st) /\
  (forall name, writes (CVariant name) st r st' <-> r = Ok (quote (text name)) /\ st' = st).
Proof.
  split; [|split; [|split; [|split; [|split; [|split]]]]]; intros.
  - eapply writes_scalar; [reflexivity|intros out; reflexivity].
  - eapply writes_scalar; [reflexivity|intros out; destruct b; reflexivity].
  - eapply writes_scalar; [reflexivity|]. intros out. cbn [ser_turn]. rewrite EscFacts.escape_str_eq by apply text_utf8. reflexivity.
  - eapply writes_scalar; [reflexivity|]. intros out. cbn [ser_turn]. unfold wrap_u. rewrite Z.mod_small by lia. reflexivity.
  - eapply writes_scalar; [reflexivity|]. intros out. cbn [ser_turn].
    replace (wrap_s 64 n) with n; [reflexivity|]. unfold wrap_s. change (64 - 1) with 63. rewrite Z.mod_small by lia. lia.
  - eapply writes_scalar; [reflexivity|intros out; reflexivity].
  - eapply writes_scalar; [reflexivity|]. intros out. cbn [ser_turn]. rewrite EscFacts.escape_str_eq by apply text_utf8. reflexivity.
Qed.

(** &T, Box<T>, Cow<T> and Some(t) are t. *)
Theorem C57_reference c st r st' : writes (CRef c) st r st' <-> writes c st r st'.
Proof. apply (writes_same U ryu (CRef c) c). reflexivity. Qed.
Theorem C57_option o st r st' :
  writes (COption o) st r st' <-> match o with Some c => writes c st r st' | None => r = Ok (bs "null") /\ st' = st end.
Proof. destruct o as [c|]; [apply (writes_same U ryu (COption (Some c)) c); reflexivity|]. eapply writes_scalar; [reflexivity|intros out; reflexivity]. Qed.

(** [T], [T; N], Vec<T>: the elements' texts, each as to_string writes it, in order. *)
Theorem C57_slice l st r st' : writes (CSlice l) st r st' <-> exists rs, each l st rs st' /\ r = in_brackets rs.
Proof.
  rewrite (writes_seq U ryu HU (CSlice l) (OSlice l) st st r st' eq_refl).
  split; intros [rs [H ->]]; exists rs; (split; [apply (drained_slice U ryu HU), H|reflexivity]).
Qed.
Theorem C57_pair a b st r st' : writes (CPair a b) st r st' <-> exists rs, each [a; b] st rs st' /\ r = in_brackets rs.
Proof.
  rewrite (writes_seq U ryu HU (CPair a b) (OTuple a b 0) st st r st' eq_refl).
  split; intros [rs [H ->]]; exists rs; (split; [apply (drained_tuple U ryu HU a b 0), H|reflexivity]).
Qed.
(** HashMap, BTreeMap: key.to_string() quoted, then the value. *)
Theorem C57_map l st r st' : writes (CMap l) st r st' <-> exists rs, each_entry l st rs st' /\ r = in_braces rs.
Proof.
  rewrite (writes_map U ryu HU (CMap l) (OEntries l) st st r st' eq_refl).
  split; intros [rs [H ->]]; exists rs; (split; [apply (drained_entries U ryu HU), H|reflexivity]).
Qed.
(** A derived struct: its fields, in the order of declaration, under their names. *)
Theorem C57_struct fs st r st' :
  writes (CStruct fs) st r st' <->
  exists rs, each (map snd fs) st rs st' /\ r = in_braces (with_names (map (fun f => text (fst f)) fs) rs).
Proof.
  rewrite (writes_map U ryu HU (CStruct fs) (OFields fs 0) st st r st' eq_refl).
  pose proof (drained_fields U ryu HU fs fs 0 eq_refl st) as D. split.
  - intros [rs [H ->]]. apply D in H. destruct H as (rs0 & H & ->). exists rs0. split; [exact H|reflexivity].
  - intros [rs [H ->]]. exists (with_names (map (fun f => text (fst f)) fs) rs). split; [|reflexivity]. apply D. exists rs. split; [exact H|reflexivity].
Qed.

(** A user-defined begin() that panics; one that hands on to another value's begin();
    one that returns an iterator of its own. *)
Theorem C57_user_panics x st st1 : x_begin U x st = (Fault FPanic, st1) ->
  forall r st', writes (CUser x) st r st' <-> r = Fault FPanic /\ st' = st1.
Proof. intros E. apply (writes_panic U ryu (CUser x) st st1 E). Qed.
Theorem C57_user_delegates x st c st1 f st2 :
  c_begin U c st1 = (Ok f, st2) -> x_begin U x st = (Ok f, st2) ->
  forall r st', writes (CUser x) st r st' <-> writes c st1 r st'.
Proof. intros E1 E2. apply (writes_begin U ryu (CUser x) st f st2 c st1 E2 E1). Qed.
Theorem C57_user_sequence x st q st1 : x_begin U x st = (Ok (FSeq (OUserSeq q)), st1) ->
  forall r st', writes (CUser x) st r st' <->
    exists rs, drained U ryu (x_seq_next U) (x_seq_drop U) q st1 rs st' /\ r = in_brackets rs.
Proof.
  intros E r st'. rewrite (writes_seq U ryu HU (CUser x) _ st st1 r st' E).
  split; intros [rs [H ->]]; exists rs; (split; [apply drained_user, H|reflexivity]).
Qed.
Theorem C57_user_map x st m st1 : x_begin U x st = (Ok (FMap (OUserMap m)), st1) ->
  forall r st', writes (CUser x) st r st' <->
    exists rs, drained_map U ryu (x_map_next U) (x_map_drop U) m st1 rs st' /\ r = in_braces rs.
Proof.
  intros E r st'. rewrite (writes_map U ryu HU (CUser x) _ st st1 r st' E).
  split; intros [rs [H ->]]; exists rs; (split; [apply drained_user_map, H|reflexivity]).
Qed.
End Claims.

(** An example: the world is a counter of the calls made. [Tick] says how often user code has
    run; [Wrap] hands out a slice; [Count n] is a sequence of its own that yields n ticks
    and counts its drop; [Boom] panics; the keys of maps count too, and the key 9 panics. *)
Inductive thing := Tick | Wrap | Count (n : nat) | Boom | Bomb.
Definition digit (n : nat) : bytes := [48 + Z.of_nat n].
Definition example_user : user nat thing nat (nat * bool) Empty_set := {|
  x_begin := fun x st =>
    match x with
    | Tick => (Ok (FU64 (Z.of_nat st)), S st)
    | Wrap => (Ok (FSeq (OSlice [CUser Tick; CRef (CUser Tick)])), S st)
    | Count n => (Ok (FSeq (OUserSeq (n, true))), S st)
    | Boom => (Fault FPanic, S st)
    | Bomb => (Ok (FSeq (OUserSeq (0%nat, false))), S st)
    end;
  x_seq_next := fun q st =>
    match q with
    | (S n, b) => (Ok (Some (CUser Tick)), (n, b), S st)
    | (O, true) => (Ok None, q, S st)
    | (O, false) => (Ok (Some (CUser Boom)), q, st)
    end;
  x_map_next := fun m : Empty_set => match m with end;
  x_seq_drop := fun q st => (if snd q then Ok tt else Fault FPanic, (100 + st)%nat);
  x_map_drop := fun m : Empty_set => match m with end;
  x_key := fun k st => (if (k =? 9)%nat then Fault FPanic else Ok (digit (k mod 10)), S st)
|}.
Lemma digit_ok : forall k, (k < 10)%nat -> str_ok (digit k) = true.
Proof. intros k. do 10 (destruct k as [|k]; [intros _; reflexivity|]). lia. Qed.
Example ex_rust_like : rust_like example_user.
Proof.
  unfold rust_like, example_user, runs; cbn [x_begin x_seq_next x_map_next x_seq_drop x_map_drop x_key].
  split; [|split; [|split; [|split; [|split]]]].
  - intros x st. split; [destruct x; cbn [fst]; eauto|]. intros s st' H. destruct x; discriminate H.
  - intros [[|n] [|]] st; cbn [fst]; eauto.
  - intros [].
  - intros [n [|]] st; cbn; eauto.
  - intros [].
  - intros k st. destruct (k =? 9)%nat; split; cbn [fst]; eauto; intros s st' H; inversion H; subst. apply digit_ok, (Nat.mod_upper_bound k 10). discriminate.
Qed.
Definition a_struct : cval thing nat :=
  CStruct [(mk_rstr (bs "xs") eq_refl, CSlice [CUser Tick; COption (Some (CUser Wrap)); COption None]);
           (mk_rstr (bs "m") eq_refl, CMap [(3%nat, CUser (Count 2)); (4%nat, CPair (CUser Tick) CUnit)])].
Example ex_struct : writes example_user (fun _ => []) a_struct 0%nat (Ok (bs "{""xs"":[0,[2,3],null],""m"":{""3"":[7,9],""4"":[112,null]}}")) 113%nat.
Proof. exists 40%nat. split; [vm_compute; reflexivity|discriminate]. Qed.
(** The same, from the parts. *)
Example ex_slice_parts : writes example_user (fun _ => []) (CSlice [CUser Tick; CUser Wrap]) 0%nat (Ok (bs "[0,[2,3]]")) 4%nat.
Proof.
  apply (C57_slice _ _ ex_rust_like). exists (Ok [bs "0"; bs "[2,3]"]). split; [|reflexivity].
  apply (ea_cons _ _ _ _ _ (bs "0") 1%nat (Ok [bs "[2,3]"])); [exists 1%nat; split; [reflexivity|discriminate]|].
  apply (ea_cons _ _ _ _ _ (bs "[2,3]") 4%nat (Ok [])); [|constructor].
  apply (C57_user_delegates example_user (fun _ => []) Wrap 1%nat (CSlice [CUser Tick; CRef (CUser Tick)]) 2%nat _ 2%nat eq_refl eq_refl).
  exists 9%nat. split; [reflexivity|discriminate].
Qed.
(** A panic stops the writing; the iterators on the way are dropped. *)
Example ex_panic : writes example_user (fun _ => []) (CSlice [CUser Tick; CUser Boom; CUser Tick]) 0%nat (Fault FPanic) 2%nat.
Proof. exists 9%nat. split; [vm_compute; reflexivity|discriminate]. Qed.
Example ex_panic_key : writes example_user (fun _ => []) (CMap [(1%nat, CUser Tick); (9%nat, CUser Tick)]) 0%nat (Fault FPanic) 3%nat.
Proof. exists 9%nat. split; [vm_compute; reflexivity|discriminate]. Qed.
Example ex_abort : writes example_user (fun _ => []) (CPair (CUser Tick) (CUser Bomb)) 0%nat (Fault FAbort) 103%nat.
Proof. exists 9%nat. split; [vm_compute; reflexivity|discriminate]. Qed.
(** A user-defined sequence, from its calls of next() and its drop. *)
Example ex_user_sequence : writes example_user (fun _ => []) (CUser (Count 1)) 0%nat (Ok (bs "[2]")) 104%nat.
Proof.
  apply (C57_user_sequence example_user (fun _ => []) ex_rust_like (Count 1) 0%nat (1%nat, true) 1%nat eq_refl).
  exists (Ok [bs "2"]). split; [|reflexivity].
  apply (dr_item _ _ _ _ (1%nat, true) 1%nat (CUser Tick) (0%nat, true) 2%nat (bs "2") 3%nat (Ok [])); [reflexivity|exists 1%nat; split; [reflexivity|discriminate]|].
  eapply dr_end; reflexivity.
Qed.
