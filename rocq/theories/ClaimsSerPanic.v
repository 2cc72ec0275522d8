(** Claims about panicking user code under to_string: C50, C51. *)
From Coq Require Import String ZArith List Bool Lia Permutation.
From Verif Require Import Base Utf8 F64 Lexer Ser SerSpec ParseSpec PanicSpec SerPanicSpec SerPanic.
Import ListNotations.
Open Scope Z_scope.

(** The run with iterators numbered: its result and its events. *)
Definition ser_events {St D SQ MP} (I : siface St D SQ MP) ryu fuel d st : list sevent :=
  snd (snd (to_string_impl (numbered_ser I) ryu fuel d (st, 0%nat, []))).

(** Numbering and recording change nothing. *)
Theorem C50_recording_is_transparent {St D SQ MP} (I : siface St D SQ MP) ryu fuel d st :
  exists n log, to_string_impl (numbered_ser I) ryu fuel d (st, 0%nat, []) =
    (fst (to_string_impl I ryu fuel d st), (snd (to_string_impl I ryu fuel d st), n, log)).
Proof.
  pose proof (numbered_transparent I ryu fuel d st) as H. rewrite <- H. unfold erase, st_of.
  destruct (to_string_impl (numbered_ser I) ryu fuel d (st, 0%nat, [])) as [r [[s n] l]]. exists n, l. reflexivity.
Qed.

Lemma run_inv {St D SQ MP} (I : siface St D SQ MP) ryu fuel d st : strs_valid I -> infallible I ->
  exists n ls x, let res := to_string_impl (numbered_ser I) ryu fuel d (st, 0%nat, []) in
    nest [] (snd (snd res)) = Some ls /\ flat_map ev_opened (snd (snd res)) = seq 0 n /\
    sev_run Running (snd (snd res)) = Some x /\ scalls_for x (fst res) /\
    (orderly (fst res) = true -> ls = []).
Proof.
  intros HV HI. pose proof (numbered_run I ryu HV HI fuel d st) as H. unfold PL in H. cbv zeta.
  destruct (to_string_impl (numbered_ser I) ryu fuel d (st, 0%nat, [])) as [r [[s n] l]]. cbn [fst snd] in *. exists n.
  destruct r as [o| |f].
  - destruct H as (A & B & C). cbn [fst snd] in *. exists [], Running. repeat split; auto. left. eauto.
  - destruct H as (ls & x & _ & []).
  - destruct H as (ls & x & (A & B & C) & [S L]). cbn [fst snd] in *. exists ls, x. repeat split; auto.
    + destruct S as [-> | [-> ->]]; [destruct f; reflexivity|right; reflexivity].
    + intros K. apply L. destruct f; try discriminate K; reflexivity.
Qed.

(** Whatever panics, even drops: next() is called on, and drops hit, only the innermost open
    iterator, so never one that was dropped and never one that an open one may borrow from. *)
Theorem C50_nested {St D SQ MP} (I : siface St D SQ MP) ryu fuel d st :
  strs_valid I -> infallible I -> exists open, nest [] (ser_events I ryu fuel d st) = Some open.
Proof. intros HV HI. destruct (run_inv I ryu fuel d st HV HI) as (n & ls & x & H & _). exists ls. exact H. Qed.

(** If to_string returns or unwinds, every iterator handed out was dropped exactly once. *)
Theorem C50_each_iterator_dropped_once {St D SQ MP} (I : siface St D SQ MP) ryu fuel d st :
  strs_valid I -> infallible I -> orderly (fst (to_string_impl I ryu fuel d st)) = true ->
  let log := ser_events I ryu fuel d st in
  nest [] log = Some [] /\
  exists n, flat_map ev_opened log = seq 0 n /\ Permutation (flat_map ev_dropped log) (seq 0 n).
Proof.
  intros HV HI HO. destruct (run_inv I ryu fuel d st HV HI) as (n & ls & x & H1 & H2 & _ & _ & H5).
  destruct (C50_recording_is_transparent I ryu fuel d st) as (n' & l & E). unfold ser_events. cbv zeta in *. rewrite E in *. cbn [fst snd] in *.
  rewrite (H5 HO) in H1. split; [exact H1|]. exists n. split; [exact H2|]. apply nest_perm in H1. cbn [app] in H1. rewrite app_nil_r, H2 in H1. symmetry. exact H1.
Qed.

(** ** C51 *)
(** The first panic decides: nothing but drops follows, and to_string unwinds with it. If
    nothing panics, to_string returns (or is still running after [fuel] rounds). *)
Theorem C51_first_panic_decides {St D SQ MP} (I : siface St D SQ MP) ryu fuel d st :
  strs_valid I -> infallible I ->
  exists x, sev_run Running (ser_events I ryu fuel d st) = Some x /\ scalls_for x (fst (to_string_impl I ryu fuel d st)).
Proof.
  intros HV HI. destruct (run_inv I ryu fuel d st HV HI) as (n & ls & x & _ & _ & H3 & H4 & _).
  destruct (C50_recording_is_transparent I ryu fuel d st) as (n' & l & E). unfold ser_events. cbv zeta in *. rewrite E in *. cbn [fst snd] in *.
  exists x. auto.
Qed.

Lemma sev_drops b : forall s r, s <> Running -> sev_run s b = Some r -> Forall (fun e => sev_drop e = true) b.
Proof.
  induction b as [|e b IH]; intros s r HS H; [constructor|]. cbn [sev_run] in H. unfold sev_step in H.
  destruct s; [congruence|destruct (sev_drop e); discriminate| |destruct (sev_drop e); discriminate].
  destruct (sev_drop e) eqn:ED; [|discriminate]. constructor; [exact ED|].
  destruct (sev_outcome e) as [| |[]]; (eapply IH; [|exact H]; discriminate).
Qed.
Lemma sev_quiet b : forall r, (forall e f, In e b -> sev_outcome e <> OFault f) -> sev_run Panicking b = Some r -> r = Panicking.
Proof.
  induction b as [|e b IH]; intros r HN H; [cbn in H; congruence|]. cbn [sev_run] in H. unfold sev_step in H.
  destruct (sev_drop e); [|discriminate]. destruct (sev_outcome e) as [| |f] eqn:EO; [| |destruct (HN e f); [left; reflexivity|exact EO]];
    (apply IH; [|exact H]; intros e' f K; apply HN; right; exact K).
Qed.
(** Spelled out: after a call that panicked only drops; and if none of them panics as well,
    to_string ends with this panic. *)
Theorem C51_only_drops_after_a_panic {St D SQ MP} (I : siface St D SQ MP) ryu fuel d st a e b :
  strs_valid I -> infallible I -> ser_events I ryu fuel d st = a ++ e :: b -> sev_outcome e = OFault FPanic ->
  Forall (fun e' => sev_drop e' = true) b /\
  ((forall e' f, In e' (a ++ b) -> sev_outcome e' <> OFault f) -> fst (to_string_impl I ryu fuel d st) = Fault FPanic).
Proof.
  intros HV HI E EO. destruct (C51_first_panic_decides I ryu fuel d st HV HI) as (x & H1 & H2). rewrite E, sev_app in H1.
  destruct (sev_run Running a) as [s|] eqn:EA; [|discriminate]. cbn [sev_run] in H1. unfold sev_step in H1. rewrite EO in H1. split.
  - destruct s; try (destruct (sev_drop e); discriminate).
    + assert (sev_run Panicking b = Some x) as K by (destruct (sev_drop e); exact H1). eapply sev_drops; [|exact K]. discriminate.
    + destruct (sev_drop e); [|discriminate]. eapply sev_drops; [|exact H1]. discriminate.
  - intros HN.
    assert (s = Running) as ->.
    { assert (forall a' s0, (forall e' f, In e' a' -> sev_outcome e' <> OFault f) -> sev_run Running a' = Some s0 -> s0 = Running) as Q.
      { induction a' as [|e' a' IH]; intros s0 N Q; [cbn in Q; congruence|]. cbn [sev_run] in Q. unfold sev_step in Q.
        assert (forall e'' f, In e'' a' -> sev_outcome e'' <> OFault f) as N' by (intros e'' f K; apply N; right; exact K).
        destruct (sev_outcome e') as [| |f] eqn:EO'; [destruct (sev_drop e'); apply IH; assumption|destruct (sev_drop e'); [apply IH; assumption|discriminate]|destruct (N e' f); [left; reflexivity|exact EO']]. }
      apply (Q a s); [|exact EA]. intros e' f K. apply HN, in_or_app. left. exact K. }
    assert (sev_run Panicking b = Some x) as K by (destruct (sev_drop e); exact H1).
    apply sev_quiet in K; [|intros e' f J; apply HN, in_or_app; right; exact J]. subst x. exact H2.
Qed.
(** And if nothing panics, to_string does not. *)
Theorem C51_no_panic_of_its_own {St D SQ MP} (I : siface St D SQ MP) ryu fuel d st :
  strs_valid I -> infallible I -> (forall e f, In e (ser_events I ryu fuel d st) -> sev_outcome e <> OFault f) ->
  (exists out, fst (to_string_impl I ryu fuel d st) = Ok out) \/ fst (to_string_impl I ryu fuel d st) = Fault FFuel.
Proof.
  intros HV HI HN. destruct (C51_first_panic_decides I ryu fuel d st HV HI) as (x & H1 & H2).
  assert (x = Running) as ->; [|exact H2].
  revert HN H1. generalize (ser_events I ryu fuel d st) as l. induction l as [|e l IH]; intros HN H; [cbn in H; congruence|]. cbn [sev_run] in H. unfold sev_step in H.
  assert (forall e' f, In e' l -> sev_outcome e' <> OFault f) as N' by (intros e' f K; apply HN; right; exact K).
  destruct (sev_outcome e) as [| |f] eqn:EO; [destruct (sev_drop e); apply IH; assumption|destruct (sev_drop e); [apply IH; assumption|discriminate]|destruct (HN e f); [left; reflexivity|exact EO]].
Qed.

(** ** Examples *)
(** Trees: a leaf is a number, but begin() of the leaf 13 panics; a list is a sequence whose
    next() panics at the element 14; a member list is a map. The state counts the drops:
    drop number [bad] panics. *)
Inductive stree := SLeaf (n : Z) | SList (l : list stree) | SMember (l : list (bytes * stree)).
Definition trees (bad : nat) : siface nat stree (list stree) (list (bytes * stree)) := {|
  i_begin := fun d st => (match d with SLeaf n => if n =? 13 then Fault FPanic else Ok (FU64 n) | SList l => Ok (FSeq l)
    | SMember l => Ok (FMap (map (fun e => (if str_ok (fst e) then fst e else [], snd e)) l)) end, st);
  i_seq_next := fun q st => match q with [] => (Ok None, [], st) | SLeaf 14 :: q' => (Fault FPanic, q', st) | d :: q' => (Ok (Some d), q', st) end;
  i_map_next := fun m st => match m with [] => (Ok None, [], st) | (k, d) :: m' => (Ok (Some (if str_ok k then k else [], d)), m', st) end;
  i_seq_drop := fun q st => (if Nat.eqb st bad then Fault FPanic else Ok tt, S st);
  i_map_drop := fun m st => (if Nat.eqb st bad then Fault FPanic else Ok tt, S st)
|}.
Lemma trees_ok bad : strs_valid (trees bad) /\ infallible (trees bad).
Proof.
  split; [split|split; [|split]].
  - intros [n|l|l] st s st' H; cbn in H; try discriminate. destruct (n =? 13); discriminate.
  - intros [|[k d] m] st k' d' m' st' H; cbn [trees i_map_next] in H; [discriminate|]. injection H as <- _ _ _. destruct (str_ok k) eqn:E; [exact E|reflexivity].
  - intros [n|l|l] st; cbn; try discriminate. destruct (n =? 13); discriminate.
  - intros [|d q] st; cbn [trees i_seq_next fst]; [discriminate|]. destruct d as [n| |]; [|discriminate|discriminate]. destruct n as [|p|p]; try discriminate. do 5 (destruct p as [p|p|]; try discriminate).
  - intros [|[k d] m] st; cbn; discriminate.
Qed.
Definition ex_tree (n : Z) : stree := SList [SLeaf 1; SList []; SMember [(bs "a", SList [SLeaf n; SLeaf 2])]; SLeaf 3].
(** Without a panic: three iterators besides the root, all dropped. *)
Example ex_C50_return :
  fst (to_string_impl (trees 99) (fun _ => []) 20 (ex_tree 7) 0%nat) = Ok (bs "[1,[],{""a"":[7,2]},3]") /\
  ser_events (trees 99) (fun _ => []) 20 (ex_tree 7) 0%nat =
   [EBegin (Some 0) OOk; ENext 0 OOk; EBegin None OOk; ENext 0 OOk; EBegin (Some 1) OOk; ENext 1 OOk; EDrop 1 OOk;
    ENext 0 OOk; EBegin (Some 2) OOk; ENext 2 OOk; EBegin (Some 3) OOk; ENext 3 OOk; EBegin None OOk; ENext 3 OOk; EBegin None OOk;
    ENext 3 OOk; EDrop 3 OOk; ENext 2 OOk; EDrop 2 OOk; ENext 0 OOk; EBegin None OOk; ENext 0 OOk; EDrop 0 OOk]%nat.
Proof. split; vm_compute; reflexivity. Qed.
(** begin() of the leaf 13 panics: the open iterators 3, 2, 0 are dropped. *)
Example ex_C50_panic :
  fst (to_string_impl (trees 99) (fun _ => []) 20 (ex_tree 13) 0%nat) = Fault FPanic /\
  ser_events (trees 99) (fun _ => []) 20 (ex_tree 13) 0%nat =
   [EBegin (Some 0) OOk; ENext 0 OOk; EBegin None OOk; ENext 0 OOk; EBegin (Some 1) OOk; ENext 1 OOk; EDrop 1 OOk;
    ENext 0 OOk; EBegin (Some 2) OOk; ENext 2 OOk; EBegin (Some 3) OOk; ENext 3 OOk; EBegin None (OFault FPanic);
    EDrop 3 OOk; EDrop 2 OOk; EDrop 0 OOk]%nat.
Proof. split; vm_compute; reflexivity. Qed.
(** next() panics: the iterator it was called on is dropped, too. *)
Example ex_C50_next_panics :
  fst (to_string_impl (trees 99) (fun _ => []) 20 (ex_tree 14) 0%nat) = Fault FPanic /\
  skipn 11 (ser_events (trees 99) (fun _ => []) 20 (ex_tree 14) 0%nat) =
   [ENext 3 (OFault FPanic); EDrop 3 OOk; EDrop 2 OOk; EDrop 0 OOk]%nat.
Proof. split; vm_compute; reflexivity. Qed.
(** A drop panics while nothing is wrong: the rest is dropped, innermost first. *)
Example ex_C50_drop_panics :
  fst (to_string_impl (trees 1) (fun _ => []) 20 (ex_tree 7) 0%nat) = Fault FPanic /\
  skipn 15 (ser_events (trees 1) (fun _ => []) 20 (ex_tree 7) 0%nat) =
   [ENext 3 OOk; EDrop 3 (OFault FPanic); EDrop 2 OOk; EDrop 0 OOk]%nat.
Proof. split; vm_compute; reflexivity. Qed.
(** A drop panics while unwinding: the process is aborted. *)
Example ex_C51_abort :
  fst (to_string_impl (trees 2) (fun _ => []) 20 (ex_tree 13) 0%nat) = Fault FAbort /\
  skipn 12 (ser_events (trees 2) (fun _ => []) 20 (ex_tree 13) 0%nat) =
   [EBegin None (OFault FPanic); EDrop 3 OOk; EDrop 2 (OFault FPanic)]%nat.
Proof. split; vm_compute; reflexivity. Qed.
Example ex_C50_once : exists n, Permutation (flat_map ev_dropped (ser_events (trees 99) (fun _ => []) 20 (ex_tree 13) 0%nat)) (seq 0 n).
Proof.
  destruct (trees_ok 99) as [A B]. destruct (C50_each_iterator_dropped_once (trees 99) (fun _ => []) 20 (ex_tree 13) 0%nat A B) as (_ & n & _ & P); [reflexivity|]. exists n. exact P.
Qed.
