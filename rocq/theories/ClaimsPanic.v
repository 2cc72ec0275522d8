(** Claims about failing and panicking user code under from_str: C48, C49. *)
From Coq Require Import String ZArith List Bool Lia Permutation.
From Verif Require Import Base Utf8 Utf8Facts F64 Lexer Driver Grammar LexSpec Tree TreeFacts DriverMap DriverFacts
  ReadFacts FromStr ParseSpec ParseFacts VisitFacts RunFacts RunText PanicSpec PanicFacts FailFast ClaimsParse.
Import ListNotations.
Open Scope Z_scope.

(** ** C48 *)
Lemma tame_quiet {St V SH MH} (I : iface St V SH MH) : tame I -> quiet_drops I.
Proof.
  intros (_ & _ & _ & _ & _ & _ & _ & _ & _ & _ & F11 & _ & _ & F14) [q|m] st E; cbn [drop_layer] in E; [specialize (F11 q st)|specialize (F14 m st)]; rewrite E in *; discriminate.
Qed.
Lemma feed_tame {St V SH MH} (I : iface St V SH MH) t : tame I -> forall v st, orderly (fst (feed I t v st)) = true.
Proof.
  intros (F1 & F2 & F3 & F4 & F5 & F6 & F7 & F8 & F9 & F10 & F11 & F12 & F13 & F14).
  assert (FO : forall (r : res unit), is_fault r = false -> orderly r = true) by (intros [a| |f]; cbn; congruence).
  assert (FD : forall ly st, orderly (fst (drop_err I ly st)) = true).
  { intros [q|m] st; apply FO; unfold drop_err; cbn [drop_layer].
    - specialize (F11 q st). destruct (s_drop I q st) as [[| |] ?]; cbn in *; congruence.
    - specialize (F14 m st). destruct (m_drop I m st) as [[| |] ?]; cbn in *; congruence. }
  assert (FU : forall ly f st, orderly (@Fault unit f) = true -> orderly (fst (@on_fault _ _ _ _ I unit f [ly] st)) = true).
  { intros ly f st Hf. destruct f; try discriminate. cbn [on_fault unwind]. destruct ly as [q|m]; cbn [drop_layer].
    - specialize (F11 q st). destruct (s_drop I q st) as [[| |] ?]; cbn in *; congruence.
    - specialize (F14 m st). destruct (m_drop I m st) as [[| |] ?]; cbn in *; congruence. }
  assert (FF : forall ly c st, orderly (fst (finish_layer I ly c st)) = true).
  { intros [q|m] [] st; unfold finish_layer; try apply FD; cbn [drop_layer].
    - specialize (F10 q st). destruct (s_finish I q st) as [[| |f] s1]; cbn [fst] in F10; [|apply FD|apply FU, F10].
      specialize (F11 q s1). destruct (s_drop I q s1) as [[| |] ?]; cbn in *; congruence.
    - specialize (F13 m st). destruct (m_finish I m st) as [[| |f] s1]; cbn [fst] in F13; [|apply FD|apply FU, F13].
      specialize (F14 m s1). destruct (m_drop I m s1) as [[| |] ?]; cbn in *; congruence. }
  induction t as [|ev|l c IH|l c IH] using ptree_ind'; intros v st; cbn [feed]; [reflexivity| | |].
  - destruct ev; first [reflexivity|apply F1|apply F2|apply F3|apply F4|apply F5|apply F6].
  - specialize (F7 v st). destruct (v_seq I v st) as [[q| |f] st1]; cbn [fst] in F7; [|reflexivity|exact F7].
    revert st1. induction IH as [|t l Ht IH IHl]; intros st1; cbn [feed_items]; [apply FF|].
    pose proof (F9 q st1) as K. destruct (s_element I q st1) as [[v1| |f] st2]; cbn [fst] in K; [|apply FD|apply FU, K].
    pose proof (Ht v1 st2) as K2. destruct (feed I t v1 st2) as [[u| |f] st3]; cbn [fst] in K2; [apply IHl|apply FD|apply FU, K2].
  - specialize (F8 v st). destruct (v_map I v st) as [[q| |f] st1]; cbn [fst] in F8; [|reflexivity|exact F8].
    revert st1. induction IH as [|[k t] l Ht IH IHl]; intros st1; cbn [feed_members]; [apply FF|]. cbn [snd] in Ht.
    pose proof (F12 q k st1) as K. destruct (m_key I q k st1) as [[v1| |f] st2]; cbn [fst] in K; [|apply FD|apply FU, K].
    pose proof (Ht v1 st2) as K2. destruct (feed I t v1 st2) as [[u| |f] st3]; cbn [fst] in K2; [apply IHl|apply FD|apply FU, K2].
Qed.

(** Whatever methods panic, as long as drops do not: from_str returns or unwinds (it never
    aborts), and every builder handed out is dropped exactly once, after its last use,
    innermost first. *)
Theorem C48_panic_safe {St V SH MH} (I : iface St V SH MH) oc s v st :
  text_ok s -> tame I ->
  orderly (fst (from_str_impl I oc s v st)) = true /\
  Bracketed (snd (snd (from_str_impl (logged I) oc s v (st, [])))).
Proof.
  intros Hs HT. pose proof (tame_quiet I HT) as HQ.
  assert (HO : orderly (fst (from_str_impl I oc s v st)) = true).
  { destruct Hs as [Hu HL]. apply str_ok_spec in Hu. rewrite (from_str_impl_eq I oc s v st Hu HL HQ). unfold walk_result. destruct (pv s) as [t o].
    pose proof (feed_tame I t HT v st) as K. destruct (feed I t v st) as [[u| |f] st1]; cbn [fst] in *; [|reflexivity|exact K].
    destruct o as [r|]; [destruct (skip_ws r)|]; reflexivity. }
  split; [exact HO|]. destruct (logged_run I oc s v st Hs) as (l & -> & B & _). apply B. right. auto.
Qed.

(** Even if drops panic, and whatever the text: unless the process dies, every builder
    handed out is dropped exactly once. (But not in order: see below.) *)
Theorem C48_each_builder_dropped_once {St V SH MH} (I : iface St V SH MH) oc s v st :
  orderly (fst (from_str_impl (logged I) oc s v (st, []))) = true ->
  let log := snd (snd (from_str_impl (logged I) oc s v (st, []))) in
  Permutation (flat_map handed_out log) (flat_map dropped log).
Proof. apply released_once. Qed.

(** ** C49 *)
Lemma traced_commutes {St V SH MH} (I : iface St V SH MH) : commutes (traced I) I fst.
Proof. unfold commutes, mp. repeat split; intros; cbn; apply surjective_pairing. Qed.

(** The first call that fails decides: an error becomes the error of from_str, a panic
    unwinds, and nothing but drops follows. If no call fails, from_str does not panic.
    Recording the outcomes changes nothing. *)
Theorem C49_first_failure_decides {St V SH MH} (I : iface St V SH MH) oc s v st : text_ok s ->
  exists log, from_str_impl (traced I) oc s v (st, []) =
      (fst (from_str_impl I oc s v st), (snd (from_str_impl I oc s v st), log)) /\
    exists r, status_of log = Some r /\ calls_for r (fst (from_str_impl I oc s v st)).
Proof.
  intros [Hu HL]. apply str_ok_spec in Hu. pose proof (fails_fast I oc s v st Hu HL) as (r & H1 & H2).
  pose proof (from_str_impl_map (traced I) I fst (traced_commutes I) oc s v (st, [])) as HM. unfold mp in HM. cbn [fst] in HM. rewrite HM. cbn [fst snd].
  exists (snd (snd (from_str_impl (traced I) oc s v (st, [])))). split; [destruct (from_str_impl (traced I) oc s v (st, [])) as [? [? ?]]; reflexivity|].
  exists r. split; [exact H1|exact H2].
Qed.

Lemma run_split {V SH MH} (a b : list (call V SH MH * outcome)) s r : run_status s (a ++ b) = Some r -> exists s', run_status s a = Some s' /\ run_status s' b = Some r.
Proof. rewrite run_app. destruct (run_status s a); [eauto|discriminate]. Qed.
Lemma after_failure {V SH MH} (b : list (call V SH MH * outcome)) : forall s r, s <> Running -> run_status s b = Some r ->
  Forall (fun e => is_drop (fst e) = true) b.
Proof.
  induction b as [|[c o] b IH]; intros s r HS H; [constructor|]. cbn [run_status] in H. unfold step in H. cbn [fst snd] in H.
  destruct s; [congruence| | |destruct (is_drop c); discriminate]; (destruct (is_drop c) eqn:ED; [|discriminate]); (constructor; [exact ED|]);
    destruct o as [| |[]]; (eapply IH; [|exact H]; discriminate).
Qed.
(** Spelled out for a method that returns an error ... *)
Theorem C49_nothing_after_an_error {St V SH MH} (I : iface St V SH MH) oc s v st a c o b :
  text_ok s -> snd (snd (from_str_impl (traced I) oc s v (st, []))) = a ++ (c, o) :: b ->
  is_drop c = false -> o <> OOk ->
  Forall (fun e => is_drop (fst e) = true) b.
Proof.
  intros Hs E Hc Ho. destruct (C49_first_failure_decides I oc s v st Hs) as (log & EL & r & HR & _). rewrite EL in E. cbn [snd] in E. subst log.
  apply run_split in HR. destruct HR as (s1 & H1 & H2). cbn [run_status] in H2. unfold step in H2. cbn [fst snd] in H2. rewrite Hc in H2.
  destruct s1; try discriminate. destruct o as [| |[]]; try congruence; (eapply after_failure; [|exact H2]; discriminate).
Qed.
Lemma quiet_run {V SH MH} (b : list (call V SH MH * outcome)) s r :
  (forall c f, ~ In (c, OFault f) b) -> s = Failing \/ s = Panicking -> run_status s b = Some r -> r = s.
Proof.
  intros HN HS. induction b as [|[c o] b IH]; intros H; [cbn in H; congruence|]. cbn [run_status] in H. unfold step in H. cbn [fst snd] in H.
  assert (forall c' f, ~ In (c', OFault f) b) as HN' by (intros c' f K; apply (HN c' f); right; exact K). specialize (IH HN').
  destruct HS as [-> | ->]; destruct (is_drop c); try discriminate; (destruct o as [| |f]; [apply IH, H|apply IH, H|destruct (HN c f); left; reflexivity]).
Qed.
(** ... and for the result: the error is passed on, a panic is passed on. *)
Theorem C49_result_of_a_failure {St V SH MH} (I : iface St V SH MH) oc s v st a c o b :
  text_ok s -> snd (snd (from_str_impl (traced I) oc s v (st, []))) = a ++ (c, o) :: b ->
  is_drop c = false -> (forall c' f, ~ In (c', OFault f) b) ->
  (o = OErr -> fst (from_str_impl I oc s v st) = Err) /\
  (forall f, o = OFault f -> fst (from_str_impl I oc s v st) = Fault f).
Proof.
  intros Hs E Hc HN. destruct (C49_first_failure_decides I oc s v st Hs) as (log & EL & r & HR & HF). rewrite EL in E. cbn [snd] in E. subst log.
  apply run_split in HR. destruct HR as (s1 & H1 & H2). cbn [run_status] in H2. unfold step in H2. cbn [fst snd] in H2. rewrite Hc in H2.
  split; [intros ->|intros f ->].
  - destruct s1; try discriminate. apply quiet_run in H2; [|exact HN|auto]. subst r. exact HF.
  - destruct s1; try discriminate.
    assert (K : r = fault_status f).
    { destruct f; try (apply quiet_run in H2; [exact H2|exact HN|right; reflexivity]); (destruct b as [|[c' o'] b]; cbn in H2; [cbn [fault_status]; congruence|destruct (is_drop c'), o'; discriminate]). }
    subst r. destruct f; exact HF.
Qed.

(** ** Examples *)
(** Builders are numbered in the order in which they are handed out. null is refused, the
    number 13 makes the visitor panic, and dropping builder [bad] panics. *)
Definition numbered (bad : option nat) : iface nat unit nat nat :=
  let dr (q : nat) (st : nat) : res unit * nat := (match bad with Some b => if Nat.eqb q b then Fault FPanic else Ok tt | None => Ok tt end, st) in {|
  v_null := fun _ st => (Err, st); v_bool := fun _ _ st => (Ok tt, st); v_str := fun _ _ st => (Ok tt, st);
  v_neg := fun _ _ st => (Ok tt, st); v_nonneg := fun _ n st => (if n =? 13 then Fault FPanic else Ok tt, st);
  v_float := fun _ _ st => (Ok tt, st); v_seq := fun _ st => (Ok st, S st); v_map := fun _ st => (Ok st, S st);
  s_element := fun _ st => (Ok tt, st); s_finish := fun _ st => (Ok tt, st); s_drop := dr;
  m_key := fun _ k st => (Ok tt, st); m_finish := fun _ st => (Ok tt, st); m_drop := dr
|}.
Lemma numbered_tame : tame (numbered None).
Proof. repeat split; intros ? **; intros ?; try reflexivity. unfold numbered, v_nonneg. cbn [fst]. destruct (_ =? 13); reflexivity. Qed.
(** The second 13 is never reached; the open builders 2, 1, 0 are dropped. *)
Example ex_C48 :
  snd (snd (from_str_impl (logged (numbered None)) true (bs "[[1],{""a"":[13,13]}]") tt (0%nat, []))) =
    [CSeq tt (Some 0); CElement 0; CSeq tt (Some 1); CElement 1; CNonneg tt 1%Z; CSeqFinish 1; CSeqDrop 1;
     CElement 0; CMap tt (Some 2); CKey 2 [97%Z]; CSeq tt (Some 3); CElement 3; CNonneg tt 13%Z; CSeqDrop 3; CMapDrop 2; CSeqDrop 0]%nat
  /\ fst (from_str_impl (numbered None) true (bs "[[1],{""a"":[13,13]}]") tt 0%nat) = Fault FPanic.
Proof. split; vm_compute; reflexivity. Qed.
Example ex_C48_safe : Bracketed (snd (snd (from_str_impl (logged (numbered None)) true (bs "[[1],{""a"":[13,13]}]") tt (0%nat, [])))).
Proof. apply C48_panic_safe; [text_ok|apply numbered_tame]. Qed.

(** Executing a list of calls on a stack of open builders. *)
Fixpoint exec (ls : list (layer nat nat)) (l : list (call unit nat nat)) : option (list (layer nat nat)) :=
  match l with
  | [] => Some ls
  | CSeq _ (Some q) :: l' => exec (LSeq q :: ls) l'
  | CMap _ (Some q) :: l' => exec (LMap q :: ls) l'
  | CSeqDrop q :: l' => match ls with LSeq q' :: ls' => if Nat.eqb q q' then exec ls' l' else None | _ => None end
  | CMapDrop q :: l' => match ls with LMap q' :: ls' => if Nat.eqb q q' then exec ls' l' else None | _ => None end
  | _ :: l' => exec ls l'
  end.
Lemma exec_bracketed l : Bracketed l -> forall ls k, exec ls (l ++ k) = exec ls k.
Proof.
  intros H. induction H as [|c l Hc Hl IH|v q l1 l2 H1 IH1 H2 IH2|v m l1 l2 H1 IH1 H2 IH2]; intros ls k; cbn [app exec]; [reflexivity| | |].
  - destruct c as [| | | | | |? []|? []| | | | | |]; try contradiction; apply IH.
  - rewrite <- app_assoc, IH1. cbn [app exec]. rewrite Nat.eqb_refl. apply IH2.
  - rewrite <- app_assoc, IH1. cbn [app exec]. rewrite Nat.eqb_refl. apply IH2.
Qed.
(** Without the hypothesis on drops the order is lost. Three arrays are open when the text
    ends. Dropping the innermost one panics; then the outermost one (0), which the next one
    (1) may borrow from, is dropped before it. *)
Theorem C48_panicking_drop_loses_order :
  exists (I : iface nat unit nat nat) s, text_ok s /\
    orderly (fst (from_str_impl I true s tt 0%nat)) = true /\
    ~ Bracketed (snd (snd (from_str_impl (logged I) true s tt (0%nat, [])))).
Proof.
  exists (numbered (Some 2%nat)), (bs "[[["). split; [text_ok|]. split; [vm_compute; reflexivity|].
  replace (snd (snd (from_str_impl (logged (numbered (Some 2%nat))) true (bs "[[[") tt (0%nat, [])))) with
    [CSeq tt (Some 0); CElement 0; CSeq tt (Some 1); CElement 1; CSeq tt (Some 2); CElement 2; CSeqDrop 2; CSeqDrop 0; CSeqDrop 1 : call unit nat nat]%nat
    by (vm_compute; reflexivity).
  intros H. pose proof (exec_bracketed _ H [] []) as K. rewrite app_nil_r in K. discriminate K.
Qed.
(** null is refused inside two arrays; what follows in the text is not looked at. *)
Example ex_C49 :
  snd (snd (from_str_impl (traced (numbered None)) true (bs "[[null,1],2") tt (0%nat, []))) =
    [(CSeq tt (Some 0%nat), OOk); (CElement 0%nat, OOk); (CSeq tt (Some 1%nat), OOk); (CElement 1%nat, OOk);
     (CNull tt, OErr); (CSeqDrop 1%nat, OOk); (CSeqDrop 0%nat, OOk)]
  /\ status_of (snd (snd (from_str_impl (traced (numbered None)) true (bs "[[null,1],2") tt (0%nat, [])))) = Some Failing
  /\ status_of (snd (snd (from_str_impl (traced (numbered None)) true (bs "[[13,1],2") tt (0%nat, [])))) = Some Panicking
  /\ status_of (snd (snd (from_str_impl (traced (numbered (Some 0%nat))) true (bs "[[13,1],2") tt (0%nat, [])))) = Some (Dead FAbort)
  /\ fst (from_str_impl (numbered (Some 0%nat)) true (bs "[[13,1],2") tt 0%nat) = Fault FAbort.
Proof. repeat split; vm_compute; reflexivity. Qed.
