(** The driver commutes with maps between the states of two implementations. *)
From Coq Require Import ZArith List Bool.
From Verif Require Import Base F64 Lexer Driver.
Import ListNotations.

Section Map.
Context {S1 S2 V SH MH : Type}.
Variable I : iface S1 V SH MH.
Variable J : iface S2 V SH MH.
Variable phi : S1 -> S2.
Definition mp {A} (x : res A * S1) : res A * S2 := (fst x, phi (snd x)).
Definition commutes : Prop :=
  (forall v st, v_null J v (phi st) = mp (v_null I v st)) /\
  (forall v b st, v_bool J v b (phi st) = mp (v_bool I v b st)) /\
  (forall v b st, v_str J v b (phi st) = mp (v_str I v b st)) /\
  (forall v b st, v_neg J v b (phi st) = mp (v_neg I v b st)) /\
  (forall v b st, v_nonneg J v b (phi st) = mp (v_nonneg I v b st)) /\
  (forall v b st, v_float J v b (phi st) = mp (v_float I v b st)) /\
  (forall v st, v_seq J v (phi st) = mp (v_seq I v st)) /\
  (forall v st, v_map J v (phi st) = mp (v_map I v st)) /\
  (forall q st, s_element J q (phi st) = mp (s_element I q st)) /\
  (forall q st, s_finish J q (phi st) = mp (s_finish I q st)) /\
  (forall q st, s_drop J q (phi st) = mp (s_drop I q st)) /\
  (forall m k st, m_key J m k (phi st) = mp (m_key I m k st)) /\
  (forall m st, m_finish J m (phi st) = mp (m_finish I m st)) /\
  (forall m st, m_drop J m (phi st) = mp (m_drop I m st)).
Hypothesis H : commutes.

Lemma drop_map l st : drop_layer J l (phi st) = mp (drop_layer I l st).
Proof. destruct H as (_ & _ & _ & _ & _ & _ & _ & _ & _ & _ & H11 & _ & _ & H14). destruct l; [apply H11|apply H14]. Qed.
Lemma unwind_map {A} ls : forall st, unwind J ls (phi st) = mp (@unwind _ _ _ _ I A ls st).
Proof.
  induction ls as [|l ls IH]; intros st; cbn [unwind]; [reflexivity|]. rewrite drop_map.
  destruct (drop_layer I l st) as [[u| |[]] st1]; cbn [mp fst snd]; try apply IH; reflexivity.
Qed.
Lemma on_fault_map {A} f ls st : on_fault J f ls (phi st) = mp (@on_fault _ _ _ _ I A f ls st).
Proof. destruct f; try reflexivity. apply unwind_map. Qed.
Lemma fail_map {A} ls : forall st, fail J ls (phi st) = mp (@fail _ _ _ _ I A ls st).
Proof.
  induction ls as [|l ls IH]; intros st; cbn [fail]; [reflexivity|]. rewrite drop_map.
  destruct (drop_layer I l st) as [[u| |f] st1]; cbn [mp fst snd]; try apply IH. apply on_fault_map.
Qed.
Lemma fail_in_map {A} l ls st : fail_in J l ls (phi st) = mp (@fail_in _ _ _ _ I A l ls st).
Proof. unfold fail_in. rewrite drop_map. destruct (drop_layer I l st) as [[u| |f] st1]; cbn [mp fst snd]; [apply fail_map..|apply on_fault_map]. Qed.
Lemma dispatch_map v ev st : dispatch J v ev (phi st) = mp (dispatch I v ev st).
Proof.
  destruct H as (H1 & H2 & H3 & H4 & H5 & H6 & H7 & H8 & _).
  destruct ev; cbn [dispatch]; rewrite ?H1, ?H2, ?H3, ?H4, ?H5, ?H6, ?H7, ?H8; reflexivity.
Qed.
Lemma close_map c l st : close_layer J c l (phi st) = mp (close_layer I c l st).
Proof.
  destruct H as (_ & _ & _ & _ & _ & _ & _ & _ & _ & H10 & _ & _ & H13 & _).
  destruct l; cbn [close_layer]; [destruct (_ =? _)%Z; [apply H10|reflexivity]|destruct (_ =? _)%Z; [apply H13|reflexivity]].
Qed.
Variable oc : bool.
Variable inp : bytes.
Lemma inner_map fuel : forall d ac v l stack st, inner J inp fuel d ac v l stack (phi st) = mp (inner I inp fuel d ac v l stack st).
Proof.
  induction fuel as [|fuel IH]; intros d ac v l stack st; [reflexivity|]. cbn [inner].
  destruct (parse_whitespace inp d) as [[o d1]| |e]; [|apply fail_in_map|apply on_fault_map].
  destruct ((match o with Some c => c | None => 0 end =? 44) && ac)%Z; [reflexivity|].
  destruct ((match o with Some c => c | None => 0 end =? 93) || (match o with Some c => c | None => 0 end =? 125))%Z.
  - rewrite close_map. destruct (close_layer I _ l st) as [[u| |e] st1]; cbn [mp fst snd]; [|apply fail_in_map|apply on_fault_map].
    rewrite drop_map. destruct (drop_layer I l st1) as [[w| |e] st2]; cbn [mp fst snd]; [| |apply on_fault_map];
      (destruct stack as [|[v' l'] stack']; [reflexivity|apply IH]).
  - destruct ac; [apply fail_in_map|reflexivity].
Qed.
Lemma open_map d v l stack st : open_item J oc inp d v l stack (phi st) = mp (open_item I oc inp d v l stack st).
Proof.
  destruct H as (_ & _ & _ & _ & _ & _ & _ & _ & H9 & _ & _ & H12 & _).
  destruct l as [q|m]; cbn [open_item].
  - rewrite H9. destruct (s_element I q st) as [[w| |e] st1]; cbn [mp fst snd]; [reflexivity|apply fail_in_map|apply on_fault_map].
  - destruct (parse_whitespace inp d) as [[o d1]| |e]; [|apply fail_in_map|apply on_fault_map].
    destruct (match o with Some c => (c =? 34)%Z | None => false end); [|apply fail_in_map].
    destruct (parse_str oc inp (bump d1)) as [[key d2]| |e]; [|apply fail_in_map|apply on_fault_map].
    rewrite H12. destruct (m_key I m key st) as [[w| |e] st1]; cbn [mp fst snd]; [|apply fail_in_map|apply on_fault_map].
    destruct (parse_whitespace inp d2) as [[o2 d3]| |e]; [|apply fail_in_map|apply on_fault_map].
    destruct (match o2 with Some c => (c =? 58)%Z | None => false end); [reflexivity|apply fail_in_map].
Qed.
Lemma after_map d ac v l stack st : after_value J oc inp d ac v l stack (phi st) = mp (after_value I oc inp d ac v l stack st).
Proof.
  unfold after_value. rewrite inner_map. destruct (inner I inp _ d ac v l stack st) as [[[d1 v1 l1 stack1|d1]| |e] st1]; cbn [mp fst snd]; try reflexivity.
  rewrite open_map. destruct (open_item I oc inp d1 v1 l1 stack1 st1) as [[[[d2 v2] stack2]| |e] st2]; reflexivity.
Qed.
Lemma turn_map d v stack st : turn J oc inp d v stack (phi st) = mp (turn I oc inp d v stack st).
Proof.
  unfold turn. destruct (event_next oc inp d) as [[ev d1]| |e]; [|apply fail_map|apply on_fault_map].
  rewrite dispatch_map. destruct (dispatch I v ev st) as [[[l|]| |e] st1]; cbn [mp fst snd]; [apply after_map| |apply fail_map|apply on_fault_map].
  destruct stack as [|[v' l'] stack']; [reflexivity|apply after_map].
Qed.
Lemma loop_map fuel : forall d v stack st, outer_loop J oc inp fuel d v stack (phi st) = mp (outer_loop I oc inp fuel d v stack st).
Proof.
  induction fuel as [|fuel IH]; intros d v stack st; [reflexivity|]. cbn [outer_loop]. rewrite turn_map.
  destruct (turn I oc inp d v stack st) as [[[d1 v1 stack1|d1]| |e] st1]; cbn [mp fst snd]; try reflexivity. apply IH.
Qed.
Theorem from_str_impl_map v st : from_str_impl J oc inp v (phi st) = mp (from_str_impl I oc inp v st).
Proof. apply loop_map. Qed.
End Map.
