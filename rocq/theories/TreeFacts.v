(** Unfolding equations of the recursive-descent functions. *)
From Coq Require Import String ZArith List Bool Lia Floats.SpecFloat.
From Verif Require Import Base Utf8 Utf8Facts F64 Lexer Driver Grammar LexSpec LexFacts RunFacts LexNumFacts Tree.
Import ListNotations.
Open Scope Z_scope.

Lemma consumes0_len s r : consumes0 s r -> (List.length r <= List.length s)%nat.
Proof. intros [->|H]; [lia|]. apply consumes_len in H. lia. Qed.
Lemma consumes0_ok s r : consumes0 s r -> str_ok s = true -> str_ok r = true.
Proof. intros [->|[_ H]]; auto. Qed.
Lemma consumes_ok s r : consumes s r -> str_ok s = true -> str_ok r = true.
Proof. intros [_ H]; auto. Qed.
Lemma consumes0_trans_r a b c : consumes0 a b -> consumes b c -> consumes a c.
Proof. intros [->|H] K; [exact K|eapply consumes_trans; eassumption]. Qed.
Lemma consumes_0 a b : consumes a b -> consumes0 a b.
Proof. right. assumption. Qed.

Lemma p_next_close first s c r : p_next first s = NClose c r ->
  consumes s r /\ skip_ws s = c :: r /\ (c = 93 \/ c = 125).
Proof.
  unfold p_next. pose proof (skip_ws_consumes s) as W.
  destruct (skip_ws s) as [|x t]; [destruct first; discriminate|].
  destruct ((x =? 44) && negb first); [discriminate|].
  destruct ((x =? 93) || (x =? 125)) eqn:E; [|destruct first; discriminate].
  intros [= <- <-]. rewrite orb_true_iff, !Z.eqb_eq in E.
  split; [|auto]. eapply consumes0_trans_r; [exact W|]. apply consumes_cons.
  apply inr_true. lia.
Qed.

Lemma p_next_item first s r : p_next first s = NItem r ->
  consumes0 s r /\ (first = false -> consumes s r).
Proof.
  unfold p_next. pose proof (skip_ws_consumes s) as W.
  destruct (skip_ws s) as [|x t].
  - destruct first; [|discriminate]. intros [= <-]. split; [exact W|discriminate].
  - destruct ((x =? 44) && negb first) eqn:E1.
    + intros [= <-]. apply andb_true_iff in E1. rewrite Z.eqb_eq in E1. destruct E1 as [-> _].
      assert (consumes s t).
      { eapply consumes0_trans_r; [exact W|]. apply consumes_cons. reflexivity. }
      split; [right; assumption|auto].
    + destruct ((x =? 93) || (x =? 125)); [discriminate|].
      destruct first; [|discriminate]. intros [= <-]. split; [exact W|discriminate].
Qed.

(** Members: opening quote, key, colon. *)
Definition p_key (s : bytes) : option (bytes * option bytes) :=
  match skip_ws s with
  | c :: s2 =>
      if c =? 34 then
        match p_string s2 with
        | Some (k, s3) =>
            match skip_ws s3 with
            | c' :: s4 => if c' =? 58 then Some (k, Some s4) else Some (k, None)
            | [] => Some (k, None)
            end
        | None => None
        end
      else None
  | [] => None
  end.

Lemma p_key_consumes s k s4 : p_key s = Some (k, Some s4) -> consumes s s4.
Proof.
  unfold p_key. pose proof (skip_ws_consumes s) as W.
  destruct (skip_ws s) as [|c s2]; [discriminate|].
  destruct (Z.eqb_spec c 34); [|discriminate]. subst c.
  destruct (p_string s2) as [[k' s3]|] eqn:E; [|discriminate].
  pose proof (skip_ws_consumes s3) as W3.
  destruct (skip_ws s3) as [|c' s5]; [discriminate|].
  destruct (Z.eqb_spec c' 58); [|discriminate]. intros [= <- <-]. subst c'.
  eapply consumes0_trans_r; [exact W|].
  eapply consumes_trans; [apply consumes_cons; reflexivity|].
  eapply consumes_trans; [eapply p_string_consumes, E|].
  eapply consumes0_trans_r; [exact W3|]. apply consumes_cons. reflexivity.
Qed.

Lemma pmembers_S n first s :
  pmembers (S n) first s =
  match p_next first s with
  | NBroken => ([], false, None)
  | NClose c r => if c =? 125 then ([], true, Some r) else ([], false, None)
  | NItem s1 =>
      match p_key s1 with
      | Some (k, Some s4) =>
          match pval n s4 with
          | (t, Some r) => let '(l, c, o) := pmembers n false r in ((k, t) :: l, c, o)
          | (t, None) => ([(k, t)], false, None)
          end
      | Some (k, None) => ([(k, PBad)], false, None)
      | None => ([], false, None)
      end
  end.
Proof.
  cbn [pmembers]. destruct (p_next first s) as [s1|c r|]; try reflexivity.
  unfold p_key. destruct (skip_ws s1) as [|c s2]; [reflexivity|].
  destruct (c =? 34); [|reflexivity].
  destruct (p_string s2) as [[k s3]|]; [|reflexivity].
  destruct (skip_ws s3) as [|c' s4]; [reflexivity|].
  destruct (c' =? 58); reflexivity.
Qed.

(** The remaining input after a value is shorter. *)
Lemma parse_consumes n :
  (forall s t r, pval n s = (t, Some r) -> consumes s r) /\
  (forall first s l c r, pitems n first s = (l, c, Some r) -> consumes s r) /\
  (forall first s l c r, pmembers n first s = (l, c, Some r) -> consumes s r).
Proof.
  induction n as [|n (IHv & IHi & IHm)]; [split; [|split]; intros; discriminate|].
  split; [|split].
  - intros s t r. cbn [pval]. destruct (tok s) as [[ev s1]| |f] eqn:E; try discriminate.
    apply tok_consumes in E.
    destruct ev; try (intros [= <- <-]; exact E).
    + destruct (pitems n true s1) as [[l c] o] eqn:E1. intros [= <- ->].
      eapply consumes_trans; [exact E|eapply IHi, E1].
    + destruct (pmembers n true s1) as [[l c] o] eqn:E1. intros [= <- ->].
      eapply consumes_trans; [exact E|eapply IHm, E1].
  - intros first s l c r. cbn [pitems]. destruct (p_next first s) as [s1|x t|] eqn:E; [| |discriminate].
    + apply p_next_item in E. destruct E as [E _].
      destruct (pval n s1) as [t [r1|]] eqn:E1; [|discriminate].
      destruct (pitems n false r1) as [[l' c'] o] eqn:E2. intros [= <- <- ->].
      eapply consumes0_trans_r; [exact E|].
      eapply consumes_trans; [eapply IHv, E1|eapply IHi, E2].
    + apply p_next_close in E. destruct E as [E _].
      destruct (x =? 93); [|discriminate]. intros [= <- <- <-]. exact E.
  - intros first s l c r. rewrite pmembers_S.
    destruct (p_next first s) as [s1|x t|] eqn:E; [| |discriminate].
    + apply p_next_item in E. destruct E as [E _].
      destruct (p_key s1) as [[k [s4|]]|] eqn:EK; try discriminate.
      apply p_key_consumes in EK.
      destruct (pval n s4) as [t [r1|]] eqn:E1; [|discriminate].
      destruct (pmembers n false r1) as [[l' c'] o] eqn:E2. intros [= <- <- ->].
      eapply consumes0_trans_r; [exact E|]. eapply consumes_trans; [exact EK|].
      eapply consumes_trans; [eapply IHv, E1|eapply IHm, E2].
    + apply p_next_close in E. destruct E as [E _].
      destruct (x =? 125); [|discriminate]. intros [= <- <- <-]. exact E.
Qed.

(** More fuel does not change the result. *)
Lemma parse_fuel n :
  (forall m s, (2 * List.length s + 1 <= n)%nat -> (2 * List.length s + 1 <= m)%nat ->
     pval n s = pval m s) /\
  (forall m first s, (2 * List.length s + 2 <= n)%nat -> (2 * List.length s + 2 <= m)%nat ->
     pitems n first s = pitems m first s) /\
  (forall m first s, (2 * List.length s + 2 <= n)%nat -> (2 * List.length s + 2 <= m)%nat ->
     pmembers n first s = pmembers m first s).
Proof.
  induction n as [|n (IHv & IHi & IHm)]; [split; [|split]; intros; lia|].
  split; [|split].
  - intros [|m] s L1 L2; [lia|]. cbn [pval].
    destruct (tok s) as [[ev s1]| |f] eqn:E; try reflexivity.
    apply tok_consumes, consumes_len in E.
    destruct ev; try reflexivity.
    + rewrite (IHi m true s1) by lia. reflexivity.
    + rewrite (IHm m true s1) by lia. reflexivity.
  - intros [|m] first s L1 L2; [lia|]. cbn [pitems].
    destruct (p_next first s) as [s1|x t|] eqn:E; try reflexivity.
    apply p_next_item in E. destruct E as [E _]. apply consumes0_len in E.
    rewrite (IHv m s1) by lia.
    destruct (pval m s1) as [t [r1|]] eqn:E1; [|reflexivity].
    apply (proj1 (parse_consumes m)), consumes_len in E1.
    rewrite (IHi m false r1) by lia. reflexivity.
  - intros [|m] first s L1 L2; [lia|]. rewrite !pmembers_S.
    destruct (p_next first s) as [s1|x t|] eqn:E; try reflexivity.
    apply p_next_item in E. destruct E as [E _]. apply consumes0_len in E.
    destruct (p_key s1) as [[k [s4|]]|] eqn:EK; try reflexivity.
    apply p_key_consumes, consumes_len in EK.
    rewrite (IHv m s4) by lia.
    destruct (pval m s4) as [t [r1|]] eqn:E1; [|reflexivity].
    apply (proj1 (parse_consumes m)), consumes_len in E1.
    rewrite (IHm m false r1) by lia. reflexivity.
Qed.

Lemma pv_eq s :
  pv s = match tok s with
         | Ok (ESeqStart, s1) => let '(l, c, o) := pi true s1 in (PSeq l c, o)
         | Ok (EMapStart, s1) => let '(l, c, o) := pm true s1 in (PMap l c, o)
         | Ok (ev, s1) => (PLeaf ev, Some s1)
         | _ => (PBad, None)
         end.
Proof.
  unfold pv at 1. rewrite Nat.add_1_r. cbn [pval].
  destruct (tok s) as [[ev s1]| |f] eqn:E; try reflexivity.
  apply tok_consumes, consumes_len in E.
  destruct ev; try reflexivity.
  - rewrite (proj1 (proj2 (parse_fuel _)) (2 * List.length s1 + 2)%nat true s1) by lia. reflexivity.
  - rewrite (proj2 (proj2 (parse_fuel _)) (2 * List.length s1 + 2)%nat true s1) by lia. reflexivity.
Qed.

Lemma pi_eq first s :
  pi first s =
  match p_next first s with
  | NBroken => ([], false, None)
  | NClose c r => if c =? 93 then ([], true, Some r) else ([], false, None)
  | NItem s1 =>
      match pv s1 with
      | (t, Some r) => let '(l, c, o) := pi false r in (t :: l, c, o)
      | (t, None) => ([t], false, None)
      end
  end.
Proof.
  unfold pi at 1. replace (2 * List.length s + 2)%nat with (S (2 * List.length s + 1)) by lia.
  cbn [pitems].
  destruct (p_next first s) as [s1|x t|] eqn:E; try reflexivity.
  apply p_next_item in E. destruct E as [E _]. apply consumes0_len in E.
  rewrite (proj1 (parse_fuel _) (2 * List.length s1 + 1)%nat s1) by lia.
  change (pval (2 * List.length s1 + 1) s1) with (pv s1).
  destruct (pv s1) as [t [r1|]] eqn:E1; [|reflexivity].
  apply (proj1 (parse_consumes _)), consumes_len in E1.
  rewrite (proj1 (proj2 (parse_fuel _)) (2 * List.length r1 + 2)%nat false r1) by lia. reflexivity.
Qed.

Lemma pm_eq first s :
  pm first s =
  match p_next first s with
  | NBroken => ([], false, None)
  | NClose c r => if c =? 125 then ([], true, Some r) else ([], false, None)
  | NItem s1 =>
      match p_key s1 with
      | Some (k, Some s4) =>
          match pv s4 with
          | (t, Some r) => let '(l, c, o) := pm false r in ((k, t) :: l, c, o)
          | (t, None) => ([(k, t)], false, None)
          end
      | Some (k, None) => ([(k, PBad)], false, None)
      | None => ([], false, None)
      end
  end.
Proof.
  unfold pm at 1. replace (2 * List.length s + 2)%nat with (S (2 * List.length s + 1)) by lia.
  rewrite pmembers_S.
  destruct (p_next first s) as [s1|x t|] eqn:E; try reflexivity.
  apply p_next_item in E. destruct E as [E _]. apply consumes0_len in E.
  destruct (p_key s1) as [[k [s4|]]|] eqn:EK; try reflexivity.
  apply p_key_consumes, consumes_len in EK.
  rewrite (proj1 (parse_fuel _) (2 * List.length s4 + 1)%nat s4) by lia.
  change (pval (2 * List.length s4 + 1) s4) with (pv s4).
  destruct (pv s4) as [t [r1|]] eqn:E1; [|reflexivity].
  apply (proj1 (parse_consumes _)), consumes_len in E1.
  rewrite (proj2 (proj2 (parse_fuel _)) (2 * List.length r1 + 2)%nat false r1) by lia. reflexivity.
Qed.

Lemma pv_consumes s t r : pv s = (t, Some r) -> consumes s r.
Proof. apply (proj1 (parse_consumes _)). Qed.
Lemma pi_consumes f s l c r : pi f s = (l, c, Some r) -> consumes s r.
Proof. apply (proj1 (proj2 (parse_consumes _))). Qed.
Lemma pm_consumes f s l c r : pm f s = (l, c, Some r) -> consumes s r.
Proof. apply (proj2 (proj2 (parse_consumes _))). Qed.
