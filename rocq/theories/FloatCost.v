(** The loop of f64_from_parts runs at most three times. *)
From Coq Require Import ZArith Reals Lia Lra Psatz Bool List Floats.SpecFloat.
From Flocq Require Import Core Relative BinarySingleNaN.
From Verif Require Import Base F64 FloatOps LexFacts FloatParts Lexer LexCost.
Open Scope Z_scope.

Lemma twice_zero r : 0 <= r <= u64_MAX ->
  f64_div (f64_div (f64_of_Z r) (pow10_lit 308)) (pow10_lit 308) = f_zero.
Proof.
  intros Hr.
  assert (Hr' : 0 <= r <= 10 ^ 308).
  { split; [lia|]. apply Z.le_trans with u64_MAX; [lia|]. vm_compute. discriminate. }
  destruct (of_Z_spec r Hr') as (V0 & F0 & S0 & R0 & N0).
  set (f0 := f64_of_Z r) in *.
  assert (Nat0 : fnat f0) by (repeat split; assumption).
  pose proof (IZR_le 0 r ltac:(lia)) as RP.
  assert (B0 : (vreal f0 <= bpow radix2 70)%R).
  { destruct N0 as [_ N0]. eapply Rle_trans; [exact N0|]. rewrite bpow_IZR by lia.
    assert (IZR r <= IZR u64_MAX)%R by (apply IZR_le; lia). change (2 ^ 70) with 1180591620717411303424.
    unfold u64_MAX in *. unfold uu. lra. }
  pose proof hh_pos as HH.
  set (f1 := f64_div f0 (pow10_lit 308)).
  destruct (div_case f0 308 _ _ _ _ Nat0 ltac:(lia) N0 ltac:(lra) RP ltac:(unfold uu; lra) ltac:(unfold uu; lra) B0)
    as (Nat1 & N1 & E1). fold f1 in Nat1, N1, E1.
  assert (IP : forall k, 0 <= k -> (0 < / IZR (10 ^ k) <= 1)%R).
  { intros k Hk. pose proof (pow10_ge1 k Hk). split; [apply Rinv_0_lt_compat; lra|].
    rewrite <- Rinv_1. apply Rinv_le_contravar; lra. }
  assert (X1 : (0 <= IZR r * / IZR (10 ^ 308))%R) by (apply Rmult_le_pos; [lra|]; apply Rlt_le, IP; lia).
  assert (HS : (hh <= bpow radix2 (-1000))%R) by (apply bpow_le; lia).
  assert (SM : (IZR r * / IZR (10 ^ 308) <= bpow radix2 (-958))%R).
  { pose proof (pow10_ge1 308 ltac:(lia)) as PG.
    apply Rmult_le_reg_r with (IZR (10 ^ 308)); [lra|].
    rewrite Rmult_assoc, Rinv_l, Rmult_1_r by lra.
    replace (bpow radix2 (-958)) with (/ IZR (2 ^ 958))%R by (rewrite <- bpow_IZR, <- bpow_opp by lia; reflexivity).
    pose proof (IZR_lt 0 (2 ^ 958) ltac:(reflexivity)) as PB.
    apply Rmult_le_reg_l with (IZR (2 ^ 958)); [lra|].
    rewrite <- Rmult_assoc, Rinv_r, Rmult_1_l by lra.
    rewrite <- mult_IZR. apply IZR_le. apply Z.le_trans with (2 ^ 958 * u64_MAX).
    - apply Z.mul_le_mono_nonneg_l; [vm_compute; discriminate|lia].
    - vm_compute. discriminate. }
  assert (B1 : (vreal f1 <= bpow radix2 (-956))%R).
  { replace (bpow radix2 (-956)) with (bpow radix2 2 * bpow radix2 (-958))%R by (rewrite <- bpow_plus; reflexivity).
    replace (bpow radix2 2) with 4%R by (cbn; lra).
    assert (bpow radix2 (-1000) <= bpow radix2 (-958))%R by (apply bpow_le; lia).
    destruct N1 as [_ N1]. eapply Rle_trans; [exact N1|]. unfold uu. lra. }
  destruct (div_case f1 308 _ _ _ _ Nat1 ltac:(lia) N1 ltac:(lra) X1 ltac:(unfold uu; lra) ltac:(unfold uu; lra))
    as (NG & _ & EG).
  { eapply Rle_trans; [exact B1|]. apply bpow_le. lia. }
  apply fnat_zero_eq; [exact NG|]. rewrite EG. apply tiny_rnd.
  destruct (pow10_lit_spec 308 ltac:(lia)) as (_ & _ & _ & _ & PN & P2).
  pose proof (fnat_ge0 f1 Nat1).
  assert (PI : (0 < / vreal (pow10_lit 308))%R) by (apply Rinv_0_lt_compat; lra).
  unfold Rdiv. split; [apply Rmult_le_pos; lra|].
  apply Rle_lt_trans with (bpow radix2 (-956) * bpow radix2 (-1000))%R.
  - apply Rmult_le_compat; try lra.
    replace (bpow radix2 (-1000)) with (/ IZR (2 ^ 1000))%R by (rewrite <- bpow_IZR, <- bpow_opp by lia; reflexivity).
    apply Rinv_le_contravar; [apply IZR_lt; reflexivity|].
    destruct PN as [PN _].
    assert (IZR (2 * 2 ^ 1000) <= IZR (10 ^ 308))%R by (apply IZR_le; vm_compute; discriminate).
    rewrite mult_IZR in H0. pose proof (pow10_ge1 308 ltac:(lia)). unfold uu in PN. lra.
  - rewrite <- bpow_plus. apply bpow_lt. lia.
Qed.

(** [J k a]: from [a] the loop ends within [k] iterations. *)
Lemma iterations_le {A B} (f : A -> lstep A B) (J : nat -> A -> Prop) :
  (forall k a, J k a -> (1 <= k)%nat /\ forall a', f a = More a' -> J (k - 1)%nat a') ->
  forall p k a, J k a ->
  (iterations p f a <= k)%nat /\ forall a', iter_until p f a = More a' -> exists k', J k' a' /\ (iterations p f a + k' <= k)%nat.
Proof.
  intros Hf. induction p as [p IH|p IH|]; intros k a Ja; cbn [iter_until iterations].
  - destruct (Hf k a Ja) as [K1 Hm]. destruct (f a) as [a0|b] eqn:E0.
    + specialize (Hm a0 eq_refl). destruct (IH _ _ Hm) as [I1 I2].
      destruct (iter_until p f a0) as [a1|b] eqn:E1; [|split; [lia|discriminate]].
      destruct (I2 a1 eq_refl) as (k' & J' & L'). destruct (IH _ _ J') as [I3 I4]. split; [lia|].
      intros a' Ea. destruct (I4 a' Ea) as (k2 & J2 & L2). exists k2. split; [exact J2|]. lia.
    + split; [lia|discriminate].
  - destruct (IH _ _ Ja) as [I1 I2].
    destruct (iter_until p f a) as [a1|b] eqn:E1; [|split; [lia|discriminate]].
    destruct (I2 a1 eq_refl) as (k' & J' & L'). destruct (IH _ _ J') as [I3 I4]. split; [lia|].
    intros a' Ea. destruct (I4 a' Ea) as (k2 & J2 & L2). exists k2. split; [exact J2|]. lia.
  - destruct (Hf k a Ja) as [K1 Hm]. split; [lia|]. intros a' Ea. exists (k - 1)%nat. split; [apply Hm, Ea|]. lia.
Qed.

Lemma parts_iterations p r e : 0 <= r <= u64_MAX -> (iterations p f64_parts_step (f64_of_Z r, e) <= 3)%nat.
Proof.
  intros Hr. pose proof (twice_zero r Hr) as TZ. set (f0 := f64_of_Z r) in *. set (f1 := f64_div f0 (pow10_lit 308)) in *.
  apply (iterations_le f64_parts_step (fun k st => (k = 3%nat /\ fst st = f0) \/ (k = 2%nat /\ fst st = f1) \/ (k = 1%nat /\ fst st = f_zero)) ).
  2:{ left. auto. }
  intros k [f x] H. cbn [fst] in H. split; [lia|]. intros [f' x'].
  unfold f64_parts_step. destruct (POW10_get (Z.abs x)).
  { destruct (0 <=? x); [destruct (f_is_infinite _)|]; discriminate. }
  destruct (SFeqb f f_zero) eqn:EZ; [discriminate|]. destruct (0 <=? x); [discriminate|].
  intros M. injection M as <- <-. cbn [fst]. destruct H as [[-> ->]|[[-> ->]|[-> ->]]].
  - right. left. auto.
  - right. right. split; [reflexivity|exact TZ].
  - discriminate EZ.
Qed.
