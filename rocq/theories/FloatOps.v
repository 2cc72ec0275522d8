(** The IEEE-754 operations of F64.v are correctly rounded (through Flocq). *)
From Coq Require Import ZArith Reals Lia Lra Psatz Bool Floats.SpecFloat.
From Flocq Require Import Core Relative BinarySingleNaN.
From Verif Require Import Base F64.
Open Scope Z_scope.

Section Generic.
Variables prec emax : Z.
Context (Hp : Prec_gt_0 prec).
Context (He : Prec_lt_emax prec emax).

Notation rnd := (round radix2 (SpecFloat.fexp prec emax) ZnearestE).
Notation val := (SF2R radix2).
Notation valid := (SpecFloat.valid_binary prec emax).

Lemma rne_eq s m l : SpecFloat.round_nearest_even m l = choice_mode mode_NE s m l.
Proof. destruct l as [|c]; [reflexivity|]. destruct c; try reflexivity. cbn. unfold Round.cond_incr. destruct (Z.even m); reflexivity. Qed.

Lemma round_aux_eq sx mx ex lx :
  SpecFloat.binary_round_aux prec emax sx mx ex lx = BinarySingleNaN.binary_round_aux prec emax mode_NE sx mx ex lx.
Proof.
  unfold SpecFloat.binary_round_aux, BinarySingleNaN.binary_round_aux.
  destruct (SpecFloat.shr_fexp prec emax mx ex lx) as [mrs e]. cbn. rewrite (rne_eq sx). reflexivity.
Qed.

Lemma round_eq s m e : SpecFloat.binary_round prec emax s m e = BinarySingleNaN.binary_round prec emax mode_NE s m e.
Proof.
  unfold SpecFloat.binary_round, BinarySingleNaN.binary_round, shl_align_fexp.
  destruct (SpecFloat.shl_align _ _ _) as [mz ez]. apply round_aux_eq.
Qed.

(** Result of a rounding: the rounded real when that is below the overflow threshold,
    otherwise an infinity. *)
Definition rounded (z : spec_float) (x : R) (s : bool) : Prop :=
  valid z = true /\
  if Rlt_bool (Rabs (rnd x)) (bpow radix2 emax) then
    val z = rnd x /\ is_finite_SF z = true /\ sign_SF z = s
  else z = S754_infinity s.

Lemma round_spec s m e : rounded (SpecFloat.binary_round prec emax s m e) (F2R (Float radix2 (cond_Zopp s (Zpos m)) e)) s.
Proof. rewrite round_eq. exact (binary_round_correct prec emax Hp He mode_NE s m e). Qed.

Lemma normalize_spec z : rounded (SpecFloat.binary_normalize prec emax z 0 false) (IZR z) (z <? 0).
Proof.
  assert (E : IZR z = F2R (Float radix2 z 0)) by (unfold F2R; cbn; ring).
  destruct z as [|p|p]; cbn [SpecFloat.binary_normalize].
  - split; [reflexivity|]. rewrite round_0 by apply valid_rnd_N. rewrite Rabs_R0, Rlt_bool_true by apply bpow_gt_0. auto.
  - rewrite E. exact (round_spec false p 0).
  - rewrite E. exact (round_spec true p 0).
Qed.

Lemma mul_spec x y : valid x = true -> valid y = true -> is_finite_SF x = true -> is_finite_SF y = true ->
  rounded (SFmul prec emax x y) (val x * val y) (xorb (sign_SF x) (sign_SF y)).
Proof.
  intros Vx Vy Fx Fy.
  assert (Z0 : forall s, rounded (S754_zero s) 0 s).
  { intros s. split; [reflexivity|]. rewrite round_0 by apply valid_rnd_N. rewrite Rabs_R0, Rlt_bool_true by apply bpow_gt_0. auto. }
  destruct x as [sx|sx| |sx mx ex], y as [sy|sy| |sy my ey]; try discriminate; cbn [SFmul SF2R sign_SF];
    rewrite ?Rmult_0_l, ?Rmult_0_r; try apply Z0.
  rewrite round_aux_eq. exact (Bmult_correct_aux prec emax Hp He mode_NE sx mx ex Vx sy my ey Vy).
Qed.

Lemma div_spec x y : valid x = true -> valid y = true -> is_finite_SF x = true -> is_finite_SF y = true -> val y <> 0%R ->
  rounded (SFdiv prec emax x y) (val x / val y) (xorb (sign_SF x) (sign_SF y)).
Proof.
  intros Vx Vy Fx Fy Ny.
  assert (Z0 : forall s, rounded (S754_zero s) 0 s).
  { intros s. split; [reflexivity|]. rewrite round_0 by apply valid_rnd_N. rewrite Rabs_R0, Rlt_bool_true by apply bpow_gt_0. auto. }
  destruct x as [sx|sx| |sx mx ex], y as [sy|sy| |sy my ey]; try discriminate; cbn [SFdiv SF2R sign_SF];
    try (exfalso; apply Ny; reflexivity).
  - replace (0 / F2R {| Fnum := cond_Zopp sy (Z.pos my); Fexp := ey |})%R with 0%R by (unfold Rdiv; ring). apply Z0.
  - pose proof (Bdiv_correct_aux prec emax Hp He mode_NE sx mx ex sy my ey) as H. cbv zeta in H.
    destruct (SFdiv_core_binary prec emax (Zpos mx) ex (Zpos my) ey) as [[mz ez] lz]. rewrite round_aux_eq. exact H.
Qed.

(** The rounding error. *)
Lemma rnd_err x : (0 <= x)%R ->
  (Rabs (rnd x - x) <= bpow radix2 (- prec) * x + bpow radix2 (SpecFloat.emin prec emax - 1))%R.
Proof.
  intros Hx.
  assert (EP : (/ 2 * bpow radix2 (- prec + 1) = bpow radix2 (- prec))%R) by (rewrite bpow_plus; cbn; field).
  assert (EM : (/ 2 * bpow radix2 (SpecFloat.emin prec emax) = bpow radix2 (SpecFloat.emin prec emax - 1))%R)
    by (unfold Zminus; rewrite bpow_plus; cbn; field).
  destruct (Req_dec x 0) as [->|N].
  { rewrite round_0 by apply valid_rnd_N. rewrite Rminus_0_r, Rabs_R0.
    apply Rplus_le_le_0_compat; [|apply bpow_ge_0]. rewrite Rmult_0_r. apply Rle_refl. }
  destruct (error_N_FLT radix2 (SpecFloat.emin prec emax) prec Hp (fun z => negb (Z.even z)) x) as (eps & eta & H1 & H2 & _ & H3).
  unfold SpecFloat.fexp, FLT_exp in *. rewrite H3.
  replace (x * (1 + eps) + eta - x)%R with (eps * x + eta)%R by ring.
  eapply Rle_trans; [apply Rabs_triang|]. rewrite Rabs_mult, (Rabs_pos_eq x) by exact Hx.
  rewrite EP in H1. rewrite EM in H2. apply Rplus_le_compat; [|exact H2].
  apply Rmult_le_compat_r; assumption.
Qed.

Lemma rnd_le x y : (x <= y)%R -> (rnd x <= rnd y)%R.
Proof.
  assert (V1 : Valid_exp (SpecFloat.fexp prec emax)) by (apply fexp_correct, Hp).
  assert (V2 : Valid_rnd ZnearestE) by apply valid_rnd_N.
  intros H. apply round_le; assumption.
Qed.
Lemma rnd_ge0 x : (0 <= x)%R -> (0 <= rnd x)%R.
Proof.
  intros H. apply rnd_le in H. rewrite round_0 in H by apply valid_rnd_N. exact H.
Qed.
Lemma rnd_id x : generic_format radix2 (SpecFloat.fexp prec emax) x -> rnd x = x.
Proof. apply round_generic, valid_rnd_N. Qed.
Lemma rnd_opp x : rnd (- x) = (- rnd x)%R.
Proof. apply round_NE_opp. Qed.
Lemma val_format z : valid z = true -> generic_format radix2 (SpecFloat.fexp prec emax) (val z).
Proof. intros H. rewrite <- (B2R_SF2B prec emax z H). apply generic_format_B2R. Qed.
Lemma format_bpow e : SpecFloat.emin prec emax <= e -> generic_format radix2 (SpecFloat.fexp prec emax) (bpow radix2 e).
Proof.
  intros H. apply generic_format_bpow. unfold SpecFloat.fexp. red in Hp. lia.
Qed.
End Generic.
