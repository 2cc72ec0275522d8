(** Floats: widening an f32, reading back a printed float. *)
From Coq Require Import ZArith Reals Lia Lra Psatz Bool List Floats.SpecFloat.
From Flocq Require Import Core Relative BinarySingleNaN.
From Verif Require Import Base F64 FloatOps FloatParts Lexer Grammar NumValue LexSpec Types Reading ReadFacts FloatLit FloatRead DocSpec NumFacts.
Import ListNotations.
Open Scope Z_scope.

(** Finite values are determined by their real value and sign. *)
Lemma float_inj prec emax (Hp : Prec_gt_0 prec) (He : Prec_lt_emax prec emax) x y :
  valid_binary prec emax x = true -> valid_binary prec emax y = true ->
  is_finite_SF x = true -> is_finite_SF y = true -> SF2R radix2 x = SF2R radix2 y -> sign_SF x = sign_SF y -> x = y.
Proof.
  intros Vx Vy Fx Fy ER ES.
  rewrite <- (B2SF_SF2B prec emax x Vx), <- (B2SF_SF2B prec emax y Vy). f_equal.
  apply B2R_Bsign_inj.
  - rewrite is_finite_SF2B. exact Fx.
  - rewrite is_finite_SF2B. exact Fy.
  - rewrite !B2R_SF2B. exact ER.
  - rewrite !Bsign_SF2B. exact ES.
Qed.

#[global] Instance prec24 : Prec_gt_0 24 := eq_refl.
#[global] Instance emax128 : Prec_lt_emax 24 128 := eq_refl.
Notation fexp32 := (SpecFloat.fexp 24 128).
Notation fexp64 := (SpecFloat.fexp 53 1024).
#[global] Instance vexp32 : Valid_exp fexp32 := fexp_correct 24 128 eq_refl.

Lemma fexp32_max e : fexp32 e = Z.max (e - 24) (-149).
Proof. reflexivity. Qed.
Lemma fexp64_max e : fexp64 e = Z.max (e - 53) (-1074).
Proof. reflexivity. Qed.
Lemma format32_64 x : generic_format radix2 fexp32 x -> generic_format radix2 fexp64 x.
Proof. apply generic_inclusion_mag. intros _. rewrite fexp32_max, fexp64_max. lia. Qed.
Lemma f32_lt g : f32_ok g = true -> (Rabs (freal g) < bpow radix2 128)%R.
Proof. intros V. unfold freal. rewrite <- (B2R_SF2B 24 128 g V). apply abs_B2R_lt_emax. Qed.
Lemma f64_lt g : f64_ok g = true -> (Rabs (freal g) < bpow radix2 1024)%R.
Proof. intros V. unfold freal. rewrite <- (B2R_SF2B 53 1024 g V). apply abs_B2R_lt_emax. Qed.

Lemma widen_spec g : f32_ok g = true ->
  f64_ok (f64_of_f32 g) = true /\ f_is_finite (f64_of_f32 g) = f_is_finite g /\
  sign_SF (f64_of_f32 g) = sign_SF g /\ freal (f64_of_f32 g) = freal g.
Proof.
  intros V. destruct g as [s|s| |s m e]; try (repeat split; reflexivity).
  cbn [f64_of_f32]. pose proof (round_spec 53 1024 prec53 emax1024 s m e) as [A B].
  set (x := F2R _) in B. assert (Ex : x = freal (S754_finite s m e)) by reflexivity.
  assert (R : rnd64 x = x). { apply rnd_id, format32_64. rewrite Ex. exact (val_format 24 128 _ V). }
  rewrite R in B. rewrite Rlt_bool_true in B.
  - destruct B as (B1 & B2 & B3). split; [exact A|]. split; [rewrite <- finite_SF, B2; reflexivity|]. split; [exact B3|]. unfold freal at 1. rewrite B1. exact Ex.
  - rewrite Ex. eapply Rlt_le_trans; [apply f32_lt, V|]. apply bpow_le. lia.
Qed.

Lemma narrow_sign f : fin64 f -> f_is_finite (f32_of_f64 f) = true -> sign_SF (f32_of_f64 f) = sign_SF f.
Proof.
  intros [V F] HF. destruct f as [s|s| |s m e]; try discriminate; [reflexivity|]. cbn [f32_of_f64] in *.
  pose proof (round_spec 24 128 prec24 emax128 s m e) as [A B]. destruct (Rlt_bool _ _).
  - destruct B as (_ & _ & B). exact B.
  - rewrite B in HF. destruct s; discriminate.
Qed.

(** ** The f32 nearest to a number very close to an f32 is that f32. *)
Definition tiny : R := bpow radix2 (-151).
Lemma ulp32_ge x : (bpow radix2 (-149) <= ulp radix2 fexp32 x)%R /\ (Rabs x <= 16777216 * ulp radix2 fexp32 x)%R.
Proof.
  destruct (Req_dec x 0) as [->|Hx].
  - split.
    + change fexp32 with (FLT_exp (-149) 24). rewrite ulp_FLT_0 by reflexivity. apply Rle_refl.
    + rewrite Rabs_R0. apply Rmult_le_pos; [lra|apply ulp_ge_0].
  - rewrite ulp_neq_0 by exact Hx. unfold cexp. rewrite fexp32_max. split.
    + apply bpow_le. lia.
    + apply Rlt_le. eapply Rlt_le_trans; [apply bpow_mag_gt|]. change 16777216%R with (bpow radix2 24). rewrite <- bpow_plus. apply bpow_le. lia.
Qed.
Lemma near32_pos x y : generic_format radix2 fexp32 x -> (0 <= x)%R ->
  (Rabs (y - x) <= bpow radix2 (-30) * x + tiny)%R -> nearest32 y = x.
Proof.
  intros HF Hx HD. rewrite nearest32_eq.
  assert (T : bpow radix2 (-149) = (4 * tiny)%R).
  { unfold tiny. change 4%R with (bpow radix2 2). rewrite <- bpow_plus. reflexivity. }
  assert (T0 : (0 < tiny)%R) by apply bpow_gt_0.
  assert (E30 : bpow radix2 (-30) = (/ 1073741824)%R) by (cbn; reflexivity). rewrite E30 in HD.
  apply Rabs_le_inv in HD. destruct HD as [D1 D2].
  apply Rle_antisym.
  - apply (round_N_le_midp radix2 fexp32); [exact HF|]. rewrite succ_eq_pos by exact Hx.
    destruct (ulp32_ge x) as [U1 U2]. rewrite Rabs_pos_eq in U2 by exact Hx. lra.
  - apply (round_N_ge_midp radix2 fexp32); [exact HF|]. destruct (Req_dec x 0) as [Z|Hz].
    + rewrite Z, pred_0. assert (ulp radix2 fexp32 0 = (4 * tiny)%R) as ->.
      { change fexp32 with (FLT_exp (-149) 24). rewrite ulp_FLT_0 by reflexivity. exact T. }
      subst x. lra.
    + pose proof (pred_plus_ulp radix2 fexp32 x ltac:(lra) HF) as PU. destruct (ulp32_ge (pred radix2 fexp32 x)) as [U1 U2].
      assert (P0 : (0 <= pred radix2 fexp32 x)%R) by (apply pred_ge_0; [apply vexp32|lra|exact HF]).
      rewrite Rabs_pos_eq in U2 by exact P0. lra.
Qed.
Lemma nearest32_opp x : nearest32 (- x) = (- nearest32 x)%R.
Proof. rewrite !nearest32_eq. apply round_NE_opp. Qed.
Lemma near32 x y : generic_format radix2 fexp32 x ->
  (Rabs (y - x) <= bpow radix2 (-30) * Rabs x + tiny)%R -> nearest32 y = x.
Proof.
  intros HF HD. destruct (Rle_dec 0 x) as [H|H].
  - apply near32_pos; [exact HF|exact H|]. rewrite (Rabs_pos_eq x) in HD by exact H. exact HD.
  - rewrite <- (Ropp_involutive y), nearest32_opp. rewrite (near32_pos (- x)).
    + lra.
    + apply generic_format_opp, HF.
    + lra.
    + rewrite (Rabs_left x) in HD by lra. replace (- y - - x)%R with (- (y - x))%R by ring. rewrite Rabs_Ropp. exact HD.
Qed.

(** ** Reading back *)
Lemma nonint_reads n : ~ is_int_lit n -> lit_readable n -> exists f, reads_f n f.
Proof. intros HN [[z (H & _)]|[[z (H & _)]|H]]; [contradiction|contradiction|exact H]. Qed.

(** A literal whose value rounds to x is close to x. *)
Lemma lit_near x v : nearest64 v = x -> (Rabs (v - x) <= 2 * uu * Rabs x + 2 * hh)%R /\ (Rabs v <= (1 + 2 * uu) * Rabs x + 2 * hh)%R.
Proof.
  intros H. pose proof (rnd_err_signed v) as A. rewrite <- nearest64_eq, H in A.
  pose proof (Rabs_pos v). pose proof (Rabs_pos x). pose proof hh_pos. pose proof uu_pos.
  assert (B : (Rabs v <= Rabs x + Rabs (x - v))%R). { replace v with (x + - (x - v))%R at 1 by ring. rewrite <- (Rabs_Ropp (x - v)). apply Rabs_triang. }
  assert (U : uu = (/ 9007199254740992)%R) by reflexivity.
  assert (C : (Rabs v <= (1 + 2 * uu) * Rabs x + 2 * hh)%R). { rewrite U in *. lra. }
  split; [|exact C]. rewrite Rabs_minus_sym. rewrite U in *. lra.
Qed.

Theorem reads_back n (x : R) : lit_ok n -> lit_short n -> ~ is_int_lit n -> nearest64 (lit_value n) = x ->
  (Rabs x <= (1 - bpow radix2 (-49)) * f64_MAX)%R ->
  exists y, reads_f n y /\ fin64 y /\ sign_SF y = n_neg n /\
    (Rabs (freal y - x) <= bpow radix2 (-49) * Rabs x + bpow radix2 (-1071))%R.
Proof.
  intros HO HS HN HV HB. destruct (lit_near _ _ HV) as [A1 A2].
  assert (E49 : bpow radix2 (-49) = (16 * uu)%R) by (unfold uu; cbn; lra).
  assert (E1071 : bpow radix2 (-1071) = (16 * hh)%R).
  { unfold hh. change 16%R with (bpow radix2 4). rewrite <- bpow_plus. reflexivity. }
  rewrite E49, E1071 in *. pose proof hh_pos. pose proof (Rabs_pos x). pose proof (Rabs_pos (lit_value n)).
  assert (U : uu = (/ 9007199254740992)%R) by reflexivity.
  assert (HM : (hh <= uu * f64_MAX)%R).
  { unfold hh, f64_MAX. rewrite U. apply Rle_trans with (bpow radix2 0); [apply bpow_le; lia|].
    change (2 ^ 53 - 1) with 9007199254740991. assert (bpow radix2 1 <= bpow radix2 971)%R by (apply bpow_le; lia). cbn [bpow] in *. change (IZR (Z.pow_pos radix2 1)) with 2%R in *. lra. }
  assert (HR : lit_readable n).
  { apply readable_below; [exact HO|exact HS|]. rewrite e50_uu. assert (0 <= f64_MAX)%R by (unfold f64_MAX; apply Rmult_le_pos; [apply IZR_le; cbn; lia|apply bpow_ge_0]). rewrite U in *. lra. }
  destruct (nonint_reads n HN HR) as [y Hy]. exists y. destruct (lit_event_finite n y HO Hy) as [F S]. split; [exact Hy|]. split; [exact F|]. split; [exact S|].
  pose proof (reads64_accuracy [] n y HO HS (rd_f64 _ _ _ Hy)) as B. rewrite e50_uu, a1072_hh in B.
  replace (freal y - x)%R with ((SF2R radix2 y - lit_value n) + (lit_value n - x))%R by (unfold freal; ring).
  eapply Rle_trans; [apply Rabs_triang|]. rewrite U in *. lra.
Qed.

(** An f32 printed as an f64 reads back exactly. *)
Theorem f32_back n g : lit_ok n -> lit_short n -> ~ is_int_lit n -> f32_ok g = true -> f_is_finite g = true ->
  n_neg n = sign_SF g -> nearest64 (lit_value n) = freal g -> exists y, reads_f n y /\ f32_of_f64 y = g.
Proof.
  intros HO HS HN V F SG HV. pose proof (f32_lt g V) as HL. pose proof (Rabs_pos (freal g)) as HP.
  assert (E49 : bpow radix2 (-49) = (/ 562949953421312)%R) by (cbn; reflexivity).
  destruct (reads_back n (freal g) HO HS HN HV) as (y & Hy & Fy & Sy & D).
  { apply Rle_trans with (bpow radix2 128); [lra|]. apply Rle_trans with (bpow radix2 971); [apply bpow_le; lia|].
    unfold f64_MAX. rewrite E49. change (2 ^ 53 - 1) with 9007199254740991. pose proof (bpow_gt_0 radix2 971). lra. }
  exists y. split; [exact Hy|].
  assert (NR : nearest32 (SF2R radix2 y) = freal g).
  { apply near32; [exact (val_format 24 128 g V)|]. eapply Rle_trans; [exact D|].
    assert (bpow radix2 (-49) <= bpow radix2 (-30))%R by (apply bpow_le; lia).
    assert (bpow radix2 (-1071) <= tiny)%R by (apply bpow_le; lia). nra. }
  destruct (f32_of_f64_spec y Fy) as [V2 H2]. rewrite NR, Rlt_bool_true in H2 by exact HL. destruct H2 as [R2 F2].
  apply (float_inj 24 128 prec24 emax128); [exact V2|exact V|rewrite finite_SF; exact F2|rewrite finite_SF; exact F|exact R2|].
  rewrite narrow_sign by assumption. congruence.
Qed.
