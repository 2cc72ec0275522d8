(** Error analysis of f64_from_parts. *)
From Coq Require Import ZArith Reals Lia Lra Psatz Bool List Floats.SpecFloat.
From Flocq Require Import Core Relative BinarySingleNaN.
From Verif Require Import Base F64 FloatOps LexFacts.
Open Scope Z_scope.

Notation rnd64 := (round radix2 (SpecFloat.fexp 53 1024) ZnearestE).
Notation vreal := (SF2R radix2).
Notation fvalid := (SpecFloat.valid_binary 53 1024).
#[global] Instance prec53 : Prec_gt_0 53 := eq_refl.
#[global] Instance emax1024 : Prec_lt_emax 53 1024 := eq_refl.

(** Half the spacing of the subnormal numbers. *)
Definition hh : R := bpow radix2 (-1075).
Definition uu : R := (/ 9007199254740992)%R.
Lemma hh_pos : (0 < hh)%R. Proof. apply bpow_gt_0. Qed.
Lemma uu_bpow : bpow radix2 (-53) = uu.
Proof. cbn. unfold uu. reflexivity. Qed.

Lemma rnd64_err x : (0 <= x)%R -> ((1 - uu) * x - hh <= rnd64 x <= (1 + uu) * x + hh)%R.
Proof.
  intros H. pose proof (rnd_err 53 1024 _ x H) as E. change (- (53)) with (-53) in E. rewrite uu_bpow in E.
  change (bpow radix2 (SpecFloat.emin 53 1024 - 1)) with hh in E.
  apply Rabs_le_inv in E. lra.
Qed.

(** Relative error in the normal range. *)
Lemma rnd64_rel x : (bpow radix2 (-1022) <= x)%R -> ((1 - uu) * x <= rnd64 x <= (1 + uu) * x)%R.
Proof.
  intros H. assert (P : (0 < x)%R) by (eapply Rlt_le_trans; [apply bpow_gt_0|exact H]).
  pose proof (relative_error_N_FLT radix2 (-1074) 53 eq_refl (fun z => negb (Z.even z)) x) as E.
  change (-1074 + 53 - 1) with (-1022) in E. rewrite (Rabs_pos_eq x) in E by lra.
  specialize (E H). change (- (53) + 1) with (-52) in E.
  change (FLT_exp (-1074) 53) with (SpecFloat.fexp 53 1024) in E.
  replace (/ 2 * bpow radix2 (-52))%R with uu in E by (cbn; unfold uu; lra).
  apply Rabs_le_inv in E. lra.
Qed.

(** ** Interval reasoning *)
Definition near (l m b x f : R) : Prop := (l * x - b <= f <= m * x + b)%R.

Lemma uu_pos : (0 < uu)%R. Proof. unfold uu. lra. Qed.
Lemma near_rnd l m b x f : near l m b x f -> (0 <= b)%R -> (0 <= f)%R ->
  near (l * (1 - uu)) (m * (1 + uu)) (b * (1 + uu) + hh) x (rnd64 f).
Proof.
  unfold near. intros [H1 H2] B0 H0. pose proof (rnd64_err f H0) as [E1 E2].
  pose proof uu_pos as U. assert (U1 : (uu < 1)%R) by (unfold uu; lra).
  assert (A1 : ((1 - uu) * (l * x - b) <= (1 - uu) * f)%R) by (apply Rmult_le_compat_l; lra).
  assert (A2 : ((1 + uu) * f <= (1 + uu) * (m * x + b))%R) by (apply Rmult_le_compat_l; lra).
  assert ((0 <= uu * b)%R) by (apply Rmult_le_pos; lra). split; lra.
Qed.

Lemma near_mulb l m b x f lp up z Q :
  near l m b x f -> near lp up 0 z Q -> (0 <= b)%R -> (0 <= x)%R -> (0 <= z)%R -> (0 <= l)%R -> (0 <= m)%R -> (0 <= Q <= 2)%R ->
  near (l * lp) (m * up) (2 * b) (x * z) (f * Q).
Proof.
  unfold near. intros [F1 F2] [P1 P2] B X Z L M [Q1 Q2].
  assert (LX : (0 <= l * x)%R) by (apply Rmult_le_pos; lra).
  assert (MX : (0 <= m * x)%R) by (apply Rmult_le_pos; lra).
  assert (BQ : (b * Q <= b * 2)%R) by (apply Rmult_le_compat_l; lra).
  assert (A1 : ((l * x - b) * Q <= f * Q)%R) by (apply Rmult_le_compat_r; lra).
  assert (A2 : (f * Q <= (m * x + b) * Q)%R) by (apply Rmult_le_compat_r; lra).
  assert (A3 : ((l * x) * (lp * z - 0) <= (l * x) * Q)%R) by (apply Rmult_le_compat_l; lra).
  assert (A4 : ((m * x) * Q <= (m * x) * (up * z + 0))%R) by (apply Rmult_le_compat_l; lra).
  split; lra.
Qed.

Lemma near_inv y P : (1 <= y)%R -> near (1 - uu) (1 + uu) 0 y P ->
  near (1 - uu) (1 + 1001 / 1000 * uu) 0 (/ y) (/ P) /\ (0 <= / P <= 2)%R.
Proof.
  unfold near. intros Y [P1 P2]. rewrite Rminus_0_r in *. rewrite Rplus_0_r in *.
  assert (PP : (/ 2 <= P)%R) by (unfold uu in P1; lra).
  assert (PI : (0 < / P)%R) by (apply Rinv_0_lt_compat; lra).
  assert (YI : (0 < / y)%R) by (apply Rinv_0_lt_compat; lra).
  assert (E : (/ y * y = 1)%R) by (field; lra). assert (EP : (P * / P = 1)%R) by (field; lra).
  split; [split|split].
  - replace (/ P)%R with ((/ y * y) * / P)%R by (rewrite E; ring).
    apply Rmult_le_reg_r with P; [lra|].
    replace (/ y * y * / P * P)%R with (/ y * y)%R by (field; lra). rewrite E.
    assert ((1 - uu) * / y * P <= (1 - uu) * / y * ((1 + uu) * y))%R.
    { apply Rmult_le_compat_l; [|lra]. apply Rmult_le_pos; [unfold uu; lra|lra]. }
    replace ((1 - uu) * / y * ((1 + uu) * y))%R with ((1 - uu) * (1 + uu) * (/ y * y))%R in H by ring.
    rewrite E in H. assert ((1 - uu) * (1 + uu) <= 1)%R by (unfold uu; lra). lra.
  - apply Rmult_le_reg_r with P; [lra|].
    replace (/ P * P)%R with 1%R by (field; lra).
    assert ((1 + 1001 / 1000 * uu) * / y * ((1 - uu) * y) <= (1 + 1001 / 1000 * uu) * / y * P)%R.
    { apply Rmult_le_compat_l; [|lra]. apply Rmult_le_pos; [unfold uu; lra|lra]. }
    replace ((1 + 1001 / 1000 * uu) * / y * ((1 - uu) * y))%R with ((1 + 1001 / 1000 * uu) * (1 - uu) * (/ y * y))%R in H by ring.
    rewrite E in H. assert (1 <= (1 + 1001 / 1000 * uu) * (1 - uu))%R by (unfold uu; lra). lra.
  - lra.
  - replace 2%R with (/ / 2)%R by lra. apply Rinv_le_contravar; lra.
Qed.

Lemma near_mul l m x f lp up y P :
  near l m 0 x f -> near lp up 0 y P -> (0 <= x)%R -> (0 <= y)%R -> (0 <= l)%R -> (0 <= lp)%R ->
  near (l * lp) (m * up) 0 (x * y) (f * P).
Proof.
  unfold near. intros [F1 F2] [P1 P2] X Y L U.
  assert (0 <= l * x)%R by (apply Rmult_le_pos; lra).
  assert (0 <= lp * y)%R by (apply Rmult_le_pos; lra).
  split.
  - replace (l * lp * (x * y) - 0)%R with ((l * x) * (lp * y))%R by ring. apply Rmult_le_compat; lra.
  - replace (m * up * (x * y) + 0)%R with ((m * x) * (up * y))%R by ring. apply Rmult_le_compat; lra.
Qed.

Lemma near_weak l m b l' m' b' x f : near l m b x f -> (0 <= x)%R -> (l' <= l)%R -> (m <= m')%R -> (b <= b')%R -> near l' m' b' x f.
Proof.
  unfold near. intros [F1 F2] X L M B.
  assert (l' * x <= l * x)%R by (apply Rmult_le_compat_r; lra).
  assert (m * x <= m' * x)%R by (apply Rmult_le_compat_r; lra). lra.
Qed.

(** ** The largest finite number *)
Definition fmax : R := (IZR 9007199254740991 * bpow radix2 971)%R.
Lemma fmax_format : generic_format radix2 (SpecFloat.fexp 53 1024) fmax.
Proof. exact (val_format 53 1024 (S754_finite false 9007199254740991 971) eq_refl). Qed.
Lemma fmax_rnd : rnd64 fmax = fmax.
Proof. apply rnd_id, fmax_format. Qed.
Lemma fmax_bpow : fmax = ((1 - uu) * bpow radix2 1024)%R.
Proof.
  unfold fmax. replace (bpow radix2 1024) with (bpow radix2 53 * bpow radix2 971)%R by (rewrite <- bpow_plus; reflexivity).
  rewrite <- Rmult_assoc. f_equal. cbn. unfold uu. lra.
Qed.
Lemma fmax_lt : (fmax < bpow radix2 1024)%R.
Proof. rewrite fmax_bpow. pose proof (bpow_gt_0 radix2 1024). pose proof uu_pos.
  assert (0 < uu * bpow radix2 1024)%R by (apply Rmult_lt_0_compat; lra). lra. Qed.

Lemma rounded_small z x s : rounded 53 1024 z x s -> (0 <= x <= fmax)%R ->
  fvalid z = true /\ vreal z = rnd64 x /\ is_finite_SF z = true /\ sign_SF z = s.
Proof.
  intros [V H] [X1 X2]. split; [exact V|].
  rewrite Rlt_bool_true in H; [exact H|].
  rewrite Rabs_pos_eq by (apply rnd_ge0; [reflexivity|exact X1]).
  eapply Rle_lt_trans; [|apply fmax_lt]. rewrite <- fmax_rnd. apply rnd_le; [reflexivity|exact X2].
Qed.
Lemma rounded_any z x s : rounded 53 1024 z x s -> (0 <= x)%R ->
  (fvalid z = true /\ vreal z = rnd64 x /\ is_finite_SF z = true /\ sign_SF z = s) \/
  (z = S754_infinity s /\ (fmax < x)%R).
Proof.
  intros H X. destruct (Rle_or_lt x fmax) as [L|L].
  - left. apply rounded_small; auto.
  - destruct H as [V H]. destruct (Rlt_bool _ _); [left|right]; auto.
Qed.

Lemma finite_max f : fvalid f = true -> is_finite_SF f = true -> (Rabs (vreal f) <= fmax)%R.
Proof.
  intros V F. destruct f as [s|s| |s m e]; try discriminate; cbn [SF2R].
  - rewrite Rabs_R0. unfold fmax. apply Rmult_le_pos; [lra|apply bpow_ge_0].
  - apply andb_prop in V. destruct V as [V1 V2]. apply Zeq_bool_eq in V1. apply Zle_bool_imp_le in V2.
    rewrite <- F2R_Zabs. unfold F2R, fmax. cbn [Fnum Fexp].
    replace (Z.abs (cond_Zopp s (Z.pos m))) with (Z.pos m) by (destruct s; reflexivity).
    assert (M : Z.pos m <= 9007199254740991).
    { rewrite Digits.Zpos_digits2_pos in V1.
      assert (D : Digits.Zdigits radix2 (Zpos m) <= 53).
      { unfold SpecFloat.fexp, SpecFloat.emin in V1. lia. }
      pose proof (Digits.Zdigits_correct radix2 (Zpos m)) as [_ C].
      assert (radix2 ^ Digits.Zdigits radix2 (Z.pos m) <= radix2 ^ 53).
      { apply Z.pow_le_mono_r; [reflexivity|exact D]. }
      rewrite Z.abs_eq in C by lia. change (radix2 ^ 53) with 9007199254740992 in *. lia. }
    apply Rmult_le_compat; [apply IZR_le; lia|apply bpow_ge_0|apply IZR_le; lia|apply bpow_le; lia].
Qed.

(** ** Powers of ten *)
Lemma pow10_IZR k : 0 <= k -> powerRZ 10 k = IZR (10 ^ k).
Proof.
  intros H. destruct k as [|p|p]; [reflexivity| |lia]. rewrite <- Zpower_pos_powerRZ. reflexivity.
Qed.
Lemma pow10_neg k : 0 <= k -> powerRZ 10 (- k) = (/ IZR (10 ^ k))%R.
Proof. intros H. rewrite powerRZ_neg', pow10_IZR by exact H. reflexivity. Qed.
Lemma pow10_ge1 k : 0 <= k -> (1 <= IZR (10 ^ k))%R.
Proof. intros H. apply IZR_le. assert (0 < 10 ^ k) by (apply Z.pow_pos_nonneg; lia). lia. Qed.
Lemma pow10_gt0 e : (0 < powerRZ 10 e)%R.
Proof. apply powerRZ_lt. lra. Qed.
Lemma pow10_mono a b : a <= b -> (powerRZ 10 a <= powerRZ 10 b)%R.
Proof.
  intros H. replace b with (a + (b - a)) by lia. rewrite powerRZ_add by lra.
  rewrite (pow10_IZR (b - a)) by lia. pose proof (pow10_ge1 (b - a)). pose proof (pow10_gt0 a).
  rewrite <- (Rmult_1_r (powerRZ 10 a)) at 1. apply Rmult_le_compat_l; [lra|apply H0; lia].
Qed.

Lemma bpow_IZR e : 0 <= e -> bpow radix2 e = IZR (2 ^ e).
Proof. intros H. symmetry. exact (IZR_Zpower radix2 e H). Qed.
Lemma fmax_IZR : fmax = IZR (9007199254740991 * 2 ^ 971).
Proof. unfold fmax. rewrite mult_IZR, <- bpow_IZR by lia. reflexivity. Qed.
Lemma bpow1022_1 : (bpow radix2 (-1022) <= 1)%R.
Proof. change 1%R with (bpow radix2 0). apply bpow_le. lia. Qed.

Lemma of_Z_spec z : 0 <= z <= 10 ^ 308 ->
  fvalid (f64_of_Z z) = true /\ is_finite_SF (f64_of_Z z) = true /\ sign_SF (f64_of_Z z) = false /\
  vreal (f64_of_Z z) = rnd64 (IZR z) /\
  near (1 - uu) (1 + uu) 0 (IZR z) (vreal (f64_of_Z z)).
Proof.
  intros H.
  pose proof (normalize_spec 53 1024 _ _ z) as S.
  replace (z <? 0) with false in S by (symmetry; apply Z.ltb_ge; lia).
  apply rounded_small in S.
  2:{ split; [apply IZR_le; lia|]. rewrite fmax_IZR. apply IZR_le.
      apply Z.le_trans with (10 ^ 308); [lia|]. vm_compute. discriminate. }
  destruct S as (V & R & F & G). unfold f64_of_Z. rewrite R.
  repeat split; auto; unfold near; rewrite ?Rminus_0_r, ?Rplus_0_r;
    (destruct (Z.eq_dec z 0) as [->|N];
      [rewrite round_0 by apply valid_rnd_N; lra|
       apply rnd64_rel; eapply Rle_trans; [apply bpow1022_1|apply IZR_le; lia]]).
Qed.

Lemma pow10_lit_spec k : 0 <= k <= 308 ->
  fvalid (pow10_lit k) = true /\ is_finite_SF (pow10_lit k) = true /\ sign_SF (pow10_lit k) = false /\
  vreal (pow10_lit k) = rnd64 (IZR (10 ^ k)) /\
  near (1 - uu) (1 + uu) 0 (IZR (10 ^ k)) (vreal (pow10_lit k)) /\ (/ 2 <= vreal (pow10_lit k))%R.
Proof.
  intros H. pose proof (pow10_ge1 k ltac:(lia)) as P1.
  destruct (of_Z_spec (10 ^ k)) as (A & B & C & D & N).
  { split; [apply Z.pow_nonneg; lia|apply Z.pow_le_mono_r; lia]. }
  repeat split; auto; try apply N.
  destruct N as [N _]. unfold pow10_lit. unfold uu in N. lra.
Qed.

(** ** One multiplication or division *)
Definition fnat (f : spec_float) : Prop := fvalid f = true /\ is_finite_SF f = true /\ sign_SF f = false.

Lemma fnat_ge0 f : fnat f -> (0 <= vreal f)%R.
Proof.
  intros (_ & F & S). destruct f as [s|s| |s m e]; try discriminate; cbn [SF2R sign_SF] in *; [lra|].
  subst s. apply F2R_ge_0. cbn. lia.
Qed.
Lemma fnat_zero f : fnat f -> (SFeqb f f_zero = true <-> vreal f = 0%R).
Proof.
  intros (_ & F & S). destruct f as [s|s| |s m e]; try discriminate; cbn [SF2R sign_SF] in *.
  - split; reflexivity.
  - subst s. split; [discriminate|]. intros H. apply eq_0_F2R in H. discriminate.
Qed.
Lemma fnat_zero_eq f : fnat f -> vreal f = 0%R -> f = f_zero.
Proof.
  intros (V & F & S) H. destruct f as [s|s| |s m e]; try discriminate; cbn [SF2R sign_SF] in *; subst s; [reflexivity|].
  apply eq_0_F2R in H. discriminate.
Qed.

Lemma mul_case f k l m x : fnat f -> 0 <= k <= 308 -> near l m 0 x (vreal f) -> (0 <= x)%R -> (0 <= l)%R -> (0 <= m)%R ->
  (vreal f = 0 \/ 1 <= vreal f)%R ->
  let g := f64_mul f (pow10_lit k) in
  (fnat g /\ near (l * (1 - uu) * (1 - uu)) (m * (1 + uu) * (1 + uu)) 0 (x * IZR (10 ^ k)) (vreal g)) \/
  (g = S754_infinity false /\ (fmax < m * (1 + uu) * (x * IZR (10 ^ k)))%R).
Proof.
  intros Hf Hk HN X L M Z. pose proof Hf as (V & F & S).
  destruct (pow10_lit_spec k Hk) as (PV & PF & PS & PR & PN & P2).
  pose proof (pow10_ge1 k ltac:(lia)) as P1.
  pose proof (near_mul _ _ _ _ _ _ _ _ HN PN X ltac:(lra) L ltac:(unfold uu; lra)) as NM.
  pose proof (mul_spec 53 1024 _ _ f (pow10_lit k) V PV F PF) as SP.
  rewrite S, PS in SP. cbn [xorb] in SP.
  assert (G0 : (0 <= vreal f * vreal (pow10_lit k))%R) by (apply Rmult_le_pos; [apply fnat_ge0, Hf|lra]).
  cbv zeta. destruct (rounded_any _ _ _ SP G0) as [(A & B & C & D)|[A B]].
  - left. split; [repeat split; assumption|]. unfold f64_mul. rewrite B.
    destruct Z as [Z|Z].
    + rewrite Z, Rmult_0_l, round_0 by apply valid_rnd_N.
      rewrite Z, Rmult_0_l in NM. unfold near in *.
      assert (0 <= x * IZR (10 ^ k))%R by (apply Rmult_le_pos; lra).
      assert (0 <= l * (1 - uu))%R by (apply Rmult_le_pos; [lra|unfold uu; lra]).
      assert (0 <= m * (1 + uu))%R by (apply Rmult_le_pos; [lra|unfold uu; lra]).
      destruct NM as [N1 N2]. split.
      * assert (0 <= uu * (l * (1 - uu) * (x * IZR (10 ^ k))))%R.
        { apply Rmult_le_pos; [unfold uu; lra|]. apply Rmult_le_pos; lra. }
        lra.
      * rewrite Rplus_0_r. repeat apply Rmult_le_pos; try lra; unfold uu; lra.
    + pose proof (rnd64_rel (vreal f * vreal (pow10_lit k))) as R.
      assert (HP : (1 - uu <= vreal (pow10_lit k))%R).
      { destruct PN as [PN _]. assert ((1 - uu) * 1 <= (1 - uu) * IZR (10 ^ k))%R by (apply Rmult_le_compat_l; [unfold uu; lra|lra]). lra. }
      assert (HP' : (bpow radix2 (-1022) <= vreal f * vreal (pow10_lit k))%R).
      { apply Rle_trans with (1 * / 2)%R.
        - replace (1 * / 2)%R with (bpow radix2 (-1)) by (cbn; lra). apply bpow_le. lia.
        - apply Rmult_le_compat; lra. }
      specialize (R HP'). unfold near in *.
      assert (U : (0 < 1 - uu)%R) by (unfold uu; lra).
      destruct NM as [N1 N2]. split.
      * assert ((1 - uu) * (l * (1 - uu) * (x * IZR (10 ^ k)) - 0) <= (1 - uu) * (vreal f * vreal (pow10_lit k)))%R by (apply Rmult_le_compat_l; lra). lra.
      * assert ((1 + uu) * (vreal f * vreal (pow10_lit k)) <= (1 + uu) * (m * (1 + uu) * (x * IZR (10 ^ k)) + 0))%R
          by (apply Rmult_le_compat_l; [unfold uu; lra|lra]). lra.
  - right. split; [exact A|]. destruct NM as [_ N2]. lra.
Qed.

Lemma div_case f k l m b x : fnat f -> 0 <= k <= 308 -> near l m b x (vreal f) -> (0 <= b)%R -> (0 <= x)%R -> (0 <= l)%R -> (0 <= m)%R ->
  (vreal f <= bpow radix2 70)%R ->
  let g := f64_div f (pow10_lit k) in
  fnat g /\ near (l * (1 - uu) * (1 - uu)) (m * (1 + 1001 / 1000 * uu) * (1 + uu)) (2 * b * (1 + uu) + hh) (x * / IZR (10 ^ k)) (vreal g) /\
  vreal g = rnd64 (vreal f / vreal (pow10_lit k)).
Proof.
  intros Hf Hk HN B0 X L M Z. pose proof Hf as (V & F & S).
  destruct (pow10_lit_spec k Hk) as (PV & PF & PS & PR & PN & P2).
  pose proof (pow10_ge1 k ltac:(lia)) as P1.
  destruct (near_inv _ _ P1 PN) as [NI [I1 I2]].
  assert (YI : (0 < / IZR (10 ^ k))%R) by (apply Rinv_0_lt_compat; lra).
  pose proof (near_mulb _ _ _ _ _ _ _ _ _ HN NI B0 X ltac:(lra) L M (conj I1 I2)) as NM.
  pose proof (div_spec 53 1024 _ _ f (pow10_lit k) V PV F PF ltac:(lra)) as SP.
  rewrite S, PS in SP. cbn [xorb] in SP. pose proof (fnat_ge0 f Hf) as F0.
  assert (G0 : (0 <= vreal f / vreal (pow10_lit k))%R) by (unfold Rdiv; apply Rmult_le_pos; lra).
  apply rounded_small in SP.
  2:{ split; [exact G0|]. apply Rle_trans with (bpow radix2 70 * 2)%R.
      - unfold Rdiv. apply Rmult_le_compat; lra.
      - rewrite bpow_IZR by lia. rewrite <- mult_IZR, fmax_IZR. apply IZR_le. vm_compute. discriminate. }
  destruct SP as (A & B & C & D). cbv zeta.
  split; [repeat split; assumption|]. unfold f64_div. rewrite B. split; [|reflexivity].
  apply near_rnd; [exact NM|lra|exact G0].
Qed.

(** ** f64_from_parts *)
Definition parts_real (r e : Z) : R := (IZR r * powerRZ 10 e)%R.

Definition parts_good (x : R) (f : spec_float) : Prop :=
  fnat f /\ near (1 - 6 * uu) (1 + 6 * uu) (4 * hh) x (vreal f).

Lemma iter_until_inv {A B} (f : A -> lstep A B) (J : A -> Prop) (P : B -> Prop) p :
  (forall a, J a -> match f a with More a' => J a' | Done b => P b end) ->
  forall a, J a -> match iter_until p f a with More a' => J a' | Done b => P b end.
Proof.
  intros Hf. induction p as [p IH | p IH |]; intros a Ja; cbn [iter_until].
  - pose proof (Hf a Ja) as H. destruct (f a) as [a0|b]; [|exact H].
    pose proof (IH a0 H) as H0. destruct (iter_until p f a0) as [a1|b]; [apply IH, H0|exact H0].
  - pose proof (IH a Ja) as H0. destruct (iter_until p f a) as [a1|b]; [apply IH, H0|exact H0].
  - apply Hf, Ja.
Qed.

Lemma tiny_rnd x : (0 <= x < bpow radix2 (-1075))%R -> rnd64 x = 0%R.
Proof.
  intros [H1 H2]. destruct (Req_dec x 0) as [->|N]; [apply round_0, valid_rnd_N|].
  apply (round_N_small radix2 (SpecFloat.fexp 53 1024) _ _ (mag radix2 x)).
  - rewrite Rabs_pos_eq by lra. pose proof (bpow_mag_le radix2 x N). pose proof (bpow_mag_gt radix2 x).
    rewrite Rabs_pos_eq in * by lra. split; assumption.
  - assert (mag radix2 x <= -1075)%Z.
    { apply mag_le_bpow; [exact N|]. rewrite Rabs_pos_eq by lra. exact H2. }
    unfold SpecFloat.fexp, SpecFloat.emin. lia.
Qed.

Lemma parts_spec r e : 0 <= r <= u64_MAX ->
  match f64_from_parts true r e with
  | Ok f => parts_good (parts_real r e) f
  | Err => 0 <= e /\ (fmax < (1 + 3 * uu) * parts_real r e)%R
  | Fault _ => False
  end.
Proof.
  intros Hr. pose proof (f64_from_parts_nofault true r e) as NF.
  unfold f64_from_parts in *.
  assert (Hr' : 0 <= r <= 10 ^ 308).
  { split; [lia|]. apply Z.le_trans with u64_MAX; [lia|]. vm_compute. discriminate. }
  destruct (of_Z_spec r Hr') as (V0 & F0 & S0 & R0 & N0).
  set (f0 := f64_of_Z r) in *.
  assert (Nat0 : fnat f0) by (repeat split; assumption).
  pose proof (IZR_le 0 r ltac:(lia)) as RP.
  assert (B0 : (vreal f0 <= bpow radix2 70)%R).
  { destruct N0 as [_ N0]. eapply Rle_trans; [exact N0|]. rewrite bpow_IZR by lia.
    assert (IZR r <= IZR u64_MAX)%R by (apply IZR_le; lia). change (2 ^ 70) with 1180591620717411303424.
    unfold u64_MAX in *. unfold uu. lra. }
  pose proof hh_pos as HH.
  set (P := fun b : res spec_float => match b with
     | Ok f => parts_good (parts_real r e) f
     | Err => 0 <= e /\ (fmax < (1 + 3 * uu) * parts_real r e)%R
     | Fault _ => False end).
  set (f1 := f64_div f0 (pow10_lit 308)).
  destruct (div_case f0 308 _ _ _ _ Nat0 ltac:(lia) N0 ltac:(lra) RP ltac:(unfold uu; lra) ltac:(unfold uu; lra) B0)
    as (Nat1 & N1 & E1). fold f1 in Nat1, N1, E1.
  assert (IP : forall k, 0 <= k -> (0 < / IZR (10 ^ k) <= 1)%R).
  { intros k Hk. pose proof (pow10_ge1 k Hk). split; [apply Rinv_0_lt_compat; lra|].
    rewrite <- Rinv_1. apply Rinv_le_contravar; lra. }
  assert (X1 : (0 <= IZR r * / IZR (10 ^ 308))%R) by (apply Rmult_le_pos; [lra|]; apply Rlt_le, IP; lia).
  assert (HS : (hh <= bpow radix2 (-1000))%R) by (apply bpow_le; lia).
  assert (SM : (IZR r * / IZR (10 ^ 308) <= bpow radix2 (-958))%R).
  { pose proof (pow10_ge1 308 ltac:(lia)) as PG.
    apply Rmult_le_reg_r with (IZR (10 ^ 308)); [lra|].
    rewrite Rmult_assoc, Rinv_l, Rmult_1_r by lra.
    replace (bpow radix2 (-958)) with (/ IZR (2 ^ 958))%R by (rewrite <- bpow_IZR, <- bpow_opp by lia; reflexivity).
    pose proof (IZR_lt 0 (2 ^ 958) ltac:(reflexivity)) as PB.
    apply Rmult_le_reg_l with (IZR (2 ^ 958)); [lra|].
    rewrite <- Rmult_assoc, Rinv_r, Rmult_1_l by lra.
    rewrite <- mult_IZR. apply IZR_le. apply Z.le_trans with (2 ^ 958 * u64_MAX).
    - apply Z.mul_le_mono_nonneg_l; [vm_compute; discriminate|lia].
    - vm_compute. discriminate. }
  assert (B1 : (vreal f1 <= bpow radix2 (-956))%R).
  { replace (bpow radix2 (-956)) with (bpow radix2 2 * bpow radix2 (-958))%R by (rewrite <- bpow_plus; reflexivity).
    replace (bpow radix2 2) with 4%R by (cbn; lra).
    assert (bpow radix2 (-1000) <= bpow radix2 (-958))%R by (apply bpow_le; lia).
    destruct N1 as [_ N1]. eapply Rle_trans; [exact N1|]. unfold uu. lra. }
  set (J := fun st : spec_float * Z =>
     st = (f0, e) \/ (e < -308 /\ st = (f1, e + 308)) \/ (e < -616 /\ st = (f_zero, e + 616))).
  enough (K : match iter_until (Z.to_pos (Z.abs e / 308 + 2)) f64_parts_step (f0, e) with More a' => J a' | Done b => P b end).
  { destruct (iter_until _ _ _) as [st|b].
    - exfalso. exact (NF _ eq_refl).
    - unfold P in K. destruct b as [f| |]; cbn; exact K. }
  apply iter_until_inv; [|left; reflexivity].
  intros st [->|[[L1 ->]|[L1 ->]]]; unfold f64_parts_step, POW10_get.
  - (* first step *)
    destruct (Z.ltb_spec (Z.abs e) 309) as [A|A].
    + destruct (Z.leb_spec 0 e) as [A1|A1].
      * rewrite Z.abs_eq by lia.
        pose proof (mul_case f0 e _ _ _ Nat0 ltac:(lia) N0 RP ltac:(unfold uu; lra) ltac:(unfold uu; lra)) as MC.
        assert (Z0 : (vreal f0 = 0 \/ 1 <= vreal f0)%R).
        { rewrite R0. destruct (Z.eq_dec r 0) as [->|NZ]; [left; apply round_0, valid_rnd_N|right].
          rewrite <- (rnd_id 53 1024 1).
          - apply rnd_le; [reflexivity|]. apply IZR_le. lia.
          - change 1%R with (bpow radix2 0). apply format_bpow; [reflexivity|]. unfold SpecFloat.emin. lia. }
        specialize (MC Z0). cbv zeta in MC. pose proof (pow10_ge1 e A1) as PG.
        assert (PX : (0 <= IZR r * IZR (10 ^ e))%R) by (apply Rmult_le_pos; lra).
        destruct MC as [[NG NN]|[-> FM]].
        -- assert (f_is_infinite (f64_mul f0 (pow10_lit e)) = false) as ->.
           { destruct NG as (_ & F & _). destruct (f64_mul f0 (pow10_lit e)); try discriminate; reflexivity. }
           cbn [P]. split; [exact NG|]. unfold parts_real. rewrite pow10_IZR by lia.
           eapply near_weak; [exact NN|exact PX|unfold uu; lra|unfold uu; lra|lra].
        -- cbn [f_is_infinite P]. split; [lia|]. unfold parts_real. rewrite pow10_IZR by lia.
           eapply Rlt_le_trans; [exact FM|]. apply Rmult_le_compat_r; [exact PX|unfold uu; lra].
      * rewrite Z.abs_neq by lia.
        destruct (div_case f0 (- e) _ _ _ _ Nat0 ltac:(lia) N0 ltac:(lra) RP ltac:(unfold uu; lra) ltac:(unfold uu; lra) B0)
          as (NG & NN & _). cbn [P]. split; [exact NG|].
        unfold parts_real. replace e with (- - e) at 1 by lia. rewrite pow10_neg by lia.
        eapply near_weak; [exact NN| |unfold uu; lra|unfold uu; lra|lra].
        apply Rmult_le_pos; [lra|]. apply Rlt_le, IP. lia.
    + destruct (SFeqb f0 f_zero) eqn:EZ.
      * apply (fnat_zero f0 Nat0) in EZ.
        assert (r = 0).
        { destruct (Z.eq_dec r 0); auto. exfalso. pose proof (IZR_le 1 r ltac:(lia)). destruct N0 as [N0 _].
          unfold uu in N0. lra. }
        cbn [P]. split; [exact Nat0|]. unfold parts_real. subst r. rewrite EZ. unfold near. lra.
      * destruct (Z.leb_spec 0 e) as [A1|A1].
        -- assert (1 <= r).
           { destruct (Z.eq_dec r 0) as [E0|]; [|lia]. exfalso. subst r.
             assert (vreal f0 = 0%R) as VZ by (rewrite R0; apply round_0, valid_rnd_N).
             apply (fnat_zero f0 Nat0) in VZ. congruence. }
           cbn [P]. split; [lia|]. unfold parts_real.
           pose proof (IZR_le 1 r ltac:(lia)) as R1.
           apply Rlt_le_trans with (1 * powerRZ 10 309)%R.
           ++ rewrite Rmult_1_l, pow10_IZR, fmax_IZR by lia. apply IZR_lt. reflexivity.
           ++ pose proof (pow10_mono 309 e ltac:(lia)) as PM. pose proof (pow10_gt0 309).
              pose proof (pow10_gt0 e).
              assert (1 * powerRZ 10 309 <= IZR r * powerRZ 10 e)%R by (apply Rmult_le_compat; lra).
              assert (0 <= uu * (IZR r * powerRZ 10 e))%R.
              { apply Rmult_le_pos; [unfold uu; lra|]. apply Rmult_le_pos; lra. }
              lra.
        -- right. left. split; [lia|reflexivity].
  - (* second step *)
    destruct (Z.ltb_spec (Z.abs (e + 308)) 309) as [A|A].
    + destruct (Z.leb_spec 0 (e + 308)) as [A1|A1]; [lia|].
      rewrite Z.abs_neq by lia.
      destruct (div_case f1 (- (e + 308)) _ _ _ _ Nat1 ltac:(lia) N1 ltac:(lra) X1 ltac:(unfold uu; lra) ltac:(unfold uu; lra))
        as (NG & NN & _).
      { eapply Rle_trans; [exact B1|]. apply bpow_le. lia. }
      cbn [P]. split; [exact NG|].
      replace (parts_real r e) with (IZR r * / IZR (10 ^ 308) * / IZR (10 ^ (- (e + 308))))%R.
      2:{ unfold parts_real. replace e with (- (308) + - (- (e + 308))) at 2 by lia.
          rewrite powerRZ_add by lra. rewrite !pow10_neg by lia. ring. }
      eapply near_weak; [exact NN| |unfold uu; lra|unfold uu; lra|unfold uu; lra].
      apply Rmult_le_pos; [exact X1|]. apply Rlt_le, IP. lia.
    + destruct (Z.leb_spec 0 (e + 308)) as [A1|A1]; [lia|].
      destruct (SFeqb f1 f_zero) eqn:EZ.
      * apply (fnat_zero f1 Nat1) in EZ. cbn [P]. split; [exact Nat1|].
        rewrite EZ.
        assert (0 <= parts_real r e <= hh)%R.
        { unfold parts_real. replace e with (- (308) + - (- (e + 308))) by lia. rewrite powerRZ_add by lra. rewrite !pow10_neg by lia.
          assert (L := IP (- (e + 308)) ltac:(lia)).
          assert (M : (/ IZR (10 ^ (- (e + 308))) <= / IZR (10 ^ 308))%R).
          { apply Rinv_le_contravar; [pose proof (pow10_ge1 308); lra|]. apply IZR_le, Z.pow_le_mono_r; lia. }
          rewrite <- Rmult_assoc. split; [apply Rmult_le_pos; lra|].
          apply Rle_trans with (bpow radix2 (-958) * bpow radix2 (-1000))%R.
          - apply Rmult_le_compat; try lra. eapply Rle_trans; [exact M|].
            replace (bpow radix2 (-1000)) with (/ IZR (2 ^ 1000))%R by (rewrite <- bpow_IZR, <- bpow_opp by lia; reflexivity).
            apply Rinv_le_contravar; [apply IZR_lt; reflexivity|]. apply IZR_le. vm_compute. discriminate.
          - rewrite <- bpow_plus. apply bpow_le. lia. }
        unfold near. unfold uu. lra.
      * right. right. split; [lia|]. f_equal; [|lia].
        destruct (div_case f1 308 _ _ _ _ Nat1 ltac:(lia) N1 ltac:(lra) X1 ltac:(unfold uu; lra) ltac:(unfold uu; lra))
          as (NG & _ & EG).
        { eapply Rle_trans; [exact B1|]. apply bpow_le. lia. }
        apply fnat_zero_eq; [exact NG|]. rewrite EG. apply tiny_rnd.
        destruct (pow10_lit_spec 308 ltac:(lia)) as (_ & _ & _ & _ & PN & P2).
        pose proof (fnat_ge0 f1 Nat1).
        assert (PI : (0 < / vreal (pow10_lit 308))%R) by (apply Rinv_0_lt_compat; lra).
        unfold Rdiv. split; [apply Rmult_le_pos; lra|].
        apply Rle_lt_trans with (bpow radix2 (-956) * bpow radix2 (-1000))%R.
        -- apply Rmult_le_compat; try lra.
           replace (bpow radix2 (-1000)) with (/ IZR (2 ^ 1000))%R by (rewrite <- bpow_IZR, <- bpow_opp by lia; reflexivity).
           apply Rinv_le_contravar; [apply IZR_lt; reflexivity|].
           destruct PN as [PN _].
           assert (IZR (2 * 2 ^ 1000) <= IZR (10 ^ 308))%R by (apply IZR_le; vm_compute; discriminate).
           rewrite mult_IZR in H0. pose proof (pow10_ge1 308 ltac:(lia)). unfold uu in PN. lra.
        -- rewrite <- bpow_plus. apply bpow_lt. lia.
  - (* third step *)
    assert (GD : parts_good (parts_real r e) f_zero).
    { split; [repeat split|]. cbn [f_zero SF2R].
      assert (0 <= parts_real r e <= hh)%R.
      { unfold parts_real. replace e with (- (308) + - (- (e + 308))) by lia. rewrite powerRZ_add by lra. rewrite !pow10_neg by lia.
        assert (L := IP (- (e + 308)) ltac:(lia)).
        assert (M : (/ IZR (10 ^ (- (e + 308))) <= / IZR (10 ^ 308))%R).
        { apply Rinv_le_contravar; [pose proof (pow10_ge1 308); lra|]. apply IZR_le, Z.pow_le_mono_r; lia. }
        rewrite <- Rmult_assoc. split; [apply Rmult_le_pos; lra|].
        apply Rle_trans with (bpow radix2 (-958) * bpow radix2 (-1000))%R.
        - apply Rmult_le_compat; try lra. eapply Rle_trans; [exact M|].
          replace (bpow radix2 (-1000)) with (/ IZR (2 ^ 1000))%R by (rewrite <- bpow_IZR, <- bpow_opp by lia; reflexivity).
          apply Rinv_le_contravar; [apply IZR_lt; reflexivity|]. apply IZR_le. vm_compute. discriminate.
        - rewrite <- bpow_plus. apply bpow_le. lia. }
      unfold near. unfold uu. lra. }
    destruct (Z.ltb_spec (Z.abs (e + 616)) 309) as [A|A].
    + destruct (Z.leb_spec 0 (e + 616)) as [A1|A1]; [lia|].
      cbn [P]. replace (f64_div f_zero (pow10_lit (Z.abs (e + 616)))) with f_zero; [exact GD|].
      destruct (pow10_lit_spec (Z.abs (e + 616)) ltac:(lia)) as (_ & PF & PS & _ & _ & P2).
      destruct (pow10_lit (Z.abs (e + 616))) as [s|s| |s m ex]; try discriminate; cbn [SF2R sign_SF] in *; [lra|].
      subst s. reflexivity.
    + cbn [SFeqb f_zero SFcompare]. exact GD.
Qed.
