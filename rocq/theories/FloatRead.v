(** Reading numbers as f64 and f32: finiteness, exactness for short decimals, integers. *)
From Coq Require Import ZArith Reals Lia Lra Psatz Bool List Floats.SpecFloat.
From Flocq Require Import Core Relative BinarySingleNaN.
From Verif Require Import Base F64 FloatOps FloatParts Lexer Grammar NumValue LexSpec LexFacts RunFacts LexNumFacts ReadFacts Reading FloatLit.
Import ListNotations.
Open Scope Z_scope.

(** ** Finiteness, for literals of any length *)
Lemma from_parts_fnat r e f : 0 <= r <= u64_MAX -> f64_from_parts true r e = Ok f -> fnat f.
Proof. intros Hr H. pose proof (parts_spec r e Hr) as P. rewrite H in P. apply P. Qed.
Lemma exp_float_fnat r e ex f : 0 <= r <= u64_MAX -> exp_float true r e ex = Ok f -> fnat f.
Proof.
  intros Hr. unfold exp_float. destruct ex as [[neg ds]|]; [|apply from_parts_fnat, Hr].
  destruct (acc_exp 0 ds); [apply from_parts_fnat, Hr|].
  destruct (negb (r =? 0) && negb neg); [discriminate|]. intros H. injection H as <-. apply fnat_fzero.
Qed.
Definition fin64 (f : spec_float) : Prop := fvalid f = true /\ is_finite_SF f = true.
Lemma fnat_fin (nn : bool) f : fnat f -> fin64 (if nn then f else f64_neg f).
Proof. intros (V & F & _). destruct nn; split; rewrite ?neg_valid, ?neg_finite; assumption. Qed.

Lemma lit_event_finite n f : lit_ok n -> lit_event n = Ok (EFloat f) -> fin64 f /\ sign_SF f = n_neg n.
Proof.
  intros (Hi & Hf & _). unfold lit_event. destruct (acc_int 0 (n_int n)) as [r rest] eqn:EA.
  destruct (acc_int_split _ 0 _ _ Hi ltac:(unfold u64_MAX; lia) EA) as (p & _ & _ & B & _).
  assert (SG : forall (nn : bool) g, fnat g -> sign_SF (if nn then g else f64_neg g) = negb nn).
  { intros nn g (_ & F & S). destruct nn; [exact S|]. destruct g; cbn in *; try discriminate; rewrite S; reflexivity. }
  assert (FF : forall e, float_event (frac_float (negb (n_neg n)) r e (n_frac n) (n_exp n)) = Ok (EFloat f) -> fin64 f /\ sign_SF f = n_neg n).
  { intros e. unfold frac_float, frac_digits in *.
    destruct (n_frac n) as [ds|]; [destruct (acc_frac r e ds) as [r' e'] eqn:EF|].
    - destruct (acc_frac_split _ _ _ _ _ Hf B EF) as (p2 & r2 & _ & _ & _ & B2 & _).
      rewrite exp_float_sign. destruct (exp_float true r' e' (n_exp n)) as [g| |] eqn:EX; cbn; try discriminate.
      intros H. injection H as <-. apply exp_float_fnat in EX; [|exact B2].
      split; [apply fnat_fin, EX|]. rewrite SG by exact EX. apply negb_involutive.
    - rewrite exp_float_sign. destruct (exp_float true r e (n_exp n)) as [g| |] eqn:EX; cbn; try discriminate.
      intros H. injection H as <-. apply exp_float_fnat in EX; [|exact B].
      split; [apply fnat_fin, EX|]. rewrite SG by exact EX. apply negb_involutive. }
  destruct rest as [|d rest]; [|apply FF].
  specialize (FF 0). destruct (n_frac n) as [fd|]; [|destruct (n_exp n) as [ed|]]; try exact FF. clear FF.
  destruct (n_neg n) eqn:EN; cbn [negb]; [|discriminate].
  destruct (0 <? wrap_s 64 (- wrap_s 64 r)); [|discriminate]. intros H. injection H as <-.
  destruct (of_Z_spec r) as (V & F & S & _ & _).
  { split; [lia|]. apply Z.le_trans with u64_MAX; [lia|]. vm_compute. discriminate. }
  split; [apply (fnat_fin false); repeat split; assumption|]. apply (SG false). repeat split; assumption.
Qed.

(** ** Integers *)
Lemma of_Z_signed z : - 10 ^ 308 <= z <= 10 ^ 308 ->
  fin64 (f64_of_Z z) /\ vreal (f64_of_Z z) = rnd64 (IZR z) /\ sign_SF (f64_of_Z z) = (z <? 0).
Proof.
  intros H. pose proof (normalize_spec 53 1024 _ _ z) as [V S].
  rewrite Rlt_bool_true in S.
  - destruct S as (R & F & G). repeat split; assumption.
  - assert (A : (Rabs (rnd64 (IZR z)) <= fmax)%R).
    { assert (B : forall y, 0 <= y <= 10 ^ 308 -> (Rabs (rnd64 (IZR y)) <= fmax)%R).
      { intros y Hy. rewrite Rabs_pos_eq by (apply rnd_ge0; [reflexivity|apply IZR_le; lia]).
        rewrite <- fmax_rnd. apply rnd_le; [reflexivity|]. rewrite fmax_IZR. apply IZR_le.
        apply Z.le_trans with (10 ^ 308); [lia|]. vm_compute. discriminate. }
      destruct (Z_le_gt_dec 0 z); [apply B; lia|].
      replace z with (- (- z)) by lia. rewrite opp_IZR, rnd_opp, Rabs_Ropp. apply B. lia. }
    eapply Rle_lt_trans; [exact A|apply fmax_lt].
Qed.

Lemma lit_value_int n : is_int_lit n -> lit_value n = IZR (lit_int n).
Proof.
  intros [H1 H2]. unfold lit_value, lit_int, lit_mantissa, lit_scale, frac_digits. rewrite H1, H2, app_nil_r.
  cbn [List.length Z.of_nat Z.sub Z.opp Z.add powerRZ]. destruct (n_neg n); rewrite ?opp_IZR; ring.
Qed.

(** ** Short decimals *)
Lemma format_int r : 0 <= r <= 9007199254740992 -> rnd64 (IZR r) = IZR r.
Proof.
  intros H. apply rnd_id. destruct (Z.eq_dec r 9007199254740992) as [->|N].
  - change (IZR 9007199254740992) with (bpow radix2 53). apply format_bpow; [reflexivity|]. unfold SpecFloat.emin. lia.
  - apply (generic_format_FLT radix2 (-1074) 53). exists (Float radix2 r 0); cbn [Fnum Fexp].
    + unfold F2R. cbn [Fnum Fexp bpow]. ring.
    + rewrite Z.abs_eq by lia. change (radix2 ^ 53) with 9007199254740992. lia.
    + lia.
Qed.
Lemma format_pow10 k : 0 <= k <= 22 -> rnd64 (IZR (10 ^ k)) = IZR (10 ^ k).
Proof.
  intros H. apply rnd_id. apply (generic_format_FLT radix2 (-1074) 53). exists (Float radix2 (5 ^ k) k); cbn [Fnum Fexp].
  - unfold F2R. cbn [Fnum Fexp]. rewrite bpow_IZR by lia. rewrite <- mult_IZR. f_equal.
    change 10 with (5 * 2). apply Z.pow_mul_l.
  - assert (0 < 5 ^ k) by (apply Z.pow_pos_nonneg; lia). rewrite Z.abs_eq by lia.
    apply Z.le_lt_trans with (5 ^ 22); [apply Z.pow_le_mono_r; lia|reflexivity].
  - lia.
Qed.

Lemma parts_exact r e : 0 <= r <= 9007199254740992 -> -22 <= e <= 22 ->
  exists f, f64_from_parts true r e = Ok f /\ fnat f /\ vreal f = rnd64 (parts_real r e).
Proof.
  intros Hr He.
  assert (Hr' : 0 <= r <= 10 ^ 308).
  { split; [lia|]. apply Z.le_trans with 9007199254740992; [lia|]. vm_compute. discriminate. }
  destruct (of_Z_spec r Hr') as (V0 & F0 & S0 & R0 & _). rewrite format_int in R0 by exact Hr.
  destruct (pow10_lit_spec (Z.abs e) ltac:(lia)) as (PV & PF & PS & PR & _ & P2). rewrite format_pow10 in PR by lia.
  pose proof (pow10_ge1 (Z.abs e) ltac:(lia)) as PG. pose proof (IZR_le 0 r ltac:(lia)) as RP.
  unfold f64_from_parts.
  replace (Z.to_pos (Z.abs e / 308 + 2)) with 2%positive.
  2:{ rewrite Z.div_small by lia. reflexivity. }
  cbn [iter_until]. unfold f64_parts_step, POW10_get.
  destruct (Z.ltb_spec (Z.abs e) 309); [|lia].
  assert (XB : (0 <= IZR r * IZR (10 ^ Z.abs e) <= fmax)%R).
  { split; [apply Rmult_le_pos; lra|]. rewrite fmax_IZR, <- mult_IZR. apply IZR_le.
    apply Z.le_trans with (9007199254740992 * 10 ^ 22); [|vm_compute; discriminate].
    apply Z.mul_le_mono_nonneg; [lia|lia|apply Z.pow_nonneg; lia|apply Z.pow_le_mono_r; lia]. }
  destruct (Z.leb_spec 0 e) as [L|L].
  - pose proof (mul_spec 53 1024 _ _ (f64_of_Z r) (pow10_lit (Z.abs e)) V0 PV F0 PF) as SP.
    rewrite R0, PR, S0, PS in SP. apply rounded_small in SP; [|exact XB].
    destruct SP as (A & B & C & D). unfold f64_mul in *.
    assert (f_is_infinite (SFmul 53 1024 (f64_of_Z r) (pow10_lit (Z.abs e))) = false) as ->.
    { destruct (SFmul 53 1024 _ _); try discriminate; reflexivity. }
    cbn [bind]. eexists. split; [reflexivity|]. split; [repeat split; assumption|].
    rewrite B. unfold parts_real. rewrite pow10_IZR by lia. rewrite Z.abs_eq by lia. reflexivity.
  - pose proof (div_spec 53 1024 _ _ (f64_of_Z r) (pow10_lit (Z.abs e)) V0 PV F0 PF ltac:(lra)) as SP.
    rewrite R0, PR, S0, PS in SP. apply rounded_small in SP.
    2:{ assert (I1 : (0 < / IZR (10 ^ Z.abs e) <= 1)%R).
        { split; [apply Rinv_0_lt_compat; lra|]. rewrite <- Rinv_1. apply Rinv_le_contravar; lra. }
        split; [unfold Rdiv; apply Rmult_le_pos; lra|]. eapply Rle_trans; [|apply XB].
        unfold Rdiv. apply Rmult_le_compat_l; lra. }
    destruct SP as (A & B & C & D). cbn [bind]. eexists. split; [reflexivity|]. split; [repeat split; assumption|].
    unfold f64_div. rewrite B. unfold parts_real. replace e with (- Z.abs e) at 2 by lia. rewrite pow10_neg by lia. reflexivity.
Qed.

Lemma short_acc n : lit_ok n -> lit_mantissa n <= 9007199254740992 ->
  exists r, acc_int 0 (n_int n) = (r, []) /\ acc_frac r 0 (frac_digits n) = (lit_mantissa n, - len (frac_digits n)) /\
    r = digits_val (n_int n).
Proof.
  intros (Hi & Hf & _) HM. pose proof HM as HM'. unfold lit_mantissa in HM. rewrite digits_app in HM.
  pose proof (digits_bound _ Hi) as Di. pose proof (digits_bound _ Hf) as Df.
  assert (1 <= 10 ^ len (frac_digits n)).
  { assert (0 < 10 ^ len (frac_digits n)) by (apply Z.pow_pos_nonneg; [lia|apply len_nonneg]). lia. }
  assert (L : digits_val (n_int n) <= u64_MAX) by (unfold u64_MAX; nia).
  exists (digits_val (n_int n)).
  assert (EA : acc_int 0 (n_int n) = (digits_val (n_int n), [])) by (apply (acc_int_cases 0 (n_int n) Hi); [lia|exact L]).
  split; [exact EA|]. split; [|reflexivity].
  destruct (acc_frac (digits_val (n_int n)) 0 (frac_digits n)) as [r' e'] eqn:EF.
  destruct (trunc_int _ _ _ _ _ _ Hi Hf EA EF) as (q & Eq & _ & _ & _ & T).
  destruct T as [-> ->]; [reflexivity|unfold lit_mantissa, u64_MAX in *; lia|]. f_equal. lia.
Qed.

Lemma short_event n : lit_ok n -> lit_short n -> lit_mantissa n <= 9007199254740992 -> -22 <= lit_scale n <= 22 ->
  match lit_event n with
  | Ok (EFloat f) => fin64 f /\ sign_SF f = n_neg n /\ vreal f = rnd64 (lit_value n)
  | Ok (ENonneg z) | Ok (ENeg z) => is_int_lit n /\ z = lit_int n
  | _ => False
  end.
Proof.
  intros Hn Hs HM HS. destruct (short_acc n Hn HM) as (r & EA & EF & Er).
  pose proof Hn as (Hi & Hf & Hx). pose proof (digits_bound _ Hi) as Di.
  assert (M0 : 0 <= lit_mantissa n).
  { apply (digits_bound (n_int n ++ frac_digits n)). apply Forall_app; auto. }
  assert (FE : float_event (frac_float (negb (n_neg n)) r 0 (n_frac n) (n_exp n)) = lit_event n ->
    match lit_event n with
    | Ok (EFloat f) => fin64 f /\ sign_SF f = n_neg n /\ vreal f = rnd64 (lit_value n)
    | Ok (ENonneg z) | Ok (ENeg z) => is_int_lit n /\ z = lit_int n
    | _ => False
    end).
  { intros <-.
    assert (FR : frac_float (negb (n_neg n)) r 0 (n_frac n) (n_exp n) =
                 exp_float (negb (n_neg n)) (lit_mantissa n) (- len (frac_digits n)) (n_exp n)).
    { unfold frac_float, frac_digits in *. destruct (n_frac n) as [ds|]; [rewrite EF; reflexivity|].
      cbn [acc_frac] in EF. apply pair_equal_spec in EF. destruct EF as [-> _]. reflexivity. }
    rewrite FR, exp_float_sign.
    assert (EX : exp_float true (lit_mantissa n) (- len (frac_digits n)) (n_exp n) = f64_from_parts true (lit_mantissa n) (lit_scale n)).
    { rewrite lit_scale_eq in *. destruct Hs as [_ Hs]. fold (len (frac_digits n)) in Hs. unfold digit_limit in Hs.
      pose proof (len_nonneg (frac_digits n)) as LN.
      unfold exp_float, exp_val in *. destruct (n_exp n) as [[neg ds]|]; [|f_equal; lia].
      pose proof (acc_exp_spec ds 0 Hx ltac:(unfold i32_MAX; lia)) as AE. rewrite Z.mul_0_l, Z.add_0_l in AE.
      pose proof (digits_bound _ Hx).
      destruct (acc_exp 0 ds) as [x|].
      - destruct AE as [-> AE]. f_equal. unfold sat_i32, i32_MIN, i32_MAX in *. destruct neg; lia.
      - unfold i32_MAX in AE. destruct neg; lia. }
    rewrite EX. destruct (parts_exact (lit_mantissa n) (lit_scale n) ltac:(lia) HS) as (f & -> & F & VF).
    cbn [bind float_event].
    split; [apply fnat_fin, F|]. split.
    - destruct F as (_ & FF & S). destruct (n_neg n); cbn [negb]; [|exact S]. destruct f; cbn in *; try discriminate; rewrite S; reflexivity.
    - unfold lit_value, parts_real in *. destruct (n_neg n); cbn [negb].
      + rewrite neg_real, VF, <- rnd_opp. f_equal. ring.
      + rewrite VF. f_equal. ring. }
  unfold lit_event in *. rewrite EA in *.
  destruct (n_frac n) as [fd|] eqn:EFr; [apply FE; reflexivity|].
  destruct (n_exp n) as [ed|] eqn:EEx; [apply FE; reflexivity|]. clear FE.
  assert (I0 : is_int_lit n) by (split; assumption).
  assert (R1 : r <= 9007199254740992).
  { unfold lit_mantissa, frac_digits in HM. rewrite EFr, app_nil_r in HM. lia. }
  unfold lit_int. destruct (n_neg n) eqn:EN; cbn [negb].
  - rewrite (proj1 (wrap_neg r ltac:(unfold u64_MAX; lia))) by lia.
    destruct (Z.ltb_spec 0 (- r)); [lia|]. split; [exact I0|lia].
  - split; [exact I0|lia].
Qed.
