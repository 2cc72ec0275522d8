(** How the order of number literals shows in the doubles they are read as. *)
From Coq Require Import ZArith Reals Lia Lra Psatz Bool List Floats.SpecFloat.
From Flocq Require Import Core Relative BinarySingleNaN.
From Verif Require Import Base F64 FloatOps FloatParts FloatMono Lexer Grammar NumValue LexSpec LexFacts RunFacts LexNumFacts ReadFacts Reading
  FloatLit FloatRead Types DocSpec NumFacts.
Import ListNotations.
Open Scope Z_scope.

Lemma parts_zero e : exists z, f64_from_parts true 0 e = Ok z /\ fnat z /\ vreal z = 0%R.
Proof.
  pose proof (parts_spec 0 e ltac:(unfold u64_MAX; lia)) as P. destruct (f64_from_parts true 0 e) as [f| |] eqn:EP; [| |contradiction].
  - exists f. split; [reflexivity|]. destruct P as [F _]. split; [exact F|].
    unfold f64_from_parts in EP. change (f64_of_Z 0) with f_zero in EP.
    assert (ST : f64_parts_step (f_zero, e) = Done (Ok f_zero)).
    { unfold f64_parts_step, POW10_get. destruct (Z.abs e <? 309) eqn:L.
      - apply Z.ltb_lt in L. destruct (pow10_lit_spec (Z.abs e) ltac:(lia)) as (_ & Q2 & Q3 & _ & _ & Q6).
        destruct (pow10_lit (Z.abs e)) as [b|b| |b m x]; try discriminate.
        + exfalso. unfold vreal in Q6. cbn in Q6. lra.
        + cbn in Q3. subst b. destruct (0 <=? e); reflexivity.
      - reflexivity. }
    assert (IT : forall p, iter_until p f64_parts_step (f_zero, e) = Done (Ok f_zero)).
    { induction p as [p IH|p IH|]; cbn [iter_until]; [rewrite ST; reflexivity|rewrite IH; reflexivity|exact ST]. }
    rewrite IT in EP. cbn [bind] in EP. injection EP as <-. reflexivity.
  - exfalso. rewrite parts_zero_r in P. destruct P as [_ P]. assert (0 < fmax)%R by (rewrite fmax_IZR; apply IZR_lt; reflexivity). lra.
Qed.
Lemma parts_over r e : 1 <= r -> r <= u64_MAX -> 309 <= e -> f64_from_parts true r e = Err.
Proof.
  intros H H' He. pose proof (parts_spec r e ltac:(lia)) as P. destruct (f64_from_parts true r e) as [f| |]; [|reflexivity|contradiction].
  exfalso. eapply huge_not_good; eassumption.
Qed.

Lemma div_bound f k a b : fnat f -> 0 <= k <= 308 -> (vreal f <= bpow radix2 a)%R -> (bpow radix2 b <= vreal (pow10_lit k))%R ->
  (vreal (f64_div f (pow10_lit k)) <= rnd64 (bpow radix2 (a - b)))%R.
Proof.
  intros Hf Hk H1 H2. destruct (div_fnat f k Hf Hk) as (_ & -> & _). apply rnd_le; [reflexivity|].
  unfold Z.sub. rewrite bpow_plus, bpow_opp. pose proof (bpow_gt_0 radix2 b) as B. pose proof (fnat_ge0 f Hf).
  unfold Rdiv. apply Rmult_le_compat; [assumption|apply Rlt_le, Rinv_0_lt_compat; lra|exact H1|apply Rinv_le_contravar; assumption].
Qed.
Lemma pow10_lower k b : 0 <= k <= 308 -> 0 <= b <= 1023 -> 2 ^ b <= 10 ^ k -> (bpow radix2 b <= vreal (pow10_lit k))%R.
Proof.
  intros Hk Hb H. destruct (pow10_lit_spec k Hk) as (_ & _ & _ & -> & _).
  rewrite <- (rnd_id 53 1024 (bpow radix2 b)) by (apply format_bpow; [reflexivity|unfold SpecFloat.emin; lia]).
  apply rnd_le; [reflexivity|]. rewrite bpow_IZR by lia. apply IZR_le, H.
Qed.
Lemma rnd_bpow b : -1074 <= b -> rnd64 (bpow radix2 b) = bpow radix2 b.
Proof. intros H. apply (rnd_id 53 1024). apply format_bpow; [reflexivity|unfold SpecFloat.emin; lia]. Qed.

(** Far below the smallest double the answer is zero. *)
Lemma parts_under r e : 0 <= r <= u64_MAX -> e <= -400 -> exists z, f64_from_parts true r e = Ok z /\ fnat z /\ vreal z = 0%R.
Proof.
  intros Hr He. pose proof (f64_from_parts_nofault true r e) as NF. unfold f64_from_parts in *.
  destruct (of_Z_fnat r Hr) as (F & V).
  assert (V0 : (vreal (f64_of_Z r) <= bpow radix2 64)%R).
  { rewrite V, <- (rnd_bpow 64) by lia. apply rnd_le; [reflexivity|]. rewrite bpow_IZR by lia. apply IZR_le. unfold u64_MAX in *. lia. }
  set (J := fun st : spec_float * Z => fnat (fst st) /\
     ((snd st <= -400 /\ (vreal (fst st) <= bpow radix2 64)%R) \/
      (snd st <= -92 /\ (vreal (fst st) <= bpow radix2 (-959))%R) \/
      (snd st < 0 /\ vreal (fst st) = 0%R))).
  pose proof (iter_until_inv f64_parts_step J (fun b => exists z, b = Ok z /\ fnat z /\ vreal z = 0%R)
    (Z.to_pos (Z.abs e / 308 + 2))) as IV.
  assert (ST : forall a, J a -> match f64_parts_step a with More a' => J a' | Done b => exists z, b = Ok z /\ fnat z /\ vreal z = 0%R end).
  { clear. intros [g x] [Hg C]. cbn [fst snd] in *. unfold f64_parts_step, POW10_get.
    destruct (Z.ltb_spec (Z.abs x) 309) as [A|A].
    - destruct (Z.leb_spec 0 x) as [B|B]; [lia|]. eexists. split; [reflexivity|].
      destruct (div_fnat g (Z.abs x) Hg ltac:(lia)) as (H1 & H2 & H3). split; [exact H1|].
      pose proof (fnat_ge0 _ H1) as G0. destruct C as [[C1 _]|[[C1 C2]|[_ C2]]]; [lia| |lra].
      assert (P : (bpow radix2 305 <= vreal (pow10_lit (Z.abs x)))%R).
      { apply pow10_lower; [lia|lia|]. apply Z.le_trans with (10 ^ 92); [vm_compute; discriminate|]. apply Z.pow_le_mono_r; lia. }
      pose proof (div_bound g (Z.abs x) _ _ Hg ltac:(lia) C2 P) as D.
      rewrite tiny_rnd in D; [lra|]. split; [apply Rlt_le, bpow_gt_0|]. apply bpow_lt. lia.
    - destruct (SFeqb g f_zero) eqn:Z1.
      + apply (fnat_zero g Hg) in Z1. eauto.
      + destruct (Z.leb_spec 0 x) as [B|B]; [lia|]. destruct (div_fnat g 308 Hg ltac:(lia)) as (H1 & H2 & H3). pose proof (fnat_ge0 _ H1) as G0.
        assert (P : (bpow radix2 1023 <= vreal (pow10_lit 308))%R).
        { apply pow10_lower; [lia|lia|]. vm_compute. discriminate. }
        split; [exact H1|]. cbn [fst snd]. destruct C as [[C1 C2]|[[C1 C2]|[_ C2]]].
        * right. left. split; [lia|]. pose proof (div_bound g 308 _ _ Hg ltac:(lia) C2 P) as D. rewrite rnd_bpow in D by lia. exact D.
        * right. right. split; [lia|]. pose proof (div_bound g 308 _ _ Hg ltac:(lia) C2 P) as D.
          rewrite tiny_rnd in D; [lra|]. split; [apply Rlt_le, bpow_gt_0|]. apply bpow_lt. lia.
        * exfalso. apply (fnat_zero g Hg) in C2. congruence. }
  specialize (IV ST (f64_of_Z r, e)).
  destruct (iter_until _ f64_parts_step (f64_of_Z r, e)) as [a|b]; [destruct (NF _ eq_refl)|].
  destruct IV as (z & -> & IV). { split; [exact F|]. left. split; [exact He|exact V0]. }
  cbn [bind]. exists z. split; [reflexivity|exact IV].
Qed.

(** Two results are the same: both refused, or doubles of the same value. *)
Definition alike (b b' : res spec_float) : Prop :=
  match b, b' with
  | Ok f, Ok f' => fnat f /\ fnat f' /\ vreal f = vreal f'
  | Err, Err => True
  | _, _ => False
  end.
Lemma alike_refl r e : 0 <= r <= u64_MAX -> alike (f64_from_parts true r e) (f64_from_parts true r e).
Proof.
  intros Hr. pose proof (parts_spec r e Hr) as P. destruct (f64_from_parts true r e) as [f| |]; cbn [alike]; try tauto.
  destruct P as [F _]. auto.
Qed.
(** Whatever the exponent counter does, the result is that of the true power of ten. *)
Lemma exp_float_parts r e ex : 0 <= r <= u64_MAX -> - digit_limit <= e <= digit_limit -> exp_digits ex ->
  alike (exp_float true r e ex) (f64_from_parts true r (e + exp_val ex)).
Proof.
  intros Hr He Hx. unfold digit_limit in He. unfold exp_float. destruct ex as [[neg ds]|]; cbn [exp_val exp_digits] in *.
  2:{ rewrite Z.add_0_r. apply alike_refl, Hr. }
  pose proof (acc_exp_spec ds 0 Hx ltac:(unfold i32_MAX; lia)) as AE. rewrite Z.mul_0_l, Z.add_0_l in AE. pose proof (digits_bound _ Hx) as DB.
  assert (UU : forall a b, a <= -400 -> b <= -400 -> alike (f64_from_parts true r a) (f64_from_parts true r b)).
  { intros a b Ha Hb. destruct (parts_under r a Hr Ha) as (z & -> & Z1 & Z2). destruct (parts_under r b Hr Hb) as (w & -> & W1 & W2).
    cbn [alike]. rewrite Z2, W2. auto. }
  assert (OO : forall a b, r <> 0 -> 309 <= a -> 309 <= b -> alike (f64_from_parts true r a) (f64_from_parts true r b)).
  { intros a b N Ha Hb. rewrite !parts_over by lia. exact I. }
  assert (ZZ : forall a b, r = 0 -> alike (f64_from_parts true r a) (f64_from_parts true r b)).
  { intros a b ->. destruct (parts_zero a) as (z & -> & Z1 & Z2). destruct (parts_zero b) as (w & -> & W1 & W2).
    cbn [alike]. rewrite Z2, W2. auto. }
  destruct (acc_exp 0 ds) as [x|].
  - destruct AE as [-> AE]. set (X := digits_val ds) in *. set (T := if neg then - X else X).
    set (S := if neg then sat_i32 (e - X) else sat_i32 (e + X)).
    assert (C : S = e + T \/ (e + T <= -400 /\ S <= -400) \/ (309 <= e + T /\ 309 <= S)).
    { unfold S, T, sat_i32, i32_MIN, i32_MAX in *. destruct neg; lia. }
    destruct C as [->|[[C1 C2]|[C1 C2]]]; [apply alike_refl, Hr|apply UU; assumption|].
    destruct (Z.eq_dec r 0) as [E|N]; [apply ZZ, E|apply OO; assumption].
  - unfold i32_MAX in AE. destruct (Z.eqb_spec r 0) as [E|N]; cbn [negb andb].
    + rewrite E. destruct (parts_zero (e + (if neg then - digits_val ds else digits_val ds))) as (z & -> & Z1 & Z2). cbn [alike].
      rewrite Z2. split; [exact fnat_fzero|]. split; [exact Z1|reflexivity].
    + destruct neg; cbn [negb andb].
      * destruct (parts_under r (e + - digits_val ds) Hr ltac:(lia)) as (z & -> & Z1 & Z2). cbn [alike].
        rewrite Z2. split; [exact fnat_fzero|]. split; [exact Z1|reflexivity].
      * rewrite parts_over by lia. exact I.
Qed.

Lemma full_acc n : lit_ok n -> lit_mantissa n <= u64_MAX ->
  acc_int 0 (n_int n) = (digits_val (n_int n), []) /\
  acc_frac (digits_val (n_int n)) 0 (frac_digits n) = (lit_mantissa n, - len (frac_digits n)).
Proof.
  intros (Hi & Hf & _) HM. pose proof HM as HM'. unfold lit_mantissa in HM. rewrite digits_app in HM.
  pose proof (digits_bound _ Hi) as Di. pose proof (digits_bound _ Hf) as Df.
  assert (1 <= 10 ^ len (frac_digits n)).
  { assert (0 < 10 ^ len (frac_digits n)) by (apply Z.pow_pos_nonneg; [lia|apply len_nonneg]). lia. }
  assert (L : digits_val (n_int n) <= u64_MAX) by nia.
  assert (EA : acc_int 0 (n_int n) = (digits_val (n_int n), [])) by (apply (acc_int_cases 0 (n_int n) Hi); [lia|exact L]).
  split; [exact EA|].
  destruct (acc_frac (digits_val (n_int n)) 0 (frac_digits n)) as [r' e'] eqn:EF.
  destruct (trunc_int _ _ _ _ _ _ Hi Hf EA EF) as (q & Eq & _ & _ & _ & T).
  destruct T as [-> ->]; [reflexivity|unfold lit_mantissa in *; lia|]. f_equal. lia.
Qed.

(** The double a literal is read as, from its digits as one integer and its power of ten. *)
Definition sgn (n : numlit) (x : R) : R := if n_neg n then (- x)%R else x.
Definition as_parts (n : numlit) : Prop :=
  match lit_event n, f64_from_parts true (lit_mantissa n) (lit_scale n) with
  | Ok (EFloat f), Ok g => fin64 f /\ fnat g /\ vreal f = sgn n (vreal g)
  | Ok (ENonneg z), Ok g | Ok (ENeg z), Ok g =>
      is_int_lit n /\ z = lit_int n /\ i64_MIN <= z <= u64_MAX /\ fnat g /\ rnd64 (IZR z) = sgn n (vreal g)
  | Err, Err => True
  | _, _ => False
  end.
Lemma mantissa_ge0 n : lit_ok n -> 0 <= lit_mantissa n.
Proof. intros (Hi & Hf & _). apply (digits_bound (n_int n ++ frac_digits n)). apply Forall_app; auto. Qed.
Lemma full_event n : lit_ok n -> lit_short n -> lit_mantissa n <= u64_MAX -> as_parts n.
Proof.
  intros Hn Hs HM. unfold as_parts. destruct (full_acc n Hn HM) as (EA & EF). pose proof (mantissa_ge0 n Hn) as M0.
  pose proof Hn as (Hi & Hf & Hx). pose proof (digits_bound _ Hi) as Di. set (r := digits_val (n_int n)) in *.
  assert (FE : float_event (frac_float (negb (n_neg n)) r 0 (n_frac n) (n_exp n)) = lit_event n -> as_parts n).
  { unfold as_parts. intros <-.
    assert (FR : frac_float (negb (n_neg n)) r 0 (n_frac n) (n_exp n) =
                 exp_float (negb (n_neg n)) (lit_mantissa n) (- len (frac_digits n)) (n_exp n)).
    { unfold frac_float, frac_digits in *. destruct (n_frac n) as [ds|]; [rewrite EF; reflexivity|].
      cbn [acc_frac] in EF. apply pair_equal_spec in EF. destruct EF as [-> _]. reflexivity. }
    rewrite FR, exp_float_sign. destruct Hs as [_ Hs]. fold (len (frac_digits n)) in Hs.
    pose proof (len_nonneg (frac_digits n)) as LN.
    pose proof (exp_float_parts (lit_mantissa n) (- len (frac_digits n)) (n_exp n) ltac:(lia) ltac:(unfold digit_limit in *; lia) Hx) as A.
    replace (- len (frac_digits n) + exp_val (n_exp n)) with (lit_scale n) in A by (rewrite lit_scale_eq; lia).
    destruct (exp_float true _ _ _) as [f| |], (f64_from_parts true _ _) as [g| |]; cbn [alike bind float_event] in *; try contradiction; [|exact I].
    destruct A as (A1 & A2 & A3). split; [apply fnat_fin, A1|]. split; [exact A2|]. unfold sgn. rewrite <- A3.
    destruct (n_neg n); cbn [negb]; [apply neg_real|reflexivity]. }
  fold (as_parts n). destruct (n_frac n) as [fd|] eqn:EFr; [apply FE; unfold lit_event; rewrite EFr, EA; reflexivity|].
  destruct (n_exp n) as [ed|] eqn:EEx; [apply FE; unfold lit_event; rewrite EFr, EEx, EA; reflexivity|].
  assert (I0 : is_int_lit n) by (split; assumption).
  assert (MR : lit_mantissa n = r) by (unfold lit_mantissa, frac_digits; rewrite EFr, app_nil_r; reflexivity).
  assert (S0 : lit_scale n = 0) by (rewrite lit_scale_eq; unfold exp_val, frac_digits; rewrite EFr, EEx; reflexivity).
  destruct (parts_int r ltac:(lia)) as (g & EP & Fg & Vg).
  unfold as_parts, lit_event in *. rewrite EA, EFr, EEx, MR, S0, EP in *. change (lit_int n) with (if n_neg n then - r else r). unfold sgn in *.
  destruct (n_neg n) eqn:EN; cbn [negb] in *.
  - destruct (Z_le_gt_dec r 9223372036854775808) as [L|G].
    + rewrite (proj1 (wrap_neg r ltac:(lia))) in * by lia. clear FE.
      destruct (Z.ltb_spec 0 (- r)); [lia|].
      split; [exact I0|]. split; [reflexivity|]. split; [unfold i64_MIN; lia|]. split; [exact Fg|]. rewrite Vg, opp_IZR. apply rnd_opp.
    + pose proof (proj2 (wrap_neg r ltac:(lia)) ltac:(lia)) as W.
      destruct (Z.ltb_spec 0 (wrap_s 64 (- wrap_s 64 r))); [|lia]. clear FE.
      destruct (of_Z_fnat r ltac:(lia)) as (F1 & V1).
      split; [apply (fnat_fin false), F1|]. split; [exact Fg|]. rewrite neg_real, V1, Vg. reflexivity.
  - clear FE. split; [exact I0|]. split; [reflexivity|]. split; [unfold i64_MIN; lia|]. split; [exact Fg|]. rewrite Vg. reflexivity.
Qed.

Lemma read64_as E n f : lit_ok n -> lit_short n -> lit_mantissa n <= u64_MAX -> Reads E TF64 (DNum n) (VF64 f) ->
  exists g, f64_from_parts true (lit_mantissa n) (lit_scale n) = Ok g /\ fnat g /\ fin64 f /\ vreal f = sgn n (vreal g).
Proof.
  intros HO HS HM H. pose proof (reads64_finite E n f HO H) as FF. pose proof (full_event n HO HS HM) as A. unfold as_parts in A.
  pose proof HO as (Hi & _). apply reads64_inv in H. destruct H as (f0 & [= <-] & [(z & Hz & ->)|H]).
  - assert (K : lit_event n = Ok (ENonneg z) \/ lit_event n = Ok (ENeg z)).
    { destruct Hz as [Hz|Hz]; [apply lit_event_u in Hz|apply lit_event_i in Hz]; auto. }
    destruct K as [K|K]; rewrite K in A; destruct (f64_from_parts _ _ _) as [g| |]; try contradiction;
      destruct A as (_ & _ & RG & Fg & V); exists g; (split; [reflexivity|]; split; [exact Fg|]; split; [exact FF|]);
      rewrite <- V; apply (of_Z_signed z (small_pow z RG)).
  - unfold reads_f in H. rewrite H in A. destruct (f64_from_parts _ _ _) as [g| |]; try contradiction.
    destruct A as (_ & Fg & V). exists g. auto.
Qed.
Lemma readable_parts n : lit_ok n -> lit_short n -> lit_mantissa n <= u64_MAX ->
  (lit_readable n <-> f64_from_parts true (lit_mantissa n) (lit_scale n) <> Err).
Proof.
  intros HO HS HM. rewrite (readable_event n HO). pose proof (full_event n HO HS HM) as A. unfold as_parts in A.
  destruct (lit_event n) as [ev| |].
  - destruct ev; try contradiction; destruct (f64_from_parts _ _ _); try contradiction; split; intros _ C; discriminate C.
  - destruct (f64_from_parts _ _ _); try contradiction. tauto.
  - contradiction.
Qed.
Lemma value_sgn n : lit_value n = sgn n (IZR (lit_mantissa n) * powerRZ 10 (lit_scale n)).
Proof. unfold lit_value, sgn. destruct (n_neg n); ring. Qed.
Lemma parts_sgn_le n m g g' : lit_ok n -> lit_ok m -> lit_mantissa n <= u64_MAX -> lit_mantissa m <= u64_MAX ->
  lit_scale n = lit_scale m -> (lit_value n <= lit_value m)%R ->
  f64_from_parts true (lit_mantissa n) (lit_scale n) = Ok g -> f64_from_parts true (lit_mantissa m) (lit_scale m) = Ok g' ->
  fnat g -> fnat g' -> (sgn n (vreal g) <= sgn m (vreal g'))%R.
Proof.
  intros On Om Mn Mm SC V Pn Pm Fg Fg'. rewrite !value_sgn, <- SC in V. rewrite <- SC in Pm.
  pose proof (mantissa_ge0 n On) as N0. pose proof (mantissa_ge0 m Om) as M0. pose proof (pow10_gt0 (lit_scale n)) as P.
  pose proof (fnat_ge0 g Fg) as G0. pose proof (fnat_ge0 g' Fg') as G0'.
  assert (LE : forall a b, (IZR a * powerRZ 10 (lit_scale n) <= IZR b * powerRZ 10 (lit_scale n))%R -> a <= b).
  { intros a b H. apply le_IZR. apply Rmult_le_reg_r with (powerRZ 10 (lit_scale n)); assumption. }
  unfold sgn in *. destruct (n_neg n), (n_neg m).
  - assert (L1 : lit_mantissa m <= lit_mantissa n) by (apply LE; lra).
    pose proof (parts_mono (lit_mantissa m) (lit_mantissa n) (lit_scale n) (conj M0 L1) Mn) as B.
    rewrite Pn, Pm in B. cbn [below] in B. lra.
  - lra.
  - assert (lit_mantissa n <= 0 /\ lit_mantissa m <= 0) as [Z1 Z2].
    { assert (0 <= IZR (lit_mantissa n) * powerRZ 10 (lit_scale n))%R by (apply Rmult_le_pos; [apply IZR_le, N0|lra]).
      assert (0 <= IZR (lit_mantissa m) * powerRZ 10 (lit_scale n))%R by (apply Rmult_le_pos; [apply IZR_le, M0|lra]).
      split; apply LE; lra. }
    destruct (parts_zero (lit_scale n)) as (z & PZ & _ & VZ).
    replace (lit_mantissa n) with 0 in Pn by lia. replace (lit_mantissa m) with 0 in Pm by lia.
    rewrite PZ in Pn, Pm. injection Pn as <-. injection Pm as <-. lra.
  - pose proof (parts_mono (lit_mantissa n) (lit_mantissa m) (lit_scale n) (conj N0 (LE _ _ V)) Mm) as B.
    rewrite Pn, Pm in B. cbn [below] in B. lra.
Qed.
Theorem reads64_order E n m f g : lit_ok n -> lit_ok m -> lit_short n -> lit_short m ->
  lit_mantissa n <= u64_MAX -> lit_mantissa m <= u64_MAX -> lit_scale n = lit_scale m -> (lit_value n <= lit_value m)%R ->
  Reads E TF64 (DNum n) (VF64 f) -> Reads E TF64 (DNum m) (VF64 g) -> (vreal f <= vreal g)%R.
Proof.
  intros On Om Sn Sm Mn Mm SC V Hn Hm.
  destruct (read64_as E n f On Sn Mn Hn) as (a & Pa & Fa & _ & ->). destruct (read64_as E m g Om Sm Mm Hm) as (b & Pb & Fb & _ & ->).
  eapply parts_sgn_le; eassumption.
Qed.
Theorem readable_order n m : lit_ok n -> lit_ok m -> lit_short n -> lit_short m ->
  lit_mantissa n <= u64_MAX -> lit_mantissa m <= u64_MAX -> lit_scale n = lit_scale m -> (Rabs (lit_value n) <= Rabs (lit_value m))%R ->
  lit_readable m -> lit_readable n.
Proof.
  intros On Om Sn Sm Mn Mm SC V. rewrite (readable_parts n On Sn Mn), (readable_parts m Om Sm Mm). intros H C. apply H. clear H.
  rewrite (lit_abs n On), (lit_abs m Om), <- SC in V. rewrite <- SC. pose proof (pow10_gt0 (lit_scale n)) as P.
  assert (LE : lit_mantissa n <= lit_mantissa m). { apply le_IZR. apply Rmult_le_reg_r with (powerRZ 10 (lit_scale n)); assumption. }
  pose proof (parts_mono _ _ (lit_scale n) (conj (mantissa_ge0 n On) LE) Mm) as B. rewrite C in B.
  destruct (f64_from_parts true (lit_mantissa m) _); cbn [below] in B; tauto.
Qed.

(** ** Rust's <= on floats *)
Section Le.
Variables prec emax : Z.
Context (Hp : FLX.Prec_gt_0 prec) (Hm : Prec_lt_emax prec emax).
Lemma SFleb_real f g : valid_binary prec emax f = true -> valid_binary prec emax g = true -> is_finite_SF f = true -> is_finite_SF g = true ->
  SFleb f g = true <-> (SF2R radix2 f <= SF2R radix2 g)%R.
Proof.
  intros Vf Vg Ff Fg. pose proof (Bcompare_correct prec emax (SF2B f Vf) (SF2B g Vg)) as C.
  unfold Bcompare in C. rewrite !B2SF_SF2B, !is_finite_SF2B, !B2R_SF2B in C. specialize (C Ff Fg).
  unfold SFleb. rewrite C. destruct (Rcompare_spec (SF2R radix2 f) (SF2R radix2 g)); split; intros; try reflexivity; try lra; discriminate.
Qed.
End Le.
Lemma SFltb_real prec emax (Hp : FLX.Prec_gt_0 prec) (Hm : Prec_lt_emax prec emax) f g :
  valid_binary prec emax f = true -> valid_binary prec emax g = true -> is_finite_SF f = true -> is_finite_SF g = true ->
  SFltb f g = true <-> (SF2R radix2 f < SF2R radix2 g)%R.
Proof.
  intros Vf Vg Ff Fg. pose proof (Bcompare_correct prec emax (SF2B f Vf) (SF2B g Vg)) as C.
  unfold Bcompare in C. rewrite !B2SF_SF2B, !is_finite_SF2B, !B2R_SF2B in C. specialize (C Ff Fg).
  unfold SFltb. rewrite C. destruct (Rcompare_spec (SF2R radix2 f) (SF2R radix2 g)); split; intros; try reflexivity; try lra; discriminate.
Qed.
Lemma SFltb_64 f g : fin64 f -> fin64 g -> (SFltb f g = true <-> (vreal f < vreal g)%R).
Proof. intros [V F] [V' F']. apply (SFltb_real 53 1024); try assumption; reflexivity. Qed.
Lemma SFleb_64 f g : fin64 f -> fin64 g -> (SFleb f g = true <-> (vreal f <= vreal g)%R).
Proof. intros [V F] [V' F']. apply (SFleb_real 53 1024); try assumption; reflexivity. Qed.
Lemma rnd32_le x y : (x <= y)%R -> (nearest32 x <= nearest32 y)%R.
Proof. intros H. rewrite !nearest32_eq. apply rnd_le; [reflexivity|exact H]. Qed.
Lemma nearest32_0 : nearest32 0 = 0%R.
Proof. rewrite nearest32_eq. apply round_0. apply valid_rnd_N. Qed.
Lemma in32_le g g' x x' s s' : in32 g x s -> in32 g' x' s' -> (if s then x <= 0 else 0 <= x)%R -> (if s' then x' <= 0 else 0 <= x')%R ->
  (x <= x')%R -> SFleb g g' = true.
Proof.
  intros [V H] [V' H'] Sx Sx' L. pose proof (rnd32_le _ _ L) as R. pose proof (bpow_gt_0 radix2 128) as B.
  assert (N1 : (0 <= x -> 0 <= nearest32 x)%R) by (intros K; rewrite <- nearest32_0; apply rnd32_le, K).
  assert (N2 : (x <= 0 -> nearest32 x <= 0)%R) by (intros K; rewrite <- nearest32_0; apply rnd32_le, K).
  assert (N3 : (0 <= x' -> 0 <= nearest32 x')%R) by (intros K; rewrite <- nearest32_0; apply rnd32_le, K).
  assert (N4 : (x' <= 0 -> nearest32 x' <= 0)%R) by (intros K; rewrite <- nearest32_0; apply rnd32_le, K).
  destruct (Rlt_bool_spec (Rabs (nearest32 x)) (bpow radix2 128)) as [A|A];
    destruct (Rlt_bool_spec (Rabs (nearest32 x')) (bpow radix2 128)) as [A'|A'].
  - destruct H as [H1 H2], H' as [H1' H2']. apply (SFleb_real 24 128); try assumption; try reflexivity.
    rewrite H1, H1'. exact R.
  - destruct H as [H1 H2]. subst g'. destruct s'.
    + exfalso. rewrite Rabs_left1 in A' by (apply N4, Sx'). apply Rabs_lt_inv in A. lra.
    + destruct g as [[]|[]| |[] ? ?]; try discriminate; reflexivity.
  - destruct H' as [H1' H2']. subst g. destruct s.
    + destruct g' as [[]|[]| |[] ? ?]; try discriminate; reflexivity.
    + exfalso. rewrite Rabs_pos_eq in A by (apply N1, Sx). apply Rabs_lt_inv in A'. lra.
  - subst g g'. destruct s, s'; try reflexivity. exfalso.
    rewrite Rabs_pos_eq in A by (apply N1, Sx). rewrite Rabs_left1 in A' by (apply N4, Sx'). lra.
Qed.

(** The number rounded to f32 when the literal is read as f32. *)
Definition before32 (n : numlit) (x : R) : Prop :=
  (is_int_lit n /\ i64_MIN <= lit_int n <= u64_MAX /\ x = IZR (lit_int n)) \/
  (exists f, reads_f n f /\ x = vreal f).
Lemma read32_as E n g : lit_ok n -> Reads E TF32 (DNum n) (VF32 g) ->
  exists x s, before32 n x /\ in32 g x s /\ (if s then x <= 0 else 0 <= x)%R.
Proof.
  intros HO H. inversion H as [| | | | | |n1 z1 Hz1|n1 f1 Hf1| | | | | | | | | | | | | | |]; subst.
  - pose proof (int_range n z1 Hz1 HO) as (A & B & C). subst z1. exists (IZR (lit_int n)), (lit_int n <? 0). split; [left; auto|].
    split; [apply f32_of_Z_spec|]. destruct (Z.ltb_spec (lit_int n) 0); apply IZR_le; lia.
  - exists (vreal f1), (sign_SF f1). split; [right; eauto|]. split; [apply f32_of_f64_spec, (lit_event_finite n f1 HO Hf1)|apply sign_real].
Qed.
Lemma reads_f_float n f : lit_ok n -> reads_f n f -> is_int_lit n -> ~ i64_MIN <= lit_int n <= u64_MAX.
Proof.
  intros HO H HI RG. pose proof HO as (Hi & _). unfold reads_f in H. pose proof HI as [F X]. unfold lit_int in RG.
  pose proof (digits_bound _ Hi) as D. destruct (n_neg n) eqn:EN.
  - assert (K : reads_i n (lit_int n)).
    { unfold reads_i. repeat split; try assumption. unfold lit_int. rewrite EN. unfold i64_MIN in *. lia. }
    apply lit_event_i in K; [congruence|exact Hi].
  - assert (K : reads_u n (lit_int n)).
    { unfold reads_u. repeat split; try assumption. unfold lit_int. rewrite EN. unfold u64_MAX in *. lia. }
    apply lit_event_u in K; [congruence|exact Hi].
Qed.
Lemma rnd64_min63 : rnd64 (IZR i64_MIN) = IZR i64_MIN.
Proof.
  unfold i64_MIN. change (-9223372036854775808) with (- 2 ^ 63). rewrite opp_IZR, rnd_opp, <- bpow_IZR by lia. rewrite rnd_bpow by lia. reflexivity.
Qed.
Theorem reads32_order E n m f g : lit_ok n -> lit_ok m -> lit_short n -> lit_short m ->
  lit_mantissa n <= u64_MAX -> lit_mantissa m <= u64_MAX -> lit_scale n = lit_scale m -> (is_int_lit n <-> is_int_lit m) ->
  (lit_value n <= lit_value m)%R ->
  Reads E TF32 (DNum n) (VF32 f) -> Reads E TF32 (DNum m) (VF32 g) -> SFleb f g = true.
Proof.
  intros On Om Sn Sm Mn Mm SC KD V Hn Hm.
  destruct (read32_as E n f On Hn) as (x & s & Bx & Ix & Sx). destruct (read32_as E m g Om Hm) as (y & s' & By & Iy & Sy).
  apply (in32_le f g x y s s'); try assumption. clear Ix Iy Sx Sy s s' Hn Hm.
  destruct Bx as [(In & Rn & ->)|(f1 & Rf & ->)], By as [(Im & Rm & ->)|(f2 & Rg & ->)].
  - rewrite <- (lit_value_int n In), <- (lit_value_int m Im). exact V.
  - exfalso. apply KD in In as Im. pose proof (reads_f_float m f2 Om Rg Im) as NR.
    rewrite (lit_value_int n In), (lit_value_int m Im) in V. apply le_IZR in V. pose proof (mantissa_ge0 m Om).
    assert (lit_int m <= lit_mantissa m).
    { unfold lit_int. replace (lit_mantissa m) with (digits_val (n_int m)); [destruct (n_neg m)|].
      - pose proof (digits_bound _ (proj1 Om)). lia.
      - lia.
      - destruct Im as [F1 _]. unfold lit_mantissa, frac_digits. rewrite F1, app_nil_r. reflexivity. }
    lia.
  - apply KD in Im as In. pose proof (reads_f_float n f1 On Rf In) as NR.
    destruct (read64_as E n f1 On Sn Mn (rd_f64 E n f1 Rf)) as (a & Pa & Fa & _ & ->).
    assert (MI : lit_mantissa n = digits_val (n_int n)).
    { destruct In as [F1 _]. unfold lit_mantissa, frac_digits. rewrite F1, app_nil_r. reflexivity. }
    pose proof (mantissa_ge0 n On) as M0.
    assert (NG : n_neg n = true /\ - lit_mantissa n < i64_MIN).
    { unfold lit_int in NR. rewrite <- MI in NR. unfold i64_MIN in *. destruct (n_neg n); split; (reflexivity || lia). }
    destruct NG as [NG LM]. assert (S0 : lit_scale n = 0).
    { rewrite lit_scale_eq. destruct In as [F1 F2]. unfold exp_val, frac_digits. rewrite F1, F2. reflexivity. }
    rewrite S0 in Pa. destruct (parts_int (lit_mantissa n) ltac:(lia)) as (a' & Pa' & _ & Va). rewrite Pa in Pa'. injection Pa' as <-.
    unfold sgn. rewrite NG, Va, <- rnd_opp, <- opp_IZR. apply Rle_trans with (IZR i64_MIN); [|apply IZR_le; lia].
    rewrite <- rnd64_min63 at 1. apply rnd_le; [reflexivity|]. apply IZR_le. lia.
  - apply (reads64_order E n m f1 f2); try assumption; apply rd_f64; assumption.
Qed.
