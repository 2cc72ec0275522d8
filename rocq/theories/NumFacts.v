(** Numbers read as f64 and f32: the facts behind C09 - C15. *)
From Coq Require Import ZArith Reals Lia Lra Psatz Bool List Floats.SpecFloat.
From Flocq Require Import Core Relative BinarySingleNaN.
From Verif Require Import Base F64 FloatOps FloatParts Lexer Grammar NumValue LexSpec Types Reading ReadFacts FloatLit FloatRead DocSpec.
Import ListNotations.
Open Scope Z_scope.

Lemma nearest64_eq x : nearest64 x = rnd64 x.
Proof. reflexivity. Qed.
Lemma nearest32_eq x : nearest32 x = round radix2 (SpecFloat.fexp 24 128) ZnearestE x.
Proof. reflexivity. Qed.
Lemma f64_MAX_eq : f64_MAX = fmax.
Proof. reflexivity. Qed.

Lemma sign_real f : if sign_SF f then (vreal f <= 0)%R else (0 <= vreal f)%R.
Proof.
  destruct f as [s|s| |s m e]; cbn [sign_SF SF2R]; try destruct s; try lra.
  - cbn [cond_Zopp]. apply F2R_le_0. cbn. lia.
  - cbn [cond_Zopp]. apply F2R_ge_0. cbn. lia.
Qed.
Lemma lit_value_sign n : lit_ok n -> if n_neg n then (lit_value n <= 0)%R else (0 <= lit_value n)%R.
Proof.
  intros H. unfold lit_value.
  assert (A : (0 <= IZR (lit_mantissa n) * powerRZ 10 (lit_scale n))%R).
  { rewrite <- lit_abs by exact H. apply Rabs_pos. }
  destruct (n_neg n); lra.
Qed.

Definition e50 : R := bpow radix2 (-50).
Definition a1072 : R := bpow radix2 (-1072).
Lemma e50_uu : e50 = (8 * uu)%R.
Proof. unfold e50, uu. cbn. lra. Qed.
Lemma a1072_hh : a1072 = (8 * hh)%R.
Proof. unfold a1072, hh. replace (-1072) with (3 + -1075) by lia. rewrite bpow_plus. cbn [bpow]. change (Zpower_pos radix2 3) with 8. reflexivity. Qed.

Lemma close_abs n f : lit_ok n -> close64 (n_neg n) (Rabs (lit_value n)) f ->
  (Rabs (vreal f - lit_value n) <= e50 * Rabs (lit_value n) + a1072)%R.
Proof.
  intros HO (V & F & S & [A B]). pose proof (sign_real f) as SF. rewrite S in SF. pose proof (lit_value_sign n HO) as SV.
  pose proof hh_pos. pose proof uu_pos. pose proof (Rabs_pos (lit_value n)).
  assert (EQ : (Rabs (vreal f - lit_value n) = Rabs (Rabs (vreal f) - Rabs (lit_value n)))%R).
  { destruct (n_neg n).
    - rewrite (Rabs_left1 (vreal f)), (Rabs_left1 (lit_value n)) by assumption.
      replace (- vreal f - - lit_value n)%R with (- (vreal f - lit_value n))%R by ring. rewrite Rabs_Ropp. reflexivity.
    - rewrite (Rabs_pos_eq (vreal f)), (Rabs_pos_eq (lit_value n)) by assumption. reflexivity. }
  rewrite EQ, e50_uu, a1072_hh.
  assert (0 <= uu * Rabs (lit_value n))%R by (apply Rmult_le_pos; lra).
  apply Rabs_le. split; lra.
Qed.

Lemma int_range n z : reads_u n z \/ reads_i n z -> lit_ok n -> is_int_lit n /\ z = lit_int n /\ i64_MIN <= z <= u64_MAX.
Proof.
  intros [(A & B & C & D)|(A & B & C & D)] (Hi & _); (split; [exact A|]; split; [exact C|]).
  - assert (0 <= digits_val (n_int n)) by (apply (digits_bound (n_int n) Hi)). subst z. unfold lit_int in *. rewrite B in *. unfold i64_MIN, u64_MAX in *. lia.
  - assert (0 <= digits_val (n_int n)) by (apply (digits_bound (n_int n) Hi)). subst z. unfold lit_int in *. rewrite B in *. unfold i64_MIN, u64_MAX in *. lia.
Qed.
Lemma small_pow z : i64_MIN <= z <= u64_MAX -> - 10 ^ 308 <= z <= 10 ^ 308.
Proof.
  intros H. assert (u64_MAX <= 10 ^ 308) by (vm_compute; discriminate). assert (- 10 ^ 308 <= i64_MIN) by (vm_compute; discriminate). lia.
Qed.

Lemma reads64_inv E n v : Reads E TF64 (DNum n) v ->
  exists f, v = VF64 f /\ ((exists z, (reads_u n z \/ reads_i n z) /\ f = f64_of_Z z) \/ reads_f n f).
Proof. intros H. inversion H; subst; eauto 6. Qed.

Lemma reads64_finite E n f : lit_ok n -> Reads E TF64 (DNum n) (VF64 f) -> fin64 f.
Proof.
  intros HO H. apply reads64_inv in H. destruct H as (g & [= <-] & [(z & Hz & ->)|H]).
  - apply int_range in Hz; [|exact HO]. destruct Hz as (_ & _ & Hz). apply of_Z_signed, small_pow, Hz.
  - apply (lit_event_finite n f HO H).
Qed.

Lemma rnd_err_signed x : (Rabs (rnd64 x - x) <= uu * Rabs x + hh)%R.
Proof.
  assert (A : forall y, (0 <= y)%R -> (Rabs (rnd64 y - y) <= uu * Rabs y + hh)%R).
  { intros y Hy. pose proof (rnd_err 53 1024 ltac:(reflexivity) y Hy) as K. rewrite (Rabs_pos_eq y) by exact Hy.
    replace uu with (bpow radix2 (-53)) by (unfold uu; cbn; lra). exact K. }
  destruct (Rle_or_lt 0 x) as [H|H]; [apply A, H|].
  replace x with (- - x)%R by ring. rewrite rnd_opp, Rabs_Ropp.
  replace (- rnd64 (- x) - - - x)%R with (- (rnd64 (- x) - - x))%R by ring. rewrite Rabs_Ropp. apply A. lra.
Qed.

Theorem reads64_accuracy E n f : lit_ok n -> lit_short n -> Reads E TF64 (DNum n) (VF64 f) ->
  (Rabs (vreal f - lit_value n) <= e50 * Rabs (lit_value n) + a1072)%R.
Proof.
  intros HO HS H. apply reads64_inv in H. destruct H as (g & [= <-] & [(z & Hz & ->)|H]).
  - apply int_range in Hz; [|exact HO]. destruct Hz as (HI & -> & Hz).
    destruct (of_Z_signed _ (small_pow _ Hz)) as (_ & -> & _). rewrite <- (lit_value_int n HI).
    pose proof (rnd_err_signed (lit_value n)). pose proof (Rabs_pos (lit_value n)). pose proof hh_pos. pose proof uu_pos.
    assert (0 <= uu * Rabs (lit_value n))%R by (apply Rmult_le_pos; lra). rewrite e50_uu, a1072_hh. lra.
  - pose proof (lit_event_accuracy n HO HS) as A. rewrite H in A. apply close_abs; assumption.
Qed.

(** Acceptance as f64 is the same as having an event. *)
Lemma reads64_exists E n : lit_ok n -> (exists v, Reads E TF64 (DNum n) v) <-> lit_readable n.
Proof.
  intros HO. split.
  - intros [v H]. apply reads64_inv in H. destruct H as (f & _ & [(z & [Hz|Hz] & _)|H]); unfold lit_readable; eauto.
  - intros [[z H]|[[z H]|[f H]]]; [exists (VF64 (f64_of_Z z))|exists (VF64 (f64_of_Z z))|exists (VF64 f)]; (apply rd_f64_int; auto) || (apply rd_f64; auto).
Qed.
Lemma readable_event n : lit_ok n -> (lit_readable n <-> lit_event n <> Err).
Proof.
  intros HO. pose proof HO as (Hi & _). destruct (lit_event_cases n Hi) as [[f H]|[H|[(A & H & R)|(A & H & R)]]]; rewrite H; split; try congruence.
  - intros _. right. right. exists f. exact H.
  - intros [[z K]|[[z K]|[f K]]] _.
    + apply lit_event_u in K; [congruence|exact Hi].
    + apply lit_event_i in K; [congruence|exact Hi].
    + unfold reads_f in K. congruence.
  - intros _. left. eauto.
  - intros _. right. left. eauto.
Qed.

Theorem readable_below n : lit_ok n -> lit_short n -> (Rabs (lit_value n) <= (1 - e50) * f64_MAX)%R -> lit_readable n.
Proof.
  intros HO HS HB. apply readable_event; [exact HO|]. intros HE. pose proof (lit_event_accuracy n HO HS) as A. rewrite HE in A.
  rewrite f64_MAX_eq, e50_uu in HB.
  assert (0 < fmax)%R by (unfold fmax; apply Rmult_lt_0_compat; [lra|apply bpow_gt_0]).
  assert (E1 : ((1 + 4 * uu) * Rabs (lit_value n) <= (1 + 4 * uu) * ((1 - 8 * uu) * fmax))%R).
  { apply Rmult_le_compat_l; [unfold uu; lra|exact HB]. }
  assert (E2 : ((1 + 4 * uu) * (1 - 8 * uu) <= 1)%R) by (unfold uu; lra).
  assert (E3 : ((1 + 4 * uu) * (1 - 8 * uu) * fmax <= 1 * fmax)%R) by (apply Rmult_le_compat_r; lra).
  lra.
Qed.

Theorem readable_above n : lit_ok n -> lit_short n -> lit_readable n ->
  (Rabs (lit_value n) < (1 + e50) * bpow radix2 1024)%R.
Proof.
  intros HO HS HR. pose proof (proj1 (readable_event n HO) HR) as HE.
  assert (HX : (1 <= bpow radix2 1024)%R) by (change 1%R with (bpow radix2 0); apply bpow_le; lia).
  assert (HE5 : (0 <= e50 * bpow radix2 1024)%R) by (apply Rmult_le_pos; [apply bpow_ge_0|lra]).
  destruct HR as [[z HR]|[[z HR]|[f HR]]].
  1, 2: (assert (K := int_range n z ltac:(auto) HO); destruct K as (HI & EZ & Hz); rewrite (lit_value_int n HI), <- EZ;
    apply Rle_lt_trans with (bpow radix2 64);
    [change (bpow radix2 64) with (IZR 18446744073709551616); rewrite <- abs_IZR; apply IZR_le; unfold i64_MIN, u64_MAX in Hz; lia
    |apply Rlt_le_trans with (bpow radix2 1024); [apply bpow_lt; lia|lra]]).
  pose proof (lit_event_accuracy n HO HS) as A. unfold reads_f in HR. rewrite HR in A. destruct A as (V & F & S & [A _]).
  pose proof (finite_max f V F) as M.
  assert (ML : (fmax < bpow radix2 1024)%R) by apply fmax_lt.
  assert (HH : (hh <= 1)%R) by (unfold hh; change 1%R with (bpow radix2 0); apply bpow_le; lia).
  apply Rnot_le_lt. intros HC. rewrite e50_uu in HC.
  assert (K : ((1 - 7 * uu) * ((1 + 8 * uu) * bpow radix2 1024) <= (1 - 7 * uu) * Rabs (lit_value n))%R) by (apply Rmult_le_compat_l; [unfold uu; lra|exact HC]).
  assert (K2 : (bpow radix2 1024 + 5 <= (1 - 7 * uu) * (1 + 8 * uu) * bpow radix2 1024)%R).
  { assert (BB : (bpow radix2 1024 = bpow radix2 100 * bpow radix2 924)%R) by (rewrite <- bpow_plus; reflexivity).
    assert (B1 : (1 <= bpow radix2 924)%R) by (change 1%R with (bpow radix2 0); apply bpow_le; lia).
    assert (U : (uu / 2 <= (1 - 7 * uu) * (1 + 8 * uu) - 1)%R) by (unfold uu; lra).
    assert (U2 : (5 <= uu / 2 * bpow radix2 1024)%R).
    { rewrite BB. apply Rle_trans with (5 * 1)%R; [lra|]. rewrite <- Rmult_assoc. apply Rmult_le_compat; try lra.
      unfold uu. change (bpow radix2 100) with (IZR 1267650600228229401496703205376). lra. }
    assert (U3 : (uu / 2 * bpow radix2 1024 <= ((1 - 7 * uu) * (1 + 8 * uu) - 1) * bpow radix2 1024)%R) by (apply Rmult_le_compat_r; lra).
    lra. }
  lra.
Qed.

Theorem reads64_short E n : lit_ok n -> lit_short n -> lit_mantissa n <= 2 ^ 53 -> -22 <= lit_scale n <= 22 ->
  exists f, Reads E TF64 (DNum n) (VF64 f) /\ fin64 f /\ vreal f = nearest64 (lit_value n).
Proof.
  intros HO HS HM HC. pose proof (short_event n HO HS HM HC) as A. pose proof HO as (Hi & _).
  destruct (lit_event n) as [ev| |] eqn:EV; try contradiction. destruct ev as [|b| |z|z|f| |]; try contradiction.
  - destruct A as [A1 A2]. assert (K := EV). apply lit_event_i in K; [|exact Hi].
    assert (RG := int_range n z ltac:(auto) HO). destruct (of_Z_signed _ (small_pow _ (proj2 (proj2 RG)))) as (B1 & B2 & _).
    exists (f64_of_Z z). split; [apply rd_f64_int; auto|]. split; [exact B1|]. rewrite nearest64_eq, (lit_value_int n A1), <- A2. exact B2.
  - destruct A as [A1 A2]. assert (K := EV). apply lit_event_u in K; [|exact Hi].
    assert (RG := int_range n z ltac:(auto) HO). destruct (of_Z_signed _ (small_pow _ (proj2 (proj2 RG)))) as (B1 & B2 & _).
    exists (f64_of_Z z). split; [apply rd_f64_int; auto|]. split; [exact B1|]. rewrite nearest64_eq, (lit_value_int n A1), <- A2. exact B2.
  - destruct A as (A1 & _ & A2). exists f. split; [apply rd_f64; exact EV|]. auto.
Qed.

(** ** f32 *)
Definition in32 (g : spec_float) (x : R) (s : bool) : Prop :=
  valid_binary 24 128 g = true /\
  if Rlt_bool (Rabs (nearest32 x)) (bpow radix2 128) then SF2R radix2 g = nearest32 x /\ f_is_finite g = true
  else g = S754_infinity s.
Lemma finite_SF g : is_finite_SF g = f_is_finite g.
Proof. destruct g; reflexivity. Qed.
Lemma f32_of_f64_spec f : fin64 f -> in32 (f32_of_f64 f) (vreal f) (sign_SF f).
Proof.
  intros [V F]. destruct f as [s|s| |s m e]; try discriminate.
  - split; [reflexivity|]. cbn [SF2R f32_of_f64]. rewrite nearest32_eq, round_0 by apply valid_rnd_N.
    rewrite Rabs_R0, Rlt_bool_true by apply bpow_gt_0. split; reflexivity.
  - cbn [f32_of_f64 SF2R sign_SF]. pose proof (round_spec 24 128 ltac:(reflexivity) ltac:(reflexivity) s m e) as [A B].
    split; [exact A|]. rewrite nearest32_eq. destruct (Rlt_bool _ _); [|exact B]. destruct B as (B1 & B2 & _).
    rewrite <- finite_SF. split; assumption.
Qed.
Lemma f32_of_Z_spec z : in32 (f32_of_Z z) (IZR z) (z <? 0).
Proof.
  pose proof (normalize_spec 24 128 ltac:(reflexivity) ltac:(reflexivity) z) as [A B]. split; [exact A|].
  rewrite nearest32_eq. destruct (Rlt_bool _ _); [|exact B]. destruct B as (B1 & B2 & _). rewrite <- finite_SF. split; assumption.
Qed.
