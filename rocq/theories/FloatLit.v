(** Accuracy of the conversion of number literals to f64. *)
From Coq Require Import ZArith Reals Lia Lra Psatz Bool List Floats.SpecFloat.
From Flocq Require Import Core Relative BinarySingleNaN.
From Verif Require Import Base F64 FloatOps FloatParts Lexer Grammar NumValue LexSpec LexFacts RunFacts LexNumFacts ReadFacts Reading.
Import ListNotations.
Open Scope Z_scope.

(** ** Digits *)
Definition len {A} (l : list A) : Z := Z.of_nat (List.length l).
Lemma len_app {A} (a b : list A) : len (a ++ b) = len a + len b.
Proof. unfold len. rewrite app_length. lia. Qed.
Lemma len_cons {A} (a : A) b : len (a :: b) = 1 + len b.
Proof. unfold len. cbn [List.length]. lia. Qed.
Lemma len_nonneg {A} (a : list A) : 0 <= len a.
Proof. unfold len. lia. Qed.

Lemma fold_digits r ds : fold_left (fun a d => a * 10 + d) ds r = r * 10 ^ len ds + digits_val ds.
Proof.
  unfold digits_val. revert r. induction ds as [|d ds IH]; intros r; cbn [fold_left].
  - change (len (@nil Z)) with 0. lia.
  - rewrite (IH (r * 10 + d)), (IH (0 * 10 + d)), len_cons, Z.pow_add_r by (pose proof (len_nonneg ds); lia). lia.
Qed.
Lemma digits_app a b : digits_val (a ++ b) = digits_val a * 10 ^ len b + digits_val b.
Proof. unfold digits_val at 1. rewrite fold_left_app. fold (digits_val a). apply fold_digits. Qed.
Lemma digits_bound ds : Forall digit ds -> 0 <= digits_val ds < 10 ^ len ds.
Proof.
  induction 1 as [|d ds Hd H IH]; [change (digits_val []) with 0; change (10 ^ len (@nil Z)) with 1; lia|].
  change (d :: ds) with ([d] ++ ds). rewrite digits_app, len_app. change (len [d]) with 1.
  rewrite Z.pow_add_r by (pose proof (len_nonneg ds); lia). change (digits_val [d]) with d. unfold digit in Hd. nia.
Qed.

Lemma overflow_true a b c : 0 <= c -> 0 <= b <= 9 -> overflow a b c = true -> c < a * 10 + b.
Proof.
  intros Hc Hb H. destruct (Z_lt_le_dec c (a * 10 + b)) as [L|L]; [exact L|].
  apply (overflow_false a b c Hc Hb) in L. congruence.
Qed.

Definition big : Z := 1152921504606846976. (* 2^60 *)

Lemma acc_int_split ds : forall r r' rest, Forall digit ds -> 0 <= r <= u64_MAX -> acc_int r ds = (r', rest) ->
  exists pre, ds = pre ++ rest /\ r' = r * 10 ^ len pre + digits_val pre /\ 0 <= r' <= u64_MAX /\ (rest = [] \/ exists d t, rest = d :: t /\ u64_MAX < r' * 10 + d).
Proof.
  induction ds as [|d ds IH]; intros r r' rest HD Hr H; cbn [acc_int] in H.
  - injection H as <- <-. exists []. change (len (@nil Z)) with 0. change (digits_val []) with 0.
    repeat split; try lia. left. reflexivity.
  - inversion HD as [|? ? Hd HD']; subst. unfold digit in Hd.
    destruct (overflow r d u64_MAX) eqn:EO.
    + injection H as <- <-. apply overflow_true in EO; [|unfold u64_MAX; lia|lia].
      exists []. change (len (@nil Z)) with 0. change (digits_val []) with 0.
      repeat split; try lia. right. eauto.
    + apply overflow_false in EO; [|unfold u64_MAX; lia|lia].
      apply IH in H; [|assumption|lia]. destruct H as (pre & -> & E & B & C).
      exists (d :: pre). repeat split; try lia; [|exact C].
      rewrite E. change (d :: pre) with ([d] ++ pre). rewrite digits_app, len_app. change (len [d]) with 1.
      change (digits_val [d]) with d. rewrite Z.pow_add_r by (pose proof (len_nonneg pre); lia). lia.
Qed.

Lemma acc_frac_split ds : forall r e r' e', Forall digit ds -> 0 <= r <= u64_MAX -> acc_frac r e ds = (r', e') ->
  exists pre rest, ds = pre ++ rest /\ r' = r * 10 ^ len pre + digits_val pre /\ e' = e - len pre /\
    0 <= r' <= u64_MAX /\ (rest = [] \/ exists d t, rest = d :: t /\ u64_MAX < r' * 10 + d).
Proof.
  induction ds as [|d ds IH]; intros r e r' e' HD Hr H; cbn [acc_frac] in H.
  - injection H as <- <-. exists [], []. change (len (@nil Z)) with 0. change (digits_val []) with 0.
    repeat split; try lia. left. reflexivity.
  - inversion HD as [|? ? Hd HD']; subst. unfold digit in Hd.
    destruct (overflow r d u64_MAX) eqn:EO.
    + injection H as <- <-. apply overflow_true in EO; [|unfold u64_MAX; lia|lia].
      exists [], (d :: ds). change (len (@nil Z)) with 0. change (digits_val []) with 0.
      repeat split; try lia. right. eauto.
    + apply overflow_false in EO; [|unfold u64_MAX; lia|lia].
      apply IH in H; [|assumption|lia]. destruct H as (pre & rest & -> & E & E2 & B & C).
      exists (d :: pre), rest. rewrite len_cons. repeat split; try lia; [|exact C].
      rewrite E. change (d :: pre) with ([d] ++ pre). rewrite digits_app.
      change (digits_val [d]) with d. rewrite Z.pow_add_r by (pose proof (len_nonneg pre); lia). lia.
Qed.

Lemma acc_exp_spec ds : forall x, Forall digit ds -> 0 <= x <= i32_MAX ->
  match acc_exp x ds with
  | Some y => y = x * 10 ^ len ds + digits_val ds /\ y <= i32_MAX
  | None => i32_MAX < x * 10 ^ len ds + digits_val ds
  end.
Proof.
  induction ds as [|d ds IH]; intros x HD Hx; cbn [acc_exp].
  - change (len (@nil Z)) with 0. change (digits_val []) with 0. lia.
  - inversion HD as [|? ? Hd HD']; subst. unfold digit in Hd.
    change (d :: ds) with ([d] ++ ds). rewrite digits_app, len_app. change (len [d]) with 1.
    change (digits_val [d]) with d. pose proof (len_nonneg ds) as LN. rewrite Z.pow_add_r by lia.
    assert (P : 1 <= 10 ^ len ds) by (assert (0 < 10 ^ len ds) by (apply Z.pow_pos_nonneg; lia); lia).
    replace (x * (10 ^ 1 * 10 ^ len ds) + (d * 10 ^ len ds + digits_val ds)) with ((x * 10 + d) * 10 ^ len ds + digits_val ds) by lia.
    destruct (overflow x d i32_MAX) eqn:EO.
    + apply overflow_true in EO; [|unfold i32_MAX; lia|lia]. pose proof (digits_bound ds HD').
      assert ((x * 10 + d) * 1 <= (x * 10 + d) * 10 ^ len ds) by (apply Z.mul_le_mono_nonneg_l; lia). lia.
    + apply overflow_false in EO; [|unfold i32_MAX; lia|lia]. apply IH; [assumption|lia].
Qed.

(** ** Truncation of the significand *)
Lemma trunc_int i f r rest r' e' : Forall digit i -> Forall digit f ->
  acc_int 0 i = (r, rest) -> acc_frac r (len rest) f = (r', e') ->
  let M := digits_val (i ++ f) in
  exists q, e' = q - len f /\ 0 <= q <= len i + len f /\ 0 <= r' <= u64_MAX /\
    big * Z.abs (M - r' * 10 ^ q) <= M /\
    (rest = [] -> M <= u64_MAX -> r' = M /\ q = 0).
Proof.
  intros Hi Hf E1 E2 M.
  destruct (acc_int_split i 0 r rest Hi ltac:(unfold u64_MAX; lia) E1) as (p1 & Ei & R1 & B1 & C1).
  destruct (acc_frac_split _ _ _ _ _ Hf B1 E2) as (p2 & r2 & Ef & R2 & Ee & B2 & C2).
  rewrite Ei in Hi. rewrite Ef in Hf.
  assert (C1' : rest = [] \/ big <= r).
  { destruct C1 as [->|(d & t & -> & C1)]; [auto|right]. apply Forall_app in Hi. destruct Hi as [_ Hi].
    inversion Hi as [|? ? Hd _]; subst. unfold digit, u64_MAX, big in *. lia. }
  assert (C2' : r2 = [] \/ big <= r').
  { destruct C2 as [->|(d & t & -> & C2)]; [auto|right]. apply Forall_app in Hf. destruct Hf as [_ Hf].
    inversion Hf as [|? ? Hd _]; subst. unfold digit, u64_MAX, big in *. lia. }
  apply Forall_app in Hi. destruct Hi as [Hp1 Hrest].
  apply Forall_app in Hf. destruct Hf as [Hp2 Hr2].
  pose proof (len_nonneg rest). pose proof (len_nonneg p1). pose proof (len_nonneg p2). pose proof (len_nonneg r2).
  exists (len rest + len r2). subst i f. rewrite !len_app.
  split; [lia|]. split; [lia|]. split; [exact B2|].
  assert (EM : M = r * 10 ^ (len rest + (len p2 + len r2)) + (digits_val rest * 10 ^ (len p2 + len r2) + (digits_val p2 * 10 ^ len r2 + digits_val r2))).
  { unfold M. rewrite <- app_assoc, !digits_app, !len_app. rewrite R1.
    replace (0 * 10 ^ len p1 + digits_val p1) with (digits_val p1) by lia. lia. }
  pose proof (digits_bound _ Hrest) as Dr. pose proof (digits_bound _ Hp2) as Dp. pose proof (digits_bound _ Hr2) as D2.
  rewrite EM, R2. clear EM.
  assert (P0 : forall k, 0 <= k -> 1 <= 10 ^ k).
  { intros k Hk. assert (0 < 10 ^ k) by (apply Z.pow_pos_nonneg; lia). lia. }
  rewrite !Z.pow_add_r by lia.
  set (a := 10 ^ len rest) in *. set (b := 10 ^ len p2) in *. set (c := 10 ^ len r2) in *.
  assert (1 <= a) by (apply P0; lia). assert (1 <= b) by (apply P0; lia). assert (1 <= c) by (apply P0; lia).
  set (x := digits_val rest) in *. set (y := digits_val p2) in *. set (z := digits_val r2) in *.
  split.
  - destruct C1' as [->|C1'].
    + change x with 0 in *. change a with 1 in *.
      replace (r * (1 * (b * c)) + (0 * (b * c) + (y * c + z)) - (r * b + y) * (1 * c)) with z by lia.
      rewrite (Z.abs_eq z) by lia.
      destruct C2' as [->|C2']; [change z with 0; nia|].
      rewrite R2 in C2'. assert (big * c <= (r * b + y) * c) by (apply Z.mul_le_mono_nonneg_r; lia). nia.
    + assert (A : Z.abs (r * (a * (b * c)) + (x * (b * c) + (y * c + z)) - (r * b + y) * (a * c)) <= a * (b * c)).
      { assert (BC : 0 <= x * (b * c) + (y * c + z) <= a * (b * c)).
        { assert (y * c + z < b * c) by nia. assert (0 <= y * c + z) by nia. nia. }
        assert (YY : 0 <= y * (a * c) <= a * (b * c)) by nia.
        replace (r * (a * (b * c)) + (x * (b * c) + (y * c + z)) - (r * b + y) * (a * c))
          with ((x * (b * c) + (y * c + z)) - y * (a * c)) by lia. lia. }
      assert (big * (a * (b * c)) <= r * (a * (b * c))).
      { apply Z.mul_le_mono_nonneg_r; [nia|exact C1']. }
      assert (0 <= x * (b * c) + (y * c + z)) by nia.
      assert (0 < big) by reflexivity. nia.
  - intros Er HM. assert (x = 0) by (unfold x; rewrite Er; reflexivity). assert (a = 1) by (unfold a; rewrite Er; reflexivity).
    assert (len rest = 0) by (rewrite Er; reflexivity).
    destruct C2 as [Er2|(d & t & Er2 & C2)].
    + assert (z = 0) by (unfold z; rewrite Er2; reflexivity). assert (c = 1) by (unfold c; rewrite Er2; reflexivity).
      assert (len r2 = 0) by (rewrite Er2; reflexivity). split; [nia|lia].
    + exfalso. assert (EZ : z = d * 10 ^ len t + digits_val t).
      { unfold z. rewrite Er2. change (d :: t) with ([d] ++ t). apply digits_app. }
      assert (EC : c = 10 * 10 ^ len t).
      { unfold c. rewrite Er2, len_cons, Z.pow_add_r by (pose proof (len_nonneg t); lia). reflexivity. }
      pose proof (P0 (len t) (len_nonneg t)). rewrite Er2 in Hr2. apply Forall_cons_iff in Hr2. destruct Hr2 as [Hd Ht].
      pose proof (digits_bound _ Ht).
      assert ((r * b + y) * 10 + d <= ((r * b + y) * 10 + d) * 10 ^ len t).
      { unfold digit in Hd. rewrite <- (Z.mul_1_r ((r * b + y) * 10 + d)) at 1. apply Z.mul_le_mono_nonneg_l; lia. }
      rewrite R2 in C2. nia.
Qed.

(** ** The exponent part *)
Definition exp_val (ex : option (bool * list Z)) : Z :=
  match ex with Some (neg, ds) => if neg then - digits_val ds else digits_val ds | None => 0 end.
Definition exp_digits (ex : option (bool * list Z)) : Prop :=
  match ex with Some (_, ds) => Forall digit ds | None => True end.

Lemma near_trans l1 m1 b1 x f l2 m2 v : near l1 m1 b1 x f -> near l2 m2 0 v x -> (0 <= l1)%R -> (0 <= m1)%R ->
  near (l1 * l2) (m1 * m2) b1 v f.
Proof.
  unfold near. intros [A1 A2] [B1 B2] L M.
  assert (l1 * (l2 * v - 0) <= l1 * x)%R by (apply Rmult_le_compat_l; lra).
  assert (m1 * x <= m1 * (m2 * v + 0))%R by (apply Rmult_le_compat_l; lra). lra.
Qed.

Lemma parts_nonneg r e : 0 <= r -> (0 <= parts_real r e)%R.
Proof. intros H. apply Rmult_le_pos; [apply IZR_le, H|apply Rlt_le, pow10_gt0]. Qed.

Lemma parts_tiny r e : 0 <= r <= u64_MAX -> e <= -400 -> (0 <= parts_real r e <= / 100 * hh)%R.
Proof.
  intros Hr He. split; [apply parts_nonneg; lia|].
  unfold parts_real. apply Rle_trans with (IZR u64_MAX * powerRZ 10 (-400))%R.
  - apply Rmult_le_compat; [apply IZR_le; lia|apply Rlt_le, pow10_gt0|apply IZR_le; lia|apply pow10_mono, He].
  - change (-400) with (- (400)). rewrite pow10_neg by lia.
    pose proof (pow10_ge1 400 ltac:(lia)) as P.
    replace hh with (/ IZR (2 ^ 1075))%R by (unfold hh; rewrite <- bpow_IZR, <- bpow_opp by lia; reflexivity).
    pose proof (IZR_lt 0 (2 ^ 1075) ltac:(reflexivity)) as Q.
    apply Rmult_le_reg_r with (IZR (10 ^ 400)); [lra|].
    apply Rmult_le_reg_r with (IZR (2 ^ 1075)); [lra|].
    replace (IZR u64_MAX * / IZR (10 ^ 400) * IZR (10 ^ 400) * IZR (2 ^ 1075))%R with (IZR u64_MAX * IZR (2 ^ 1075))%R by (field; lra).
    replace (/ 100 * / IZR (2 ^ 1075) * IZR (10 ^ 400) * IZR (2 ^ 1075))%R with (/ 100 * IZR (10 ^ 400))%R by (field; lra).
    assert (IZR (100 * (u64_MAX * 2 ^ 1075)) <= IZR (10 ^ 400))%R by (apply IZR_le; vm_compute; discriminate).
    rewrite !mult_IZR in H. lra.
Qed.
Lemma parts_huge r e : 1 <= r -> 309 <= e -> (2 * fmax < parts_real r e)%R.
Proof.
  intros Hr He. unfold parts_real. apply Rlt_le_trans with (1 * powerRZ 10 309)%R.
  - rewrite Rmult_1_l, pow10_IZR, fmax_IZR, <- mult_IZR by lia. apply IZR_lt. reflexivity.
  - pose proof (pow10_gt0 309). apply Rmult_le_compat; [lra|lra|apply IZR_le; lia|apply pow10_mono, He].
Qed.

Definition good5 (x : R) (f : spec_float) : Prop :=
  fnat f /\ near (1 - 6 * uu) (1 + 6 * uu) (5 * hh) x (vreal f).

Lemma good_good5 x f : parts_good x f -> good5 x f.
Proof. intros [A [B C]]. split; [exact A|]. pose proof hh_pos. split; lra. Qed.

Lemma fnat_fzero : fnat f_zero.
Proof. repeat split. Qed.

Lemma tiny_zero x : (0 <= x <= / 100 * hh)%R -> good5 x f_zero.
Proof. intros H. split; [apply fnat_fzero|]. cbn [f_zero SF2R]. pose proof hh_pos. unfold near, uu. split; lra. Qed.
Lemma tiny_good x y f : parts_good x f -> (0 <= x <= / 100 * hh)%R -> (0 <= y <= / 100 * hh)%R -> good5 y f.
Proof.
  intros [F [A B]] X Y. split; [exact F|]. pose proof hh_pos. pose proof (fnat_ge0 f F).
  unfold near, uu in *. split; lra.
Qed.
Lemma huge_not_good r e f : 1 <= r -> 309 <= e -> parts_good (parts_real r e) f -> False.
Proof.
  intros Hr He [(V & F & S) [A _]]. pose proof (parts_huge r e Hr He). pose proof (finite_max f V F) as M.
  rewrite Rabs_pos_eq in M by (apply fnat_ge0; repeat split; assumption).
  assert (hh <= 1)%R by (unfold hh; change 1%R with (bpow radix2 0); apply bpow_le; lia).
  assert (1000 < fmax)%R by (rewrite fmax_IZR; apply IZR_lt; reflexivity).
  unfold uu in A. lra.
Qed.
Lemma parts_zero_r e : parts_real 0 e = 0%R.
Proof. unfold parts_real. ring. Qed.

Lemma exp_float_spec r e ex : 0 <= r <= u64_MAX -> - digit_limit <= e <= digit_limit -> exp_digits ex ->
  match exp_float true r e ex with
  | Ok f => good5 (parts_real r (e + exp_val ex)) f
  | Err => (fmax < (1 + 3 * uu) * parts_real r (e + exp_val ex))%R
  | Fault _ => False
  end.
Proof.
  intros Hr He Hx. pose proof (exp_float_nofault true r e ex) as NF.
  assert (FM : (1000 < fmax)%R) by (rewrite fmax_IZR; apply IZR_lt; reflexivity).
  unfold digit_limit in He. unfold exp_float in *. destruct ex as [[neg ds]|]; cbn [exp_val exp_digits] in *.
  2:{ rewrite Z.add_0_r. pose proof (parts_spec r e Hr) as P.
      destruct (f64_from_parts true r e); [apply good_good5, P|apply P|exact P]. }
  pose proof (acc_exp_spec ds 0 Hx ltac:(unfold i32_MAX; lia)) as AE.
  rewrite Z.mul_0_l, Z.add_0_l in AE. pose proof (digits_bound _ Hx) as DB.
  destruct (acc_exp 0 ds) as [x|].
  - destruct AE as [-> AE]. set (X := digits_val ds) in *.
    set (S := if neg then sat_i32 (e - X) else sat_i32 (e + X)).
    set (T := if neg then - X else X).
    assert (C : S = e + T \/ (e + T <= -400 /\ S <= -400) \/ (309 <= e + T /\ 309 <= S)).
    { unfold S, T, sat_i32, i32_MIN, i32_MAX in *. destruct neg; lia. }
    pose proof (parts_spec r S Hr) as P.
    destruct C as [->|[[C1 C2]|[C1 C2]]].
    + destruct (f64_from_parts true r (e + T)); [apply good_good5, P|apply P|exact P].
    + pose proof (parts_tiny r S Hr C2) as T1. pose proof (parts_tiny r (e + T) Hr C1) as T2.
      destruct (f64_from_parts true r S) as [f| |]; [eapply tiny_good; eassumption| |exact P].
      exfalso. destruct P as [P _]. lia.
    + destruct (Z.eq_dec r 0) as [->|N].
      * rewrite parts_zero_r in *. destruct (f64_from_parts true 0 S); [apply good_good5, P|apply P|exact P].
      * destruct (f64_from_parts true r S) as [f| |].
        -- exfalso. eapply huge_not_good; [|exact C2|exact P]. lia.
        -- pose proof (parts_huge r (e + T) ltac:(lia) C1). unfold uu. lra.
        -- exact P.
  - unfold i32_MAX in AE. destruct (Z.eqb_spec r 0) as [->|N].
    + cbn [negb andb]. rewrite parts_zero_r. apply tiny_zero. pose proof hh_pos. lra.
    + cbn [negb andb]. destruct neg; cbn [negb].
      * apply tiny_zero. apply parts_tiny; [exact Hr|lia].
      * pose proof (parts_huge r (e + digits_val ds) ltac:(lia) ltac:(lia)). unfold uu. lra.
Qed.

Lemma from_parts_sign nn r e :
  f64_from_parts nn r e = let* f := f64_from_parts true r e in Ok (if nn then f else f64_neg f).
Proof.
  unfold f64_from_parts. destruct (iter_until _ _ _) as [st|b]; [destruct nn; reflexivity|].
  destruct b; cbn [bind]; destruct nn; reflexivity.
Qed.
Lemma exp_float_sign nn r e ex :
  exp_float nn r e ex = let* f := exp_float true r e ex in Ok (if nn then f else f64_neg f).
Proof.
  unfold exp_float. destruct ex as [[neg ds]|]; [|apply from_parts_sign].
  destruct (acc_exp 0 ds); [apply from_parts_sign|].
  destruct (negb (r =? 0) && negb neg); [reflexivity|]. destruct nn; reflexivity.
Qed.

(** ** Literals *)
Definition ww : R := (/ 1152921504606846976)%R.

Lemma trunc_real r' e' q M lf X :
  e' = q - lf -> 0 <= q -> big * Z.abs (M - r' * 10 ^ q) <= M ->
  near (1 - ww) (1 + ww) 0 (IZR M * powerRZ 10 (X - lf)) (parts_real r' (e' + X)).
Proof.
  intros -> Hq H. unfold parts_real.
  replace (q - lf + X) with (q + (X - lf)) by lia. rewrite powerRZ_add by lra.
  rewrite (pow10_IZR q Hq), <- Rmult_assoc, <- mult_IZR.
  pose proof (pow10_gt0 (X - lf)) as P. set (A := r' * 10 ^ q) in *.
  assert (B : (Rabs (IZR M - IZR A) <= ww * IZR M)%R).
  { rewrite <- minus_IZR, <- abs_IZR. apply IZR_le in H. rewrite mult_IZR in H. unfold big in H. unfold ww. lra. }
  apply Rabs_le_inv in B. unfold near. split.
  - assert ((1 - ww) * IZR M * powerRZ 10 (X - lf) <= IZR A * powerRZ 10 (X - lf))%R by (apply Rmult_le_compat_r; lra). lra.
  - assert (IZR A * powerRZ 10 (X - lf) <= (1 + ww) * IZR M * powerRZ 10 (X - lf))%R by (apply Rmult_le_compat_r; lra). lra.
Qed.

(** What is promised of the f64 obtained for the real number x with sign s. *)
Definition close64 (s : bool) (x : R) (f : spec_float) : Prop :=
  fvalid f = true /\ is_finite_SF f = true /\ sign_SF f = s /\
  near (1 - 7 * uu) (1 + 7 * uu) (5 * hh) x (Rabs (vreal f)).

Lemma neg_real f : vreal (f64_neg f) = (- vreal f)%R.
Proof.
  destruct f as [s|s| |s m e]; cbn; try (destruct s; cbn; ring); try ring.
  rewrite <- F2R_Zopp. destruct s; reflexivity.
Qed.
Lemma neg_valid f : fvalid (f64_neg f) = fvalid f.
Proof. destruct f; reflexivity. Qed.
Lemma neg_finite f : is_finite_SF (f64_neg f) = is_finite_SF f.
Proof. destruct f; reflexivity. Qed.

Lemma fnat_close nn x f : fnat f -> near (1 - 7 * uu) (1 + 7 * uu) (5 * hh) x (vreal f) ->
  close64 (negb nn) x (if nn then f else f64_neg f).
Proof.
  intros F N. pose proof (fnat_ge0 f F) as G. destruct F as (V & F & S).
  destruct nn; cbn [negb].
  - repeat split; auto; rewrite Rabs_pos_eq by exact G; apply N.
  - split; [rewrite neg_valid; exact V|]. split; [rewrite neg_finite; exact F|].
    split. { destruct f; cbn in *; try discriminate; rewrite S; reflexivity. }
    rewrite neg_real, Rabs_Ropp, Rabs_pos_eq by exact G. exact N.
Qed.

Lemma lit_abs n : lit_ok n -> Rabs (lit_value n) = (IZR (lit_mantissa n) * powerRZ 10 (lit_scale n))%R.
Proof.
  intros (Hi & Hf & _). unfold lit_value. rewrite Rmult_assoc, Rabs_mult.
  rewrite (Rabs_pos_eq (IZR _ * _)).
  - destruct (n_neg n); [rewrite (Rabs_left (-1)) by lra|rewrite Rabs_R1]; ring.
  - apply Rmult_le_pos; [|apply Rlt_le, pow10_gt0]. apply IZR_le. apply (digits_bound (n_int n ++ frac_digits n)). apply Forall_app; auto.
Qed.

Lemma lit_scale_eq n : lit_scale n = exp_val (n_exp n) - len (frac_digits n).
Proof. reflexivity. Qed.

Lemma lit_float_acc n r rest : lit_ok n -> lit_short n -> acc_int 0 (n_int n) = (r, rest) ->
  match frac_float (negb (n_neg n)) r (len rest) (n_frac n) (n_exp n) with
  | Ok f => close64 (n_neg n) (Rabs (lit_value n)) f
  | Err => (fmax < (1 + 4 * uu) * Rabs (lit_value n))%R
  | Fault _ => False
  end.
Proof.
  intros Hn Hs EA. pose proof Hn as (Hi & Hf & He). destruct Hs as [Si Sf].
  fold (len (n_int n)) in Si. fold (len (frac_digits n)) in Sf.
  assert (EF : exists r' e', acc_frac r (len rest) (frac_digits n) = (r', e') /\
     frac_float (negb (n_neg n)) r (len rest) (n_frac n) (n_exp n) = exp_float (negb (n_neg n)) r' e' (n_exp n)).
  { unfold frac_float, frac_digits. destruct (n_frac n) as [ds|]; cbn [acc_frac].
    - destruct (acc_frac r (len rest) ds) as [r' e']. eauto.
    - eauto. }
  destruct EF as (r' & e' & EF & ->).
  destruct (trunc_int _ _ _ _ _ _ Hi Hf EA EF) as (q & Eq & Bq & Br & HB & _).
  fold (lit_mantissa n) in HB.
  assert (Be : - digit_limit <= e' <= digit_limit).
  { pose proof (len_nonneg (frac_digits n)). rewrite Eq. split; [lia|]. 
    (* q <= len i *) destruct (acc_frac_split _ _ _ _ _ Hf ltac:(destruct (acc_int_split _ 0 _ _ Hi ltac:(unfold u64_MAX; lia) EA) as (p & _ & _ & B & _); exact B) EF) as (p2 & r2 & _ & _ & Ee & _).
    destruct (acc_int_split _ 0 _ _ Hi ltac:(unfold u64_MAX; lia) EA) as (p & Ep & _).
    rewrite Ep, len_app in Si. pose proof (len_nonneg p). pose proof (len_nonneg p2). lia. }
  pose proof (trunc_real r' e' q (lit_mantissa n) (len (frac_digits n)) (exp_val (n_exp n)) Eq (proj1 Bq) HB) as TR.
  rewrite <- lit_scale_eq, <- lit_abs in TR by exact Hn.
  pose proof (exp_float_spec r' e' (n_exp n) Br Be He) as ES.
  rewrite exp_float_sign. destruct (exp_float true r' e' (n_exp n)) as [f| |]; cbn [bind].
  - destruct ES as [F N]. pose proof (near_trans _ _ _ _ _ _ _ _ N TR ltac:(unfold uu; lra) ltac:(unfold uu; lra)) as NT.
    rewrite <- (negb_involutive (n_neg n)) at 1. apply fnat_close; [exact F|].
    eapply near_weak; [exact NT|apply Rabs_pos|unfold uu, ww; lra|unfold uu, ww; lra|lra].
  - destruct TR as [_ TR]. rewrite Rplus_0_r in TR.
    assert ((1 + 3 * uu) * parts_real r' (e' + exp_val (n_exp n)) <= (1 + 3 * uu) * ((1 + ww) * Rabs (lit_value n)))%R
      by (apply Rmult_le_compat_l; [unfold uu; lra|exact TR]).
    assert ((1 + 3 * uu) * (1 + ww) * Rabs (lit_value n) <= (1 + 4 * uu) * Rabs (lit_value n))%R
      by (apply Rmult_le_compat_r; [apply Rabs_pos|unfold uu, ww; lra]). lra.
  - exact ES.
Qed.

Theorem lit_event_accuracy n : lit_ok n -> lit_short n ->
  match lit_event n with
  | Ok (EFloat f) => close64 (n_neg n) (Rabs (lit_value n)) f
  | Err => (fmax < (1 + 4 * uu) * Rabs (lit_value n))%R
  | Ok _ => True
  | Fault _ => False
  end.
Proof.
  intros Hn Hs. unfold lit_event. destruct (acc_int 0 (n_int n)) as [r rest] eqn:EA.
  pose proof (lit_float_acc n r rest Hn Hs EA) as LF.
  destruct rest as [|d rest].
  - change (len (@nil Z)) with 0 in LF.
    destruct (n_frac n) as [fd|] eqn:EF; [|destruct (n_exp n) as [ed|] eqn:EE].
    1,2: destruct (frac_float (negb (n_neg n)) r 0 _ _); cbn [float_event bind]; exact LF.
    destruct (n_neg n) eqn:EN; cbn [negb]; [|exact I].
    destruct (Z.ltb_spec 0 (wrap_s 64 (- wrap_s 64 r))); [|exact I].
    cbn [frac_float exp_float] in LF.
    pose proof Hn as (Hi & _ & _). destruct (acc_int_split _ 0 _ _ Hi ltac:(unfold u64_MAX; lia) EA) as (p & Ep & Er & B & _).
    rewrite app_nil_r in Ep. subst p.
    destruct (of_Z_spec r) as (V & F & S & _ & N).
    { split; [lia|]. apply Z.le_trans with u64_MAX; [lia|]. vm_compute. discriminate. }
    apply (fnat_close false); [repeat split; assumption|].
    replace (Rabs (lit_value n)) with (IZR r).
    + pose proof hh_pos. eapply near_weak; [exact N|apply IZR_le; lia|unfold uu; lra|unfold uu; lra|lra].
    + rewrite lit_abs by exact Hn. unfold lit_mantissa, lit_scale, frac_digits. rewrite EF, EE, app_nil_r.
      cbn [List.length Z.of_nat]. rewrite Z.sub_0_r. cbn [powerRZ]. rewrite Er. rewrite Z.mul_0_l, Z.add_0_l. ring.
  - unfold len in LF.
    destruct (frac_float (negb (n_neg n)) r (Z.of_nat (List.length (d :: rest))) _ _); cbn [float_event bind]; exact LF.
Qed.
