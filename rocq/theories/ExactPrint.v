(** The assumption about ryu can be met: a printer of exact decimals. *)
From Coq Require Import String ZArith List Bool Lia Reals Lra Floats.SpecFloat.
From Flocq Require Import Core.Core IEEE754.BinarySingleNaN.
From Verif Require Import Base Utf8 F64 Lexer Grammar LexSpec Types Reading NumValue DocSpec NumFacts FloatOps SerSpec RenderFacts FloatRT.
Import ListNotations.
Open Scope Z_scope.

(** M * 10^-k as text. *)
Definition sci_text (s : bool) (M k : Z) : bytes := (if s then [45] else []) ++ dec_digits M ++ bs "e-" ++ dec_digits k.
Definition exact_print (f : f64) : bytes :=
  match f with
  | S754_finite s m e => sci_text s (Zpos m * 2 ^ Z.max e 0 * 5 ^ Z.max (- e) 0) (Z.max (- e) 0)
  | S754_zero s => sci_text s 0 0
  | _ => []
  end.

Lemma sci_text_num s M k : 0 <= M -> 0 <= k -> exists n, NumText n (sci_text s M k) /\ ~ is_int_lit n /\ n_neg n = s /\
  lit_value n = ((if s then -1 else 1) * IZR M * powerRZ 10 (- k))%R.
Proof.
  intros HM Hk. destruct (dec_digits_eq M HM) as (ds & A & B & C). destruct (dec_digits_eq k Hk) as (es & A2 & B2 & C2).
  exists (mknum s ds None (Some (true, es))). unfold sci_text. rewrite A, A2. split.
  - change (dtext ds ++ bs "e-" ++ dtext es) with (dtext ds ++ [] ++ 101 :: [45] ++ dtext es). constructor; [exact B|constructor|].
    destruct es as [|e es]; [inversion B2|]. constructor; [left; reflexivity|constructor|apply int_digits_all, B2].
  - split; [intros [_ H]; discriminate|]. split; [reflexivity|]. unfold lit_value, lit_mantissa, lit_scale, frac_digits. cbn [n_neg n_int n_frac n_exp List.length].
    rewrite app_nil_r, C, C2. change (Z.of_nat 0) with 0. rewrite Z.sub_0_r. reflexivity.
Qed.

Lemma dec_aux_len fuel : forall n acc, (List.length (dec_digits_aux fuel n acc) <= fuel + List.length acc)%nat.
Proof.
  induction fuel as [|f IH]; intros n acc; cbn [dec_digits_aux]; [lia|]. destruct (n / 10 =? 0); [cbn [List.length]; lia|].
  eapply Nat.le_trans; [apply IH|]. cbn [List.length]. lia.
Qed.
Lemma dec_len n : Z.of_nat (List.length (dec_digits n)) <= Z.log2 n + 1.
Proof.
  unfold dec_digits. pose proof (dec_aux_len (S (Z.to_nat (Z.log2 n))) n []) as H. cbn [List.length] in H. pose proof (Z.log2_nonneg n). lia.
Qed.
Lemma pow_real e : 0 <= e -> IZR (2 ^ e) = bpow radix2 e.
Proof. intros H. rewrite <- (IZR_Zpower radix2) by exact H. reflexivity. Qed.
Lemma pow_powerRZ b e : b <> 0 -> 0 <= e -> IZR (b ^ e) = powerRZ (IZR b) e.
Proof.
  intros Hb H. revert e H. apply natlike_ind; [reflexivity|]. intros e H IH. rewrite Z.pow_succ_r by exact H. rewrite mult_IZR, IH.
  replace (Z.succ e) with (1 + e) by lia. rewrite powerRZ_add by (apply IZR_neq; exact Hb). cbn [powerRZ]. rewrite pow_1. ring.
Qed.
Lemma exact_value m e : (IZR (Zpos m * 2 ^ Z.max e 0 * 5 ^ Z.max (- e) 0) * powerRZ 10 (- Z.max (- e) 0) = IZR (Zpos m) * bpow radix2 e)%R.
Proof.
  rewrite !mult_IZR. set (a := Z.max e 0). set (b := Z.max (- e) 0).
  assert (Ha : 0 <= a) by lia. assert (Hb : 0 <= b) by lia. assert (Hab : e = a - b) by lia. rewrite Hab. clearbody a b. clear Hab e.
  rewrite pow_real, (pow_powerRZ 5) by (assumption || lia). unfold Z.sub. rewrite bpow_plus, bpow_opp, bpow_powerRZ. rewrite (bpow_powerRZ radix2 b).
  change (IZR radix2) with 2%R.
  assert (H10 : (powerRZ 10 (- b) = / (powerRZ 2 b * powerRZ 5 b))%R).
  { rewrite powerRZ_neg', <- powerRZ_mult. replace (2 * 5)%R with 10%R by ring. reflexivity. }
  rewrite H10. assert (powerRZ 2 b <> 0)%R by (apply powerRZ_NOR; lra). assert (powerRZ 5 b <> 0)%R by (apply powerRZ_NOR; lra).
  field. split; assumption.
Qed.
Lemma nearest_self f : f64_ok f = true -> nearest64 (freal f) = freal f.
Proof. intros V. unfold nearest64, freal. apply round_generic; [apply valid_rnd_N|]. exact (val_format 53 1024 f V). Qed.

Lemma bounded_log s m e : f64_ok (S754_finite s m e) = true ->
  Zpos m * 2 ^ Z.max e 0 * 5 ^ Z.max (- e) 0 <= 2 ^ 53 * 2 ^ 971 * 5 ^ 1074 /\ -1074 <= e <= 971.
Proof.
  intros H. unfold f64_ok, valid_binary, bounded in H. apply andb_true_iff in H. destruct H as [H1 H2]. apply Z.leb_le in H2.
  unfold canonical_mantissa in H1. apply Zeq_bool_eq in H1. unfold SpecFloat.fexp, SpecFloat.emin in H1.
  assert (HE : -1074 <= e <= 971) by lia. split; [|exact HE].
  assert (Zpos m < 2 ^ 53).
  { assert (Z.pos (digits2_pos m) <= 53) by lia. pose proof (Digits.Zdigits_correct radix2 (Zpos m)) as D.
    rewrite <- Digits.Zpos_digits2_pos in D. rewrite Z.abs_eq in D by lia. change (radix_val radix2) with 2 in D. destruct D as [_ D].
    eapply Z.lt_le_trans; [exact D|]. apply Z.pow_le_mono_r; lia. }
  assert (0 < 2 ^ Z.max e 0 <= 2 ^ 971) by (split; [apply Z.pow_pos_nonneg; lia|apply Z.pow_le_mono_r; lia]).
  assert (0 < 5 ^ Z.max (- e) 0 <= 5 ^ 1074) by (split; [apply Z.pow_pos_nonneg; lia|apply Z.pow_le_mono_r; lia]).
  apply Z.mul_le_mono_nonneg; try lia. apply Z.mul_le_mono_nonneg; lia.
Qed.
Theorem exact_print_ok : ryu_ok exact_print.
Proof.
  intros f V F. destruct f as [s|s| |s m e]; try discriminate.
  - cbn [exact_print]. destruct (sci_text_num s 0 0) as (n & A & B & C & D); [lia|lia|]. split; [|destruct s; cbn; lia].
    exists n. split; [exact A|]. split; [exact B|]. split; [exact C|]. rewrite D. cbn [freal SF2R]. unfold freal, SF2R.
    rewrite Rmult_0_r, Rmult_0_l. unfold nearest64. apply round_0, valid_rnd_N.
  - cbn [exact_print]. destruct (bounded_log s m e V) as [HB HE]. set (M := Zpos m * 2 ^ Z.max e 0 * 5 ^ Z.max (- e) 0) in *.
    assert (HM : 0 <= M) by (unfold M; apply Z.mul_nonneg_nonneg; [apply Z.mul_nonneg_nonneg; [lia|apply Z.pow_nonneg; lia]|apply Z.pow_nonneg; lia]).
    destruct (sci_text_num s M (Z.max (- e) 0)) as (n & A & B & C & D); [exact HM|lia|]. split.
    + exists n. split; [exact A|]. split; [exact B|]. split; [exact C|]. rewrite D.
      assert (EV : ((if s then -1 else 1) * IZR M * powerRZ 10 (- Z.max (- e) 0))%R = freal (S754_finite s m e)).
      { rewrite Rmult_assoc. unfold M. rewrite exact_value. unfold freal, SF2R, F2R. cbn [Fnum Fexp]. destruct s; cbn [cond_Zopp]; [|ring].
        rewrite opp_IZR. ring. }
      rewrite EV. apply nearest_self, V.
    + unfold sci_text. rewrite !app_length, !Nat2Z.inj_add. pose proof (dec_len M) as L1. pose proof (dec_len (Z.max (- e) 0)) as L2.
      pose proof (Z.log2_le_mono _ _ HB) as L3. assert (L4 : Z.log2 (2 ^ 53 * 2 ^ 971 * 5 ^ 1074) = 3517) by (vm_compute; reflexivity).
      assert (L5 : Z.log2 (Z.max (- e) 0) <= Z.log2 1074) by (apply Z.log2_le_mono; lia). change (Z.log2 1074) with 10 in L5.
      assert (L6 : Z.of_nat (List.length (if s then [45] else [])) <= 1) by (destruct s; cbn; lia).
      change (Z.of_nat (List.length (bs "e-"))) with 2. lia.
Qed.
(** Any printer may be changed at one value, as long as the new text is right. *)
Definition float_dec (x y : f64) : {x = y} + {x <> y}.
Proof. decide equality; try apply bool_dec; try apply Pos.eq_dec; apply Z.eq_dec. Defined.
Definition override (x : f64) (t : bytes) (ryu : f64 -> bytes) (f : f64) : bytes := if float_dec f x then t else ryu f.
Lemma override_ok x t ryu : prints_float x t -> Z.of_nat (List.length t) <= 4000 -> ryu_ok ryu -> ryu_ok (override x t ryu).
Proof. intros H1 H2 HR f V F. unfold override. destruct (float_dec f x) as [->|]; [auto|apply HR; assumption]. Qed.
