(** More claims about floats: C12 for integers, C46 (signs and zeros), C47 (spelling). *)
From Coq Require Import String ZArith List Bool Lia Reals Lra Floats.SpecFloat.
From Flocq Require Import Core.Core IEEE754.BinarySingleNaN.
From Verif Require Import Base Utf8 Utf8Facts F64 Lexer Driver Grammar LexSpec LexFacts LexNumFacts Types Impls Tree TreeFacts DriverFacts
  GrammarFacts Unambiguous Denote Reading ReadFacts ReadMain FromStr ParseSpec ParseFacts VisitFacts NumValue DocSpec FloatOps FloatParts FloatLit FloatRead NumFacts
  ClaimsParse ClaimsNum RunFacts RunText.
Import ListNotations.
Open Scope Z_scope.

(** ** C12, integers: every integer literal between i64::MIN and u64::MAX is read by f64
    as the nearest double, however many digits it has. *)
Lemma int_event n : lit_ok n -> is_int_lit n -> i64_MIN <= lit_int n <= u64_MAX -> reads_u n (lit_int n) \/ reads_i n (lit_int n).
Proof.
  intros _ HI HB. destruct (n_neg n) eqn:N; [right|left]; unfold reads_u, reads_i; repeat split; try apply HI; try assumption; try reflexivity; lia.
Qed.
Theorem C12_integers_correctly_rounded E k oc s n :
  text_ok s -> env_ok E = true -> (wrap_depth E TF64 < k)%nat ->
  JText (DNum n) s -> n_frac n = None -> n_exp n = None ->
  (let z := if n_neg n then - digits_val (n_int n) else digits_val (n_int n) in
   i64_MIN <= z <= u64_MAX ->
   exists f, from_str E k oc TF64 s = Ok (VF64 f) /\ f_is_finite f = true /\ freal f = nearest64 (IZR z)).
Proof.
  intros Hs HE Hk Hd H1 H2 z HB. assert (HI : is_int_lit n) by (split; assumption).
  pose proof (num_text_ok _ _ Hd) as HO. change z with (lit_int n) in *.
  pose proof (int_event n HO HI HB) as R. destruct (of_Z_signed _ (small_pow _ HB)) as ([V F] & V2 & _).
  exists (f64_of_Z (lit_int n)). split; [|split].
  - apply from_str_reads; auto. exists (DNum n). split; [exact Hd|]. apply rd_f64_int, R.
  - rewrite <- finite_SF. exact F.
  - rewrite nearest64_eq. exact V2.
Qed.

(** ** C46: signs and zeros *)
(** The sign bit of a double. *)
Definition sign_bit (f : spec_float) : bool :=
  match f with S754_zero s | S754_infinity s | S754_finite s _ _ => s | S754_nan => false end.
Lemma sign_bit_SF f : sign_bit f = sign_SF f.
Proof. destruct f; reflexivity. Qed.

Theorem C46_float_sign E k oc s n f :
  text_ok s -> env_ok E = true -> (wrap_depth E TF64 < k)%nat ->
  JText (DNum n) s -> from_str E k oc TF64 s = Ok (VF64 f) ->
  (* an integer literal for zero is +0.0 even when written -0 *)
  (n_frac n = None -> n_exp n = None -> digits_val (n_int n) = 0 -> sign_bit f = false) /\
  (* any other literal gives its own sign, also when the double is a zero *)
  (n_frac n <> None \/ n_exp n <> None \/ digits_val (n_int n) <> 0 -> sign_bit f = n_neg n).
Proof.
  intros Hs HE Hk Hd H. pose proof (num_text_ok _ _ Hd) as HO. pose proof HO as (Hi & _). rewrite sign_bit_SF.
  assert (D0 : 0 <= digits_val (n_int n)) by (apply digits_bound, Hi).
  apply from_str_reads in H; auto. destruct H as (d & Hd' & HR). pose proof (JText_unique _ _ _ Hd Hd') as <-.
  apply reads64_inv in HR. destruct HR as (g & EG & [(z & Hz & ->)|HF]).
  - assert (f = f64_of_Z z) as -> by congruence. pose proof (int_range _ _ Hz HO) as (HI & -> & HB).
    destruct (of_Z_signed _ (small_pow _ HB)) as (_ & _ & ->). unfold lit_int. split.
    + intros _ _ ->. destruct (n_neg n); reflexivity.
    + intros HN. destruct HI as [I1 I2]. destruct HN as [K|[K|K]]; [contradiction|contradiction|].
      destruct (n_neg n); [apply Z.ltb_lt|apply Z.ltb_ge]; lia.
  - assert (f = g) as -> by congruence. split.
    + intros H1 H2 H3. exfalso. assert (HI : is_int_lit n) by (split; assumption).
      assert (HB : i64_MIN <= lit_int n <= u64_MAX) by (unfold lit_int; rewrite H3; unfold i64_MIN, u64_MAX; destruct (n_neg n); lia).
      unfold reads_f in HF. destruct (int_event n HO HI HB) as [K|K]; [apply lit_event_u in K|apply lit_event_i in K]; try exact Hi; congruence.
    + intros _. apply (lit_event_finite n g HO HF).
Qed.

(** A literal whose digits are all zeros is read as a zero, whatever its exponent. *)
Lemma iter_done {A B} (f : A -> lstep A B) a b p : f a = Done b -> iter_until p f a = Done b.
Proof. intros H. induction p as [p IH|p IH|]; cbn [iter_until]; [rewrite H; reflexivity|rewrite IH; reflexivity|exact H]. Qed.
Lemma zero_step e : f64_parts_step (f_zero, e) = Done (Ok f_zero).
Proof.
  unfold f64_parts_step, POW10_get. destruct (Z.abs e <? 309) eqn:L.
  - apply Z.ltb_lt in L. destruct (pow10_lit_spec (Z.abs e) ltac:(lia)) as (_ & Q2 & Q3 & _ & _ & Q6).
    destruct (pow10_lit (Z.abs e)) as [b|b| |b m x]; try discriminate.
    + exfalso. unfold vreal in Q6. cbn in Q6. lra.
    + cbn in Q3. subst b. destruct (0 <=? e); reflexivity.
  - reflexivity.
Qed.
Lemma zero_parts nn e : f64_from_parts nn 0 e = Ok (S754_zero (negb nn)).
Proof.
  unfold f64_from_parts. change (f64_of_Z 0) with f_zero. rewrite (iter_done _ _ _ _ (zero_step e)). cbn [bind]. destruct nn; reflexivity.
Qed.
Lemma zero_exp nn e ex : exp_float nn 0 e ex = Ok (S754_zero (negb nn)).
Proof.
  unfold exp_float. destruct ex as [[sg ds]|]; [|apply zero_parts]. destruct (acc_exp 0 ds); [apply zero_parts|].
  change (0 =? 0) with true. cbn [negb andb]. destruct nn; reflexivity.
Qed.
Lemma acc_int_zeros ds : Forall (fun d => d = 0) ds -> acc_int 0 ds = (0, []).
Proof. induction 1 as [|d ds -> _ IH]; [reflexivity|]. cbn [acc_int]. change (overflow 0 0 u64_MAX) with false. cbv iota. exact IH. Qed.
Lemma acc_frac_zeros ds : Forall (fun d => d = 0) ds -> forall e, exists e', acc_frac 0 e ds = (0, e').
Proof.
  induction 1 as [|d ds -> _ IH]; intros e; [eexists; reflexivity|]. cbn [acc_frac]. change (overflow 0 0 u64_MAX) with false. cbv iota.
  change (0 * 10 + 0) with 0. apply IH.
Qed.
Lemma zero_event n : Forall (fun d => d = 0) (n_int n) -> Forall (fun d => d = 0) (frac_digits n) ->
  lit_event n = Ok (EFloat (S754_zero (n_neg n))) \/ (is_int_lit n /\ (lit_event n = Ok (ENonneg 0) \/ lit_event n = Ok (ENeg 0))).
Proof.
  intros Hi Hf. unfold lit_event. rewrite (acc_int_zeros _ Hi).
  assert (F : forall ex, frac_float (negb (n_neg n)) 0 0 (n_frac n) ex = Ok (S754_zero (n_neg n))).
  { intros ex. unfold frac_float, frac_digits in *. destruct (n_frac n) as [ds|].
    - destruct (acc_frac_zeros _ Hf 0) as [e' ->]. rewrite zero_exp, negb_involutive. reflexivity.
    - rewrite zero_exp, negb_involutive. reflexivity. }
  destruct (n_frac n) as [ds|] eqn:EF, (n_exp n) as [ex|] eqn:EE; try (left; rewrite F; reflexivity).
  right. split; [split; assumption|]. destruct (n_neg n); cbn; auto.
Qed.
Lemma digits_zero ds : Forall digit ds -> digits_val ds = 0 -> Forall (fun d => d = 0) ds.
Proof.
  induction ds as [|d ds IH] using rev_ind; intros HD HV; [constructor|].
  apply Forall_app in HD. destruct HD as [H1 H2]. inversion H2; subst.
  assert (0 <= digits_val ds) by (apply digits_bound; assumption).
  unfold digits_val in HV at 1. rewrite fold_left_app in HV. fold (digits_val ds) in HV. cbn [fold_left] in HV. unfold digit in *. apply Forall_app. split; [apply IH; [assumption|lia]|]. constructor; [lia|constructor].
Qed.
Theorem C46_zero_literals E k oc s n :
  text_ok s -> env_ok E = true -> (wrap_depth E TF64 < k)%nat ->
  JText (DNum n) s -> lit_mantissa n = 0 ->
  exists sg, from_str E k oc TF64 s = Ok (VF64 (S754_zero sg)).
Proof.
  intros Hs HE Hk Hd HM. pose proof (num_text_ok _ _ Hd) as HO. pose proof HO as (Hi & Hf & _).
  assert (Z : Forall (fun d => d = 0) (n_int n ++ frac_digits n)) by (apply digits_zero; [apply Forall_app; split; assumption|exact HM]).
  apply Forall_app in Z. destruct Z as [Z1 Z2].
  assert (R : exists sg, Reads E TF64 (DNum n) (VF64 (S754_zero sg))).
  { destruct (zero_event n Z1 Z2) as [K|[HI K]].
    - exists (n_neg n). apply rd_f64. exact K.
    - exists false. change (S754_zero false) with (f64_of_Z 0). apply rd_f64_int.
      destruct K as [K|K]; [left; apply lit_event_u; assumption|right; apply lit_event_i; assumption]. }
  destruct R as [sg R]. exists sg. apply from_str_reads; auto. exists (DNum n). auto.
Qed.

(** ** C47: the spelling of a number matters *)
(** Two literals of the same real value are read as doubles no further apart than the
    two error bounds of C11 together, *)
Theorem C47_spellings_are_close E k oc s1 s2 n1 n2 f1 f2 :
  Utf8 s1 -> Utf8 s2 -> digit_runs digit_limit s1 -> digit_runs digit_limit s2 ->
  env_ok E = true -> (wrap_depth E TF64 < k)%nat ->
  JText (DNum n1) s1 -> JText (DNum n2) s2 -> lit_value n1 = lit_value n2 ->
  from_str E k oc TF64 s1 = Ok (VF64 f1) -> from_str E k oc TF64 s2 = Ok (VF64 f2) ->
  (Rabs (freal f1 - freal f2) <= 2 * (bpow radix2 (-50) * Rabs (lit_value n1) + bpow radix2 (-1072)))%R.
Proof.
  intros U1 U2 L1 L2 HE Hk D1 D2 EQ H1 H2.
  pose proof (C11_float_accuracy _ _ _ _ _ _ U1 L1 HE Hk D1 H1) as A1.
  pose proof (C11_float_accuracy _ _ _ _ _ _ U2 L2 HE Hk D2 H2) as A2. rewrite <- EQ in A2.
  replace (freal f1 - freal f2)%R with ((freal f1 - lit_value n1) - (freal f2 - lit_value n1))%R by ring.
  eapply Rle_trans; [apply Rabs_triang|]. rewrite Rabs_Ropp. lra.
Qed.
(** but not always as the same double: 6e23 and 600000000000000000000000. *)
Theorem C47_equal_literals_different_floats :
  exists n1 n2 f1 f2, JText (DNum n1) (bs "6e23") /\ JText (DNum n2) (bs "600000000000000000000000") /\
    lit_value n1 = lit_value n2 /\
    from_str [] 1 true TF64 (bs "6e23") = Ok (VF64 f1) /\ from_str [] 1 true TF64 (bs "600000000000000000000000") = Ok (VF64 f2) /\
    freal f1 <> freal f2.
Proof.
  exists (mknum false [6] None (Some (false, [2; 3]))), (mknum false (6 :: repeat 0 23) None None).
  eexists. eexists. split; [|split; [|split; [|split; [vm_compute; reflexivity|split; [vm_compute; reflexivity|]]]]].
  - exists [], (bs "6e23"), []. split; [reflexivity|]. split; [constructor|]. split; [|constructor]. constructor.
    apply (num_text false [6] None [] (Some (false, [2; 3])) [101; 50; 51]).
    + apply int_nonzero; [lia|constructor].
    + constructor.
    + apply (exp_some 101 false [] 2 [3]); [left; reflexivity|constructor|repeat constructor; lia].
  - exists [], (bs "600000000000000000000000"), []. split; [reflexivity|]. split; [constructor|]. split; [|constructor]. constructor.
    apply (num_text false (6 :: repeat 0 23) None [] None []).
    + apply int_nonzero; [lia|]. apply Forall_forall. intros x Hx. apply repeat_spec in Hx. subst. unfold digit. lia.
    + constructor.
    + constructor.
  - unfold lit_value. cbn [n_neg]. 
    change (lit_mantissa (mknum false [6] None (Some (false, [2; 3])))) with 6.
    change (lit_scale (mknum false [6] None (Some (false, [2; 3])))) with 23.
    change (lit_mantissa (mknum false (6 :: repeat 0 23) None None)) with (6 * 10 ^ 23).
    change (lit_scale (mknum false (6 :: repeat 0 23) None None)) with 0.
    rewrite mult_IZR, <- pow10_IZR by lia. cbn [powerRZ]. ring.
  - unfold freal, SF2R, F2R. cbn [cond_Zopp Fnum Fexp]. intros H. apply Rmult_eq_reg_r in H; [|apply Rgt_not_eq, bpow_gt_0]. apply eq_IZR in H. discriminate.
Qed.

(** ** Concrete cases *)
Example ex_C46 :
  from_str [] 1 true TF64 (bs "-0") = Ok (VF64 (S754_zero false)) /\
  from_str [] 1 true TF64 (bs "-0e0") = Ok (VF64 (S754_zero true)) /\
  from_str [] 1 true TF64 (bs "-1e-99999999999") = Ok (VF64 (S754_zero true)) /\
  from_str [] 1 true TF64 (bs "1e-99999999999") = Ok (VF64 (S754_zero false)) /\
  from_str [] 1 true TF64 (bs "-0.00e99999999999") = Ok (VF64 (S754_zero true)).
Proof. vm_compute. auto. Qed.
Example ex_C12_int : exists f, from_str [] 1 true TF64 (bs " 18446744073709551615") = Ok (VF64 f) /\ freal f = nearest64 18446744073709551615.
Proof.
  set (n := mknum false [1;8;4;4;6;7;4;4;0;7;3;7;0;9;5;5;1;6;1;5] None None).
  assert (D : JText (DNum n) (bs " 18446744073709551615")).
  { exists [32], (bs "18446744073709551615"), []. split; [reflexivity|]. split; [repeat constructor; unfold ws_char; lia|]. split; [|constructor]. constructor.
    apply (num_text false [1;8;4;4;6;7;4;4;0;7;3;7;0;9;5;5;1;6;1;5] None [] None []); [|constructor|constructor].
    apply int_nonzero; [lia|]. repeat constructor; lia. }
  destruct (C12_integers_correctly_rounded [] 1 true (bs " 18446744073709551615") n) as (f & H & _ & V);
    try reflexivity; try exact D; try (cbn; lia).
  - text_ok.
  - vm_compute. split; discriminate.
  - exists f. split; [exact H|exact V].
Qed.
