(** f64_from_parts is monotone in the significand. *)
From Coq Require Import ZArith Reals Lia Lra Psatz Bool List Floats.SpecFloat.
From Flocq Require Import Core Relative BinarySingleNaN.
From Verif Require Import Base F64 FloatOps LexFacts FloatParts.
Open Scope Z_scope.

Lemma pow_ge1 k : 0 <= k <= 308 -> (1 <= vreal (pow10_lit k))%R.
Proof.
  intros H. destruct (pow10_lit_spec k H) as (_ & _ & _ & R & _). rewrite R.
  rewrite <- (rnd_id 53 1024 1).
  - apply rnd_le; [reflexivity|]. apply pow10_ge1. lia.
  - change 1%R with (bpow radix2 0). apply format_bpow; [reflexivity|]. unfold SpecFloat.emin. lia.
Qed.
Lemma fnat_bound f : fnat f -> (0 <= vreal f <= fmax)%R.
Proof.
  intros H. pose proof (fnat_ge0 f H) as P. destruct H as (V & F & _). pose proof (finite_max f V F) as M.
  rewrite Rabs_pos_eq in M by exact P. split; assumption.
Qed.
Lemma div_fnat f k : fnat f -> 0 <= k <= 308 ->
  fnat (f64_div f (pow10_lit k)) /\ vreal (f64_div f (pow10_lit k)) = rnd64 (vreal f / vreal (pow10_lit k)) /\
  (vreal (f64_div f (pow10_lit k)) <= vreal f)%R.
Proof.
  intros Hf Hk. pose proof (fnat_bound f Hf) as [B1 B2]. pose proof (pow_ge1 k Hk) as P1.
  destruct (pow10_lit_spec k Hk) as (PV & PF & PS & _). pose proof Hf as (V & F & S).
  pose proof (div_spec 53 1024 _ _ f (pow10_lit k) V PV F PF ltac:(lra)) as SP. rewrite S, PS in SP. cbn [xorb] in SP.
  assert (Q : (0 <= vreal f / vreal (pow10_lit k) <= vreal f)%R).
  { assert (I1 : (0 < / vreal (pow10_lit k) <= 1)%R).
    { split; [apply Rinv_0_lt_compat; lra|]. rewrite <- Rinv_1. apply Rinv_le_contravar; lra. }
    unfold Rdiv. split; [apply Rmult_le_pos; lra|]. rewrite <- (Rmult_1_r (vreal f)) at 2. apply Rmult_le_compat_l; lra. }
  apply rounded_small in SP; [|lra]. destruct SP as (A & B & C & D). unfold f64_div in *.
  split; [repeat split; assumption|]. split; [exact B|]. rewrite B.
  rewrite <- (rnd_id 53 1024 (vreal f)) by (apply val_format; assumption). apply rnd_le; [reflexivity|]. 
  rewrite (rnd_id 53 1024 (vreal f)) by (apply val_format; assumption). apply Q.
Qed.
Lemma mul_fnat f k : fnat f -> 0 <= k <= 308 ->
  (fnat (f64_mul f (pow10_lit k)) /\ vreal (f64_mul f (pow10_lit k)) = rnd64 (vreal f * vreal (pow10_lit k)) /\
     (rnd64 (vreal f * vreal (pow10_lit k)) < bpow radix2 1024)%R) \/
  (f64_mul f (pow10_lit k) = S754_infinity false /\ (bpow radix2 1024 <= rnd64 (vreal f * vreal (pow10_lit k)))%R).
Proof.
  intros Hf Hk. pose proof (fnat_bound f Hf) as [B1 B2]. pose proof (pow_ge1 k Hk) as P1.
  destruct (pow10_lit_spec k Hk) as (PV & PF & PS & _). pose proof Hf as (V & F & S).
  pose proof (mul_spec 53 1024 _ _ f (pow10_lit k) V PV F PF) as SP. rewrite S, PS in SP. cbn [xorb] in SP.
  assert (R0 : (0 <= rnd64 (vreal f * vreal (pow10_lit k)))%R) by (apply rnd_ge0; [reflexivity|]; apply Rmult_le_pos; lra).
  destruct SP as [A B]. unfold f64_mul in *. rewrite (Rabs_pos_eq _ R0) in B.
  destruct (Rlt_bool_spec (rnd64 (vreal f * vreal (pow10_lit k))) (bpow radix2 1024)) as [L|L].
  - left. destruct B as (B1' & B2' & B3'). repeat split; assumption.
  - right. split; assumption.
Qed.

Definition zero_res (b : res spec_float) : Prop := exists z, b = Ok z /\ fnat z /\ vreal z = 0%R.
(** The result b is at most the result b' (Err: more than every double). *)
Definition below (b b' : res spec_float) : Prop :=
  match b, b' with
  | Ok f, Ok f' => fnat f /\ fnat f' /\ (vreal f <= vreal f')%R
  | Ok f, Err => fnat f
  | Err, Err => True
  | _, _ => False
  end.
Definition Rel (x x' : lstep (spec_float * Z) (res spec_float)) : Prop :=
  match x, x' with
  | More (g, e), More (g', e') => e = e' /\ fnat g /\ fnat g' /\ (vreal g <= vreal g')%R
  | Done b, Done b' => below b b'
  | Done b, More (g', e') => zero_res b /\ fnat g'
  | More _, Done _ => False
  end.
Definition go (p : positive) (x : lstep (spec_float * Z) (res spec_float)) :=
  match x with Done b => Done b | More a => iter_until p f64_parts_step a end.
Definition step1 (x : lstep (spec_float * Z) (res spec_float)) :=
  match x with Done b => Done b | More a => f64_parts_step a end.
Lemma zero_below z b : fnat z -> vreal z = 0%R -> (exists f, b = Ok f /\ fnat f) \/ b = Err -> below (Ok z) b.
Proof.
  intros F V [(f & -> & Hf)| ->]; cbn [below]; [|exact F]. split; [exact F|]. split; [exact Hf|]. rewrite V. apply fnat_ge0, Hf.
Qed.
Lemma step_one g e : fnat g ->
  match f64_parts_step (g, e) with
  | More (g', _) => fnat g'
  | Done (Ok f) => fnat f
  | Done Err => True
  | Done (Fault _) => False
  end.
Proof.
  intros Hg. unfold f64_parts_step, POW10_get. destruct (Z.ltb_spec (Z.abs e) 309) as [A|A].
  - destruct (Z.leb_spec 0 e) as [B|B].
    + destruct (mul_fnat g (Z.abs e) Hg ltac:(lia)) as [(H1 & _)|[-> _]]; [|exact Logic.I].
      replace (f_is_infinite (f64_mul g (pow10_lit (Z.abs e)))) with false; [exact H1|].
      destruct H1 as (_ & F & _). destruct (f64_mul g (pow10_lit (Z.abs e))); try discriminate; reflexivity.
    + apply div_fnat; [exact Hg|lia].
  - destruct (SFeqb g f_zero); [exact Hg|]. destruct (0 <=? e); [exact Logic.I|]. apply div_fnat; [exact Hg|lia].
Qed.
Lemma step_rel x x' : Rel x x' -> Rel (step1 x) (step1 x').
Proof.
  destruct x as [[g e]|b], x' as [[g' e']|b']; cbn [Rel step1]; try tauto.
  - intros (<- & Hg & Hg' & L). unfold f64_parts_step, POW10_get.
    destruct (Z.ltb_spec (Z.abs e) 309) as [A|A].
    + destruct (Z.leb_spec 0 e) as [B|B].
      * assert (M : (rnd64 (vreal g * vreal (pow10_lit (Z.abs e))) <= rnd64 (vreal g' * vreal (pow10_lit (Z.abs e))))%R).
        { apply rnd_le; [reflexivity|]. apply Rmult_le_compat_r; [|exact L]. pose proof (pow_ge1 (Z.abs e)). lra || (specialize (H ltac:(lia)); lra). }
        assert (NI : forall f, fnat f -> f_is_infinite f = false).
        { intros f (_ & F & _). destruct f; try discriminate; reflexivity. }
        destruct (mul_fnat g (Z.abs e) Hg ltac:(lia)) as [(H1 & H2 & H3)|[-> H1]];
          destruct (mul_fnat g' (Z.abs e) Hg' ltac:(lia)) as [(K1 & K2 & K3)|[-> K1]]; cbn [f_is_infinite Rel below].
        -- rewrite !NI by assumption. cbn [Rel below]. rewrite H2, K2. auto.
        -- rewrite NI by assumption. cbn [Rel below]. exact H1.
        -- exfalso. lra.
        -- exact Logic.I.
      * destruct (div_fnat g (Z.abs e) Hg ltac:(lia)) as (H1 & H2 & _). destruct (div_fnat g' (Z.abs e) Hg' ltac:(lia)) as (K1 & K2 & _).
        cbn [Rel below]. split; [exact H1|]. split; [exact K1|]. rewrite H2, K2. apply rnd_le; [reflexivity|].
        unfold Rdiv. apply Rmult_le_compat_r; [|exact L]. apply Rlt_le, Rinv_0_lt_compat. pose proof (pow_ge1 (Z.abs e) ltac:(lia)). lra.
    + destruct (SFeqb g f_zero) eqn:Z1.
      * apply (fnat_zero g Hg) in Z1. destruct (SFeqb g' f_zero) eqn:Z2.
        -- cbn [Rel below]. auto.
        -- destruct (Z.leb_spec 0 e) as [B|B]; cbn [Rel below]; [exact Hg|].
           split; [exists g; auto|]. apply div_fnat; [exact Hg'|lia].
      * assert (SFeqb g' f_zero = false) as ->.
        { destruct (SFeqb g' f_zero) eqn:Z2; [|reflexivity]. exfalso. apply (fnat_zero g' Hg') in Z2.
          assert (vreal g = 0%R) as E by (pose proof (fnat_ge0 g Hg); lra). apply (fnat_zero g Hg) in E. congruence. }
        destruct (Z.leb_spec 0 e) as [B|B]; cbn [Rel below]; [exact Logic.I|].
        destruct (div_fnat g 308 Hg ltac:(lia)) as (H1 & H2 & _). destruct (div_fnat g' 308 Hg' ltac:(lia)) as (K1 & K2 & _).
        split; [reflexivity|]. split; [exact H1|]. split; [exact K1|]. rewrite H2, K2. apply rnd_le; [reflexivity|].
        unfold Rdiv. apply Rmult_le_compat_r; [|exact L]. apply Rlt_le, Rinv_0_lt_compat. pose proof (pow_ge1 308 ltac:(lia)). lra.
  - intros ((z & -> & Fz & Vz) & Hg'). pose proof (step_one g' e' Hg') as S.
    destruct (f64_parts_step (g', e')) as [[g1 e1]|[f| |]]; cbn [Rel]; try contradiction.
    + split; [exists z; auto|exact S].
    + apply zero_below; [exact Fz|exact Vz|]. left. exists f. auto.
    + apply zero_below; [exact Fz|exact Vz|]. right. reflexivity.
Qed.
Lemma go_rel p : forall x x', Rel x x' -> Rel (go p x) (go p x').
Proof.
  induction p as [p IH|p IH|]; intros x x' H.
  - assert (E : forall y, go (xI p) y = go p (go p (step1 y))).
    { intros [a|b]; [|reflexivity]. cbn [go iter_until step1]. destruct (f64_parts_step a); [|reflexivity]. cbn [go].
      destruct (iter_until p f64_parts_step _); reflexivity. }
    rewrite !E. apply IH, IH, step_rel, H.
  - assert (E : forall y, go (xO p) y = go p (go p y)).
    { intros [a|b]; [|reflexivity]. cbn [go iter_until]. destruct (iter_until p f64_parts_step _); reflexivity. }
    rewrite !E. apply IH, IH, H.
  - assert (E : forall y, go xH y = step1 y) by (intros [a|b]; reflexivity). rewrite !E. apply step_rel, H.
Qed.

Lemma of_Z_fnat r : 0 <= r <= u64_MAX -> fnat (f64_of_Z r) /\ vreal (f64_of_Z r) = rnd64 (IZR r).
Proof.
  intros H. assert (Hr' : 0 <= r <= 10 ^ 308).
  { split; [lia|]. apply Z.le_trans with u64_MAX; [lia|]. vm_compute. discriminate. }
  destruct (of_Z_spec r Hr') as (V & F & S & R & _). split; [repeat split; assumption|exact R].
Qed.
Theorem parts_mono r r' e : 0 <= r <= r' -> r' <= u64_MAX -> below (f64_from_parts true r e) (f64_from_parts true r' e).
Proof.
  intros H H'. pose proof (f64_from_parts_nofault true r e) as NF. pose proof (f64_from_parts_nofault true r' e) as NF'.
  destruct (of_Z_fnat r ltac:(lia)) as (F & V). destruct (of_Z_fnat r' ltac:(lia)) as (F' & V').
  pose proof (go_rel (Z.to_pos (Z.abs e / 308 + 2)) (More (f64_of_Z r, e)) (More (f64_of_Z r', e))) as R.
  cbn [go Rel] in R. unfold f64_from_parts in *.
  assert (P : e = e /\ fnat (f64_of_Z r) /\ fnat (f64_of_Z r') /\ (vreal (f64_of_Z r) <= vreal (f64_of_Z r'))%R).
  { split; [reflexivity|]. split; [exact F|]. split; [exact F'|]. rewrite V, V'. apply rnd_le; [reflexivity|]. apply IZR_le. lia. }
  specialize (R P). clear P.
  destruct (iter_until _ f64_parts_step (f64_of_Z r, e)) as [a|b]; [destruct (NF _ eq_refl)|].
  destruct (iter_until _ f64_parts_step (f64_of_Z r', e)) as [a'|b']; [destruct (NF' _ eq_refl)|].
  cbn [Rel] in R. destruct b as [f| |], b' as [f'| |]; cbn [bind below] in *; auto.
Qed.
Theorem parts_int r : 0 <= r <= u64_MAX -> exists f, f64_from_parts true r 0 = Ok f /\ fnat f /\ vreal f = rnd64 (IZR r).
Proof.
  intros H. destruct (of_Z_fnat r H) as (F & V). unfold f64_from_parts. change (Z.to_pos (Z.abs 0 / 308 + 2)) with 2%positive.
  cbn [iter_until]. unfold f64_parts_step. change (POW10_get (Z.abs 0)) with (Some (pow10_lit 0)). change (0 <=? 0) with true. cbv iota beta.
  destruct (pow10_lit_spec 0 ltac:(lia)) as (_ & _ & _ & R & _). change (10 ^ 0) with 1 in R.
  rewrite (rnd_id 53 1024 1) in R.
  2:{ change 1%R with (bpow radix2 0). apply format_bpow; [reflexivity|]. unfold SpecFloat.emin. lia. }
  assert (X : rnd64 (vreal (f64_of_Z r) * vreal (pow10_lit 0)) = vreal (f64_of_Z r)).
  { rewrite R, Rmult_1_r. apply rnd_id, val_format; apply F. }
  destruct (mul_fnat (f64_of_Z r) 0 F ltac:(lia)) as [(H1 & H2 & _)|[_ K]].
  - replace (f_is_infinite (f64_mul (f64_of_Z r) (pow10_lit 0))) with false.
    2:{ destruct H1 as (_ & G & _). destruct (f64_mul (f64_of_Z r) (pow10_lit 0)); try discriminate; reflexivity. }
    cbn [bind]. eexists. split; [reflexivity|]. split; [exact H1|]. rewrite H2, X. exact V.
  - exfalso. rewrite X in K. pose proof (fnat_bound _ F). pose proof fmax_lt. lra.
Qed.
