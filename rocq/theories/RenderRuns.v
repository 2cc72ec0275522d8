(** Runs of digits of what to_string writes. *)
From Coq Require Import String ZArith List Bool Lia Floats.SpecFloat.
From Verif Require Import Base Utf8 Utf8Facts F64 Lexer Grammar LexSpec Types Ser Reading NumValue DocSpec SerSpec RenderFacts ExactPrint RunFacts RunText.
Import ListNotations.
Open Scope Z_scope.

Lemma itoa_len z : -36893488147419103232 < z < 36893488147419103232 -> Z.of_nat (List.length (itoa z)) <= 4000.
Proof.
  intros H. assert (LG : forall n, 0 <= n < 2 ^ 65 -> Z.log2 n <= 64).
  { intros n Hn. destruct (Z.eq_dec n 0) as [->|]; [cbn; lia|]. apply Z.lt_succ_r. apply Z.log2_lt_pow2; lia. }
  change (2 ^ 65) with 36893488147419103232 in LG. unfold itoa. destruct (z <? 0) eqn:EZ; [apply Z.ltb_lt in EZ|apply Z.ltb_ge in EZ].
  - cbn [List.length]. pose proof (dec_len (- z)). pose proof (LG (- z) ltac:(lia)). lia.
  - pose proof (dec_len z). pose proof (LG z ltac:(lia)). lia.
Qed.
Section Text.
Variable ryu : f64 -> bytes.
Hypothesis HR : ryu_ok ryu.
Notation rend := (render itoa ryu).
(** ** Runs of digits of the output *)
Lemma quote_runs m s : str_ok s = true -> 0 <= m -> digit_runs m (quote s).
Proof. intros H. eapply runs_str, quote_text_ok, H. Qed.
Lemma quote_balanced s : str_ok s = true -> balanced (quote s).
Proof. intros H. eapply str_balanced, quote_text_ok, H. Qed.
Lemma commas_runs m l : 0 <= m -> Forall (fun t => balanced t /\ digit_runs m t) l -> balanced (commas l) /\ digit_runs m (commas l).
Proof.
  intros Hm H. induction H as [|x l [H1 H2] H [IH1 IH2]]; [split; [reflexivity|apply runs_nil, Hm]|]. destruct l as [|y l]; [split; assumption|].
  change (commas (x :: y :: l)) with (x ++ 44 :: commas (y :: l)). split.
  - apply balanced_app; [exact H1|]. apply balanced_cons; [lia|exact IH1].
  - apply runs_join; [exact H1|unfold non_digit; lia|exact H2|]. apply runs_cons; [lia|unfold non_digit; lia|exact Hm|exact IH2].
Qed.
Theorem render_runs t : stree_ok t = true -> balanced (rend t) /\ digit_runs 4000 (rend t).
Proof.
  assert (W : forall m a, 0 <= m -> balanced a -> digit_runs m a -> forall x y, x <> 34 -> non_digit x -> y <> 34 -> non_digit y ->
    balanced (x :: a ++ [y]) /\ digit_runs m (x :: a ++ [y])).
  { intros m a Hm HB HA x y X1 X2 Y1 Y2. split.
    - apply balanced_cons; [exact X1|]. apply balanced_app; [exact HB|]. apply balanced_cons; [exact Y1|reflexivity].
    - apply runs_cons; [exact X1|exact X2|exact Hm|]. apply runs_join; auto. apply runs_one; assumption. }
  induction t as [|b|s|n|n|f|l IH|l IH] using stree_ind'; intros HO; cbn [stree_ok render] in *.
  - split; [reflexivity|apply runs_of_length; cbn; lia].
  - destruct b; (split; [reflexivity|apply runs_of_length; cbn; lia]).
  - split; [apply quote_balanced, HO|apply quote_runs; [exact HO|lia]].
  - destruct (itoa_spec n) as (m & A & _). split; [eapply balanced_plain, num_plain, A|]. apply runs_of_length.
    apply andb_true_iff in HO. rewrite !Z.leb_le in HO. apply itoa_len. unfold u64_MAX in HO. lia.
  - destruct (itoa_spec n) as (m & A & _). split; [eapply balanced_plain, num_plain, A|]. apply runs_of_length.
    apply andb_true_iff in HO. rewrite !Z.leb_le in HO. apply itoa_len. unfold i64_MIN, i64_MAX in HO. lia.
  - destruct (f_is_finite f) eqn:FF; [|split; [reflexivity|apply runs_of_length; cbn; lia]].
    destruct (HR f HO FF) as [(m & A & _) HL]. split; [eapply balanced_plain, num_plain, A|apply runs_of_length, HL].
  - assert (balanced (commas (map rend l)) /\ digit_runs 4000 (commas (map rend l))) as [HB HL].
    { apply commas_runs; [lia|]. apply Forall_map. rewrite Forall_forall in IH |- *. intros x Hx. apply IH; [exact Hx|]. rewrite forallb_forall in HO. apply HO, Hx. }
    apply W; auto; unfold non_digit; lia.
  - set (g := fun kt : bytes * stree => quote (fst kt) ++ 58 :: rend (snd kt)).
    assert (balanced (commas (map g l)) /\ digit_runs 4000 (commas (map g l))) as [HB HL].
    { apply commas_runs; [lia|]. apply Forall_map. rewrite Forall_forall in IH |- *. intros x Hx. rewrite forallb_forall in HO. specialize (HO _ Hx).
      apply andb_true_iff in HO. destruct HO as [HO1 HO2]. destruct (IH _ Hx HO2) as [I1 I2]. unfold g. split.
      - apply balanced_app; [apply quote_balanced, HO1|]. apply balanced_cons; [lia|exact I1].
      - apply runs_join; [apply quote_balanced, HO1|unfold non_digit; lia|apply quote_runs; [exact HO1|lia]|]. apply runs_cons; [lia|unfold non_digit; lia|lia|exact I2]. }
    apply W; auto; unfold non_digit; lia.
Qed.
End Text.
