(** C67: reading numbers preserves their order, and where it does not. *)
From Coq Require Import String ZArith List Bool Lia Reals Lra Floats.SpecFloat.
From Flocq Require Import Core.Core IEEE754.BinarySingleNaN.
From Verif Require Import Base Utf8 Utf8Facts F64 Lexer Driver Grammar LexSpec LexFacts LexNumFacts Types Impls Tree TreeFacts DriverFacts
  GrammarFacts Unambiguous Denote Reading ReadFacts ReadMain FromStr ParseSpec ParseFacts VisitFacts NumValue DocSpec FloatOps FloatParts FloatLit FloatRead NumFacts
  FloatOrder ClaimsParse ClaimsNum RunFacts RunText.
Import ListNotations.
Open Scope Z_scope.

(** A text that is one number literal whose digits, read as one integer, fit u64 (no
    digits are dropped), and whose power of ten is e. *)
Definition decimal_text (s : list Z) (n : numlit) (e : Z) : Prop :=
  Utf8 s /\ digit_runs digit_limit s /\ JText (DNum n) s /\ lit_mantissa n <= u64_MAX /\ lit_scale n = e.

(** Of two such literals with the same power of ten the smaller is never read as the
    larger double; <= is Rust's (false when either side is a NaN). *)
Theorem C67_f64_order E k oc s t n m e f g :
  env_ok E = true -> (wrap_depth E TF64 < k)%nat ->
  decimal_text s n e -> decimal_text t m e -> (lit_value n <= lit_value m)%R ->
  from_str E k oc TF64 s = Ok (VF64 f) -> from_str E k oc TF64 t = Ok (VF64 g) ->
  SFleb f g = true /\ (freal f <= freal g)%R.
Proof.
  intros HE Hk (U1 & L1 & D1 & M1 & E1) (U2 & L2 & D2 & M2 & E2) V H1 H2. subst e.
  apply from_str_reads in H1; auto using limit_i32. destruct H1 as (d1 & D1' & R1). pose proof (JText_unique _ _ _ D1 D1') as <-.
  apply from_str_reads in H2; auto using limit_i32. destruct H2 as (d2 & D2' & R2). pose proof (JText_unique _ _ _ D2 D2') as <-.
  pose proof (num_text_ok _ _ D1) as O1. pose proof (num_text_ok _ _ D2) as O2.
  pose proof (num_short _ _ D1 L1) as S1. pose proof (num_short _ _ D2 L2) as S2.
  assert (LE : (vreal f <= vreal g)%R) by (apply (reads64_order E n m); auto).
  split; [|exact LE]. apply SFleb_64; [eapply reads64_finite; [exact O1|exact R1]|eapply reads64_finite; [exact O2|exact R2]|exact LE].
Qed.
(** So a strict order of the doubles is that of the literals, *)
Theorem C67_f64_order_reflected E k oc s t n m e f g :
  env_ok E = true -> (wrap_depth E TF64 < k)%nat ->
  decimal_text s n e -> decimal_text t m e ->
  from_str E k oc TF64 s = Ok (VF64 f) -> from_str E k oc TF64 t = Ok (VF64 g) ->
  (freal f < freal g)%R -> (lit_value n < lit_value m)%R.
Proof.
  intros HE Hk D1 D2 H1 H2 L. destruct (Rlt_or_le (lit_value n) (lit_value m)) as [K|K]; [exact K|].
  destruct (C67_f64_order E k oc t s m n e g f HE Hk D2 D1 K H2 H1) as [_ C]. lra.
Qed.
(** equal literals are equal doubles (1.5 and 15e-1), *)
Theorem C67_f64_same_digits E k oc s t n m e f g :
  env_ok E = true -> (wrap_depth E TF64 < k)%nat ->
  decimal_text s n e -> decimal_text t m e -> lit_value n = lit_value m ->
  from_str E k oc TF64 s = Ok (VF64 f) -> from_str E k oc TF64 t = Ok (VF64 g) -> freal f = freal g.
Proof.
  intros HE Hk D1 D2 V H1 H2.
  destruct (C67_f64_order E k oc s t n m e f g HE Hk D1 D2 (Req_le _ _ V) H1 H2) as [_ A].
  destruct (C67_f64_order E k oc t s m n e g f HE Hk D2 D1 (Req_le _ _ (eq_sym V)) H2 H1) as [_ B]. lra.
Qed.
(** and a literal is accepted when one of larger magnitude is. *)
Theorem C67_f64_accepts_below E k oc s t n m e :
  env_ok E = true -> (wrap_depth E TF64 < k)%nat ->
  decimal_text s n e -> decimal_text t m e -> (Rabs (lit_value n) <= Rabs (lit_value m))%R ->
  (exists g, from_str E k oc TF64 t = Ok (VF64 g)) -> exists f, from_str E k oc TF64 s = Ok (VF64 f).
Proof.
  intros HE Hk (U1 & L1 & D1 & M1 & E1) (U2 & L2 & D2 & M2 & E2) V [g H2]. subst e.
  apply from_str_reads in H2; auto using limit_i32. destruct H2 as (d2 & D2' & R2). pose proof (JText_unique _ _ _ D2 D2') as <-.
  pose proof (num_text_ok _ _ D1) as O1. pose proof (num_text_ok _ _ D2) as O2.
  pose proof (num_short _ _ D1 L1) as S1. pose proof (num_short _ _ D2 L2) as S2.
  assert (K : lit_readable m) by (apply (reads64_exists E m O2); eauto).
  apply (readable_order n m) in K; auto. apply (reads64_exists E n O1) in K. destruct K as [v K].
  pose proof (reads64_inv E n v K) as (f & -> & _). exists f. apply from_str_reads; auto using limit_i32. eauto.
Qed.
(** For any two literals, the doubles are in order up to the two error bounds of C11: in
    particular in the strict order when the literals are further apart than that. *)
Theorem C67_f64_far_apart E k oc s t n m f g :
  Utf8 s -> Utf8 t -> digit_runs digit_limit s -> digit_runs digit_limit t ->
  env_ok E = true -> (wrap_depth E TF64 < k)%nat -> JText (DNum n) s -> JText (DNum m) t ->
  from_str E k oc TF64 s = Ok (VF64 f) -> from_str E k oc TF64 t = Ok (VF64 g) ->
  (lit_value n + bpow radix2 (-50) * (Rabs (lit_value n) + Rabs (lit_value m)) + 2 * bpow radix2 (-1072) < lit_value m)%R ->
  SFltb f g = true /\ (freal f < freal g)%R.
Proof.
  intros U1 U2 L1 L2 HE Hk D1 D2 H1 H2 FA.
  pose proof (C11_float_accuracy _ _ _ _ _ _ U1 L1 HE Hk D1 H1) as A1.
  pose proof (C11_float_accuracy _ _ _ _ _ _ U2 L2 HE Hk D2 H2) as A2.
  apply Rabs_le_inv in A1, A2. assert (LT : (freal f < freal g)%R) by lra. split; [|exact LT].
  apply from_str_reads in H1; auto using limit_i32. destruct H1 as (d1 & D1' & R1). pose proof (JText_unique _ _ _ D1 D1') as <-.
  apply from_str_reads in H2; auto using limit_i32. destruct H2 as (d2 & D2' & R2). pose proof (JText_unique _ _ _ D2 D2') as <-.
  apply SFltb_64; [eapply reads64_finite; [eapply num_text_ok, D1|exact R1]|eapply reads64_finite; [eapply num_text_ok, D2|exact R2]|exact LT].
Qed.
(** f32, infinities included, provided both are integer literals or neither is *)
Theorem C67_f32_order E k oc s t n m e f g :
  env_ok E = true -> (wrap_depth E TF32 < k)%nat ->
  decimal_text s n e -> decimal_text t m e -> (is_int_lit n <-> is_int_lit m) -> (lit_value n <= lit_value m)%R ->
  from_str E k oc TF32 s = Ok (VF32 f) -> from_str E k oc TF32 t = Ok (VF32 g) -> SFleb f g = true.
Proof.
  intros HE Hk (U1 & L1 & D1 & M1 & E1) (U2 & L2 & D2 & M2 & E2) KD V H1 H2. subst e.
  apply from_str_reads in H1; auto using limit_i32. destruct H1 as (d1 & D1' & R1). pose proof (JText_unique _ _ _ D1 D1') as <-.
  apply from_str_reads in H2; auto using limit_i32. destruct H2 as (d2 & D2' & R2). pose proof (JText_unique _ _ _ D2 D2') as <-.
  apply (reads32_order E n m); auto; [eapply num_text_ok, D1|eapply num_text_ok, D2|eapply num_short; eassumption|eapply num_short; eassumption].
Qed.

(** ** Where the order is lost *)
Definition n5 : numlit := mknum false (5 :: repeat 9 23) None None.
Definition n6e23 : numlit := mknum false [6] None (Some (false, [2; 3])).
(** 599999999999999999999999 < 6e23, but is read as the next double above that of 6e23:
    the powers of ten differ. *)
Theorem C67_scales_refuted :
  exists f g, JText (DNum n5) (bs "599999999999999999999999") /\ JText (DNum n6e23) (bs "6e23") /\
    (lit_value n5 < lit_value n6e23)%R /\
    from_str [] 1 true TF64 (bs "599999999999999999999999") = Ok (VF64 f) /\ from_str [] 1 true TF64 (bs "6e23") = Ok (VF64 g) /\
    SFltb g f = true.
Proof.
  eexists. eexists. split; [|split; [|split; [|split; [vm_compute; reflexivity|split; [vm_compute; reflexivity|vm_compute; reflexivity]]]]].
  - exists [], (bs "599999999999999999999999"), []. split; [reflexivity|]. split; [constructor|]. split; [|constructor]. constructor.
    apply (num_text false (5 :: repeat 9 23) None [] None []); [|constructor|constructor].
    apply int_nonzero; [lia|]. apply Forall_forall. intros x Hx. apply repeat_spec in Hx. subst. unfold digit. lia.
  - exists [], (bs "6e23"), []. split; [reflexivity|]. split; [constructor|]. split; [|constructor]. constructor.
    apply (num_text false [6] None [] (Some (false, [2; 3])) [101; 50; 51]).
    + apply int_nonzero; [lia|constructor].
    + constructor.
    + apply (exp_some 101 false [] 2 [3]); [left; reflexivity|constructor|repeat constructor; lia].
  - unfold lit_value. change (n_neg n5) with false. change (n_neg n6e23) with false.
    change (lit_mantissa n6e23) with 6. change (lit_scale n6e23) with 23.
    change (lit_mantissa n5) with (6 * 10 ^ 23 - 1). change (lit_scale n5) with 0.
    rewrite minus_IZR, mult_IZR, <- pow10_IZR by lia. cbn [powerRZ]. lra.
Qed.
(** 18446744073709551615e44 < 18446744073709551616e44 (u64::MAX and one more), but the
    doubles are in the opposite order: the digit dropped from the second counts. *)
Definition nmax : numlit := mknum false [1;8;4;4;6;7;4;4;0;7;3;7;0;9;5;5;1;6;1;5] None (Some (false, [4; 4])).
Definition nmax1 : numlit := mknum false [1;8;4;4;6;7;4;4;0;7;3;7;0;9;5;5;1;6;1;6] None (Some (false, [4; 4])).
Theorem C67_long_digits_refuted :
  exists f g, JText (DNum nmax) (bs "18446744073709551615e44") /\ JText (DNum nmax1) (bs "18446744073709551616e44") /\
    lit_scale nmax = lit_scale nmax1 /\ (lit_value nmax < lit_value nmax1)%R /\
    from_str [] 1 true TF64 (bs "18446744073709551615e44") = Ok (VF64 f) /\ from_str [] 1 true TF64 (bs "18446744073709551616e44") = Ok (VF64 g) /\
    SFltb g f = true.
Proof.
  eexists. eexists. split; [|split; [|split; [reflexivity|split; [|split; [vm_compute; reflexivity|split; [vm_compute; reflexivity|vm_compute; reflexivity]]]]]].
  - exists [], (bs "18446744073709551615e44"), []. split; [reflexivity|]. split; [constructor|]. split; [|constructor]. constructor.
    apply (num_text false [1;8;4;4;6;7;4;4;0;7;3;7;0;9;5;5;1;6;1;5] None [] (Some (false, [4; 4])) [101; 52; 52]).
    + apply int_nonzero; [lia|]. repeat constructor; lia.
    + constructor.
    + apply (exp_some 101 false [] 4 [4]); [left; reflexivity|constructor|repeat constructor; lia].
  - exists [], (bs "18446744073709551616e44"), []. split; [reflexivity|]. split; [constructor|]. split; [|constructor]. constructor.
    apply (num_text false [1;8;4;4;6;7;4;4;0;7;3;7;0;9;5;5;1;6;1;6] None [] (Some (false, [4; 4])) [101; 52; 52]).
    + apply int_nonzero; [lia|]. repeat constructor; lia.
    + constructor.
    + apply (exp_some 101 false [] 4 [4]); [left; reflexivity|constructor|repeat constructor; lia].
  - unfold lit_value. change (n_neg nmax) with false. change (n_neg nmax1) with false.
    change (lit_mantissa nmax) with 18446744073709551615. change (lit_mantissa nmax1) with 18446744073709551616.
    change (lit_scale nmax) with 44. change (lit_scale nmax1) with 44. pose proof (pow10_gt0 44).
    rewrite !Rmult_1_l. apply Rmult_lt_compat_r; [assumption|apply IZR_lt; reflexivity].
Qed.
(** As f32 an integer literal is rounded once, the same digits with an exponent twice:
    1152921573326323713 < 1152921573326323714e0, but reads as the larger f32. *)
Definition n32 : numlit := mknum false [1;1;5;2;9;2;1;5;7;3;3;2;6;3;2;3;7;1;3] None None.
Definition n32e : numlit := mknum false [1;1;5;2;9;2;1;5;7;3;3;2;6;3;2;3;7;1;4] None (Some (false, [0])).
Theorem C67_f32_kinds_refuted :
  exists f g, decimal_text (bs "1152921573326323713") n32 0 /\ decimal_text (bs "1152921573326323714e0") n32e 0 /\
    (lit_value n32 < lit_value n32e)%R /\
    from_str [] 1 true TF32 (bs "1152921573326323713") = Ok (VF32 f) /\ from_str [] 1 true TF32 (bs "1152921573326323714e0") = Ok (VF32 g) /\
    SFltb g f = true.
Proof.
  eexists. eexists. split; [|split; [|split; [|split; [vm_compute; reflexivity|split; [vm_compute; reflexivity|vm_compute; reflexivity]]]]].
  - split; [apply str_ok_spec; reflexivity|]. split; [apply runs_of_length; vm_compute; discriminate|]. split; [|split; [vm_compute; discriminate|reflexivity]].
    exists [], (bs "1152921573326323713"), []. split; [reflexivity|]. split; [constructor|]. split; [|constructor]. constructor.
    apply (num_text false [1;1;5;2;9;2;1;5;7;3;3;2;6;3;2;3;7;1;3] None [] None []); [|constructor|constructor].
    apply int_nonzero; [lia|]. repeat constructor; lia.
  - split; [apply str_ok_spec; reflexivity|]. split; [apply runs_of_length; vm_compute; discriminate|]. split; [|split; [vm_compute; discriminate|reflexivity]].
    exists [], (bs "1152921573326323714e0"), []. split; [reflexivity|]. split; [constructor|]. split; [|constructor]. constructor.
    apply (num_text false [1;1;5;2;9;2;1;5;7;3;3;2;6;3;2;3;7;1;4] None [] (Some (false, [0])) [101; 48]).
    + apply int_nonzero; [lia|]. repeat constructor; lia.
    + constructor.
    + apply (exp_some 101 false [] 0 []); [left; reflexivity|constructor|repeat constructor; lia].
  - unfold lit_value. change (n_neg n32) with false. change (n_neg n32e) with false.
    change (lit_mantissa n32) with 1152921573326323713. change (lit_mantissa n32e) with 1152921573326323714.
    change (lit_scale n32) with 0. change (lit_scale n32e) with 0. cbn [powerRZ].
    rewrite !Rmult_1_l, !Rmult_1_r. apply IZR_lt. reflexivity.
Qed.

(** ** Concrete case: -0.125 and 19e-3 have the same power of ten. *)
Definition n_a : numlit := mknum true [0] (Some [1; 2; 5]) None.
Definition n_b : numlit := mknum false [1; 9] None (Some (true, [3])).
Example ex_C67 : exists f g,
  decimal_text (bs "-0.125") n_a (-3) /\ decimal_text (bs " 19E-3") n_b (-3) /\ (lit_value n_a <= lit_value n_b)%R /\
  from_str [] 1 true TF64 (bs "-0.125") = Ok (VF64 f) /\ from_str [] 1 true TF64 (bs " 19E-3") = Ok (VF64 g) /\ SFleb f g = true.
Proof.
  assert (DA : decimal_text (bs "-0.125") n_a (-3)).
  { split; [apply str_ok_spec; reflexivity|]. split; [apply runs_of_length; vm_compute; discriminate|]. split; [|split; [vm_compute; discriminate|reflexivity]].
    exists [], (bs "-0.125"), []. split; [reflexivity|]. split; [constructor|]. split; [|constructor]. constructor.
    apply (num_text true [0] (Some [1; 2; 5]) (bs ".125") None []); [constructor| |constructor].
    apply (frac_some 1 [2; 5]). repeat constructor; lia. }
  assert (DB : decimal_text (bs " 19E-3") n_b (-3)).
  { split; [apply str_ok_spec; reflexivity|]. split; [apply runs_of_length; vm_compute; discriminate|]. split; [|split; [vm_compute; discriminate|reflexivity]].
    exists [32], (bs "19E-3"), []. split; [reflexivity|]. split; [repeat constructor; unfold ws_char; lia|]. split; [|constructor]. constructor.
    apply (num_text false [1; 9] None [] (Some (true, [3])) (bs "E-3")).
    - apply int_nonzero; [lia|repeat constructor; lia].
    - constructor.
    - apply (exp_some 69 true [45] 3 []); [right; reflexivity|constructor|repeat constructor; lia]. }
  assert (V : (lit_value n_a <= lit_value n_b)%R).
  { unfold lit_value. change (n_neg n_a) with true. change (n_neg n_b) with false.
    pose proof (pow10_gt0 (lit_scale n_a)). pose proof (pow10_gt0 (lit_scale n_b)).
    change (lit_mantissa n_a) with 125. change (lit_mantissa n_b) with 19. lra. }
  assert (HE : env_ok [] = true) by reflexivity. assert (HK : (wrap_depth [] TF64 < 1)%nat) by (cbn; lia).
  assert (X : exists f, from_str [] 1 true TF64 (bs "-0.125") = Ok (VF64 f)) by (eexists; vm_compute; reflexivity).
  assert (Y : exists f, from_str [] 1 true TF64 (bs " 19E-3") = Ok (VF64 f)) by (eexists; vm_compute; reflexivity).
  destruct X as [f X], Y as [g Y]. exists f, g. split; [exact DA|]. split; [exact DB|]. split; [exact V|]. split; [exact X|]. split; [exact Y|].
  exact (proj1 (C67_f64_order [] 1 true _ _ _ _ _ f g HE HK DA DB V X Y)).
Qed.
