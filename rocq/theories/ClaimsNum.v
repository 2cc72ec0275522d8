(** Claims about numbers: C09 - C15. *)
From Coq Require Import String ZArith List Bool Lia Reals Lra Floats.SpecFloat.
From Flocq Require Import Core.Core.
From Verif Require Import Base Utf8 Utf8Facts F64 Lexer Driver Grammar LexSpec LexFacts LexNumFacts Types Impls Tree TreeFacts DriverFacts
  GrammarFacts Unambiguous Denote Reading ReadFacts ReadMain FromStr ParseSpec ParseFacts VisitFacts NumValue DocSpec FloatRead NumFacts
  ClaimsParse RunFacts RunText.
Import ListNotations.
Open Scope Z_scope.

Lemma num_text_of s n : JText (DNum n) s -> exists w1 t w2, s = w1 ++ t ++ w2 /\ Ws w1 /\ Ws w2 /\ NumText n t.
Proof. intros (w1 & t & w2 & -> & H1 & Ht & H2). inversion Ht; subst. exists w1, t, w2. auto. Qed.
Lemma num_text_ok s n : JText (DNum n) s -> lit_ok n.
Proof. intros H. apply num_text_of in H. destruct H as (w1 & t & w2 & _ & _ & _ & H). eapply NumText_ok, H. Qed.
Lemma dtext_len ds : List.length (dtext ds) = List.length ds.
Proof. apply map_length. Qed.
Lemma NumText_runs n t : NumText n t -> digit_runs digit_limit t -> lit_short n.
Proof.
  intros [neg i f ft e et H1 H2 H3] HL. unfold lit_short, frac_digits. cbn [n_int n_frac].
  assert (HS : Forall (fun c => c <> 34) (if neg then [45] else [])) by (destruct neg; repeat constructor; lia).
  assert (HI : Forall digit i) by (destruct H1; constructor; unfold digit; try lia; auto).
  split; [eapply runs_digits; [exact HS|exact HI|exact HL]|]. destruct H2 as [|d ds H]; [unfold digit_limit; cbn; lia|].
  eapply (runs_digits _ ((if neg then [45] else []) ++ dtext i ++ [46])); [|exact H|].
  - repeat (apply Forall_app; split); [exact HS|apply dtext_plain, HI|repeat constructor; lia].
  - rewrite <- !app_assoc. exact HL.
Qed.
(** If the runs of digits of a text have at most [digit_limit] (about 2.1 * 10^9) digits, every literal is short. *)
Lemma texts_short :
  (forall d t, VText d t -> digit_runs digit_limit t -> Forall lit_short (lits d)) /\
  (forall l t, EText l t -> digit_runs digit_limit t -> Forall lit_short (flat_map lits l)) /\
  (forall l t, MText l t -> digit_runs digit_limit t -> Forall lit_short (flat_map (fun kd => lits (snd kd)) l)).
Proof.
  pose proof texts_balanced as (BV & BE & BM).
  apply Text_mutind; intros; cbn [lits flat_map snd]; rewrite ?app_nil_r; try (constructor; fail).
  - constructor; [|constructor]. eapply NumText_runs; eassumption.
  - apply H. apply runs_tl in H0; [|lia]. eapply runs_prefix, H0.
  - apply H. apply runs_tl in H0; [|lia]. eapply runs_prefix, H0.
  - apply H. apply runs_suffix in H0; [|apply ws_balanced; assumption]. eapply runs_prefix, H0.
  - apply runs_suffix in H1; [|apply ws_balanced; assumption]. apply Forall_app. split; [apply H; eapply runs_prefix, H1|].
    apply H0. apply runs_suffix in H1; [|eauto]. apply runs_suffix in H1; [|apply ws_balanced; assumption]. eapply runs_tl; [|exact H1]. lia.
  - apply H. apply runs_suffix in H0; [|apply ws_balanced; assumption]. apply runs_suffix in H0; [|eapply str_balanced; eassumption].
    apply runs_suffix in H0; [|apply ws_balanced; assumption]. apply runs_tl in H0; [|lia].
    apply runs_suffix in H0; [|apply ws_balanced; assumption]. eapply runs_prefix, H0.
  - apply runs_suffix in H1; [|apply ws_balanced; assumption]. apply runs_suffix in H1; [|eapply str_balanced; eassumption].
    apply runs_suffix in H1; [|apply ws_balanced; assumption]. apply runs_tl in H1; [|lia].
    apply runs_suffix in H1; [|apply ws_balanced; assumption]. apply Forall_app. split; [apply H; eapply runs_prefix, H1|].
    apply H0. apply runs_suffix in H1; [|eauto]. apply runs_suffix in H1; [|apply ws_balanced; assumption]. eapply runs_tl; [|exact H1]. lia.
Qed.
Lemma text_short d s : JText d s -> digit_runs digit_limit s -> Forall lit_short (lits d).
Proof.
  intros (w1 & t & w2 & -> & HW & H & _) HL. apply (proj1 texts_short _ _ H). apply runs_suffix in HL; [|apply ws_balanced, HW]. eapply runs_prefix, HL.
Qed.
Lemma num_short n s : JText (DNum n) s -> digit_runs digit_limit s -> lit_short n.
Proof. intros H HL. apply text_short in H; [|exact HL]. inversion H; assumption. Qed.
Lemma limit_i32 s : Utf8 s -> digit_runs digit_limit s -> text_ok s.
Proof. intros H HL. split; [exact H|]. eapply runs_mono; [|exact HL]. unfold digit_limit, i32_MAX. lia. Qed.
Lemma text_lits_ok :
  (forall d t, VText d t -> Forall lit_ok (lits d)) /\
  (forall l t, EText l t -> Forall lit_ok (flat_map lits l)) /\
  (forall l t, MText l t -> Forall lit_ok (flat_map (fun kd => lits (snd kd)) l)).
Proof.
  apply Text_mutind; intros; cbn [lits flat_map snd]; rewrite ?app_nil_r; try (constructor; fail); try assumption.
  - constructor; [|constructor]. eapply NumText_ok. eassumption.
  - apply Forall_app. split; assumption.
  - apply Forall_app. split; assumption.
Qed.

(** ** C01, numerically: overflow decides acceptance, up to a relative margin of 2^-50. *)
Theorem C01_accepts_representable E k oc d s :
  Utf8 s -> digit_runs digit_limit s -> env_ok E = true -> (wrap_depth E TValue < k)%nat ->
  JText d s -> Forall (fun n => Rabs (lit_value n) <= (1 - bpow radix2 (-50)) * f64_MAX)%R (lits d) ->
  exists j, from_str E k oc TValue s = Ok (VJson j).
Proof.
  intros Hu HL HE Hk Hd HB. apply C01_value_accepts_exactly_json; auto using limit_i32. exists d. split; [exact Hd|].
  pose proof (text_short d s Hd HL) as HS. destruct Hd as (w1 & t & w2 & _ & _ & Ht & _). apply (proj1 text_lits_ok) in Ht.
  rewrite Forall_forall in *. intros n Hn. apply readable_below; [apply Ht|apply HS|apply HB]; exact Hn.
Qed.
Theorem C01_rejects_overflow E k oc T s d n :
  Utf8 s -> digit_runs digit_limit s -> env_ok E = true -> (wrap_depth E TValue < k)%nat ->
  JText d s -> In n (lits d) -> ((1 + bpow radix2 (-50)) * bpow radix2 1024 <= Rabs (lit_value n))%R ->
  T = TValue -> from_str E k oc T s = Err.
Proof.
  intros Hu HL HE Hk Hd Hn HB ->. apply C01_value_accepts_exactly_json; auto using limit_i32.
  intros (d' & Hd' & HR). pose proof (JText_unique _ _ _ Hd Hd') as <-. rewrite Forall_forall in HR. apply HR in Hn as HR'.
  pose proof (text_short d s Hd HL) as HS. rewrite Forall_forall in HS. apply HS in Hn as HS'.
  destruct Hd as (w1 & t & w2 & _ & _ & Ht & _). apply (proj1 text_lits_ok) in Ht. rewrite Forall_forall in Ht.
  pose proof (readable_above n (Ht n Hn) HS' HR') as K. unfold e50 in K. lra.
Qed.

(** ** C09: what a visitor is told about a number literal *)
Definition calls {St V SH MH} (I : iface St V SH MH) oc s v st : list (call V SH MH) :=
  snd (snd (from_str_impl (logged I) oc s v (st, []))).
Lemma skip_ws_rest r : Ws r -> skip_ws r = [].
Proof. apply skip_ws_nil. Qed.
Lemma pv_leaf s n ev : JText (DNum n) s -> lit_event n = Ok ev -> exists r, pv s = (PLeaf ev, Some r) /\ Ws r.
Proof. intros Hd HE. apply (pv_text (DNum n)); [exact Hd|]. cbn [tree_of]. rewrite HE. reflexivity. Qed.

Lemma pv_bad_number w1 x w2 n : Ws w1 -> Ws w2 -> NumText n x -> lit_event n = Err -> pv (w1 ++ x ++ w2) = (PBad, None).
Proof.
  intros Hw1 Hw2 H El. rewrite pv_eq, tok_ws by exact Hw1.
  pose proof (follow_ws_end (DNum n) w2 Hw2 eq_refl) as HF.
  enough (tok (x ++ w2) = Err) as -> by reflexivity.
  destruct H as [neg i f ft e et H1 H2 H3].
  pose proof (p_unsigned_complete neg i f ft e et w2 H1 H2 H3 HF) as PU.
  unfold tok. destruct neg.
  + cbn [app]. rewrite skip_ws_nonws by (unfold ws_char; lia). cbn [Z.eqb Pos.eqb is_digit Z.leb Z.compare Pos.compare Pos.compare_cont andb].
    repeat rewrite <- app_assoc. rewrite PU. rewrite El. reflexivity.
  + cbn [app]. repeat rewrite <- app_assoc.
    assert (exists c z, dtext i ++ ft ++ et ++ w2 = c :: z /\ 48 <= c <= 57) as (c & z & E & Hc).
    { destruct H1 as [|d ds H1 H]; cbn [dtext map app]; eexists _, _; (split; [reflexivity|lia]). }
    rewrite E in *. rewrite skip_ws_nonws by (unfold ws_char; lia).
    rewrite (proj2 (Z.eqb_neq c 34)) by lia. rewrite (proj2 (is_digit_range c)) by lia.
    rewrite PU, El. reflexivity.
Qed.

Theorem C09_integers_exact {St V SH MH} (I : iface St V SH MH) oc s v st n :
  text_ok s -> JText (DNum n) s ->
  (is_int_lit n -> n_neg n = false -> digits_val (n_int n) <= u64_MAX ->
     calls I oc s v st = [CNonneg v (digits_val (n_int n))]) /\
  (is_int_lit n -> n_neg n = true -> i64_MIN <= - digits_val (n_int n) ->
     calls I oc s v st = [CNeg v (- digits_val (n_int n))]) /\
  (* everything else is told as a float, or rejected without any call *)
  (~ (is_int_lit n /\ n_neg n = false /\ digits_val (n_int n) <= u64_MAX) ->
   ~ (is_int_lit n /\ n_neg n = true /\ i64_MIN <= - digits_val (n_int n)) ->
   (exists f, calls I oc s v st = [CFloat v f]) \/
   (fst (from_str_impl I oc s v st) = Err /\ calls I oc s v st = [])).
Proof.
  intros [Hu HL] Hd. pose proof (num_text_ok _ _ Hd) as HO. pose proof HO as (Hi & _).
  assert (HU := Hu). apply str_ok_spec in HU.
  assert (LEAF : forall ev, lit_event n = Ok ev -> exists r, pv s = (PLeaf ev, Some r) /\ Ws r) by (intros; eapply pv_leaf; eassumption).
  assert (SC : match fst (pv s) with PSeq _ _ | PMap _ _ => False | _ => True end).
  { destruct (lit_event_cases n Hi) as [[f H]|[H|[(A & H & _)|(A & H & _)]]]; try (destruct (LEAF _ H) as (r & -> & _); exact Logic.I).
    destruct (num_text_of _ _ Hd) as (w1 & x & w2 & E & Hw1 & Hw2 & Hx). rewrite E, (pv_bad_number w1 x w2 n Hw1 Hw2 Hx H). exact Logic.I. }
  unfold calls. rewrite (from_str_impl_scalar (logged I) oc s v (st, []) HU HL SC). rewrite (from_str_impl_scalar I oc s v st HU HL SC). unfold walk_result.
  split; [|split].
  - intros HI HN HB. assert (R : reads_u n (lit_int n)) by (unfold reads_u, lit_int; rewrite HN; auto).
    apply lit_event_u in R; [|exact Hi]. destruct (LEAF _ R) as (r & -> & Hr). cbn [feed logged v_nonneg]. unfold log_call, lit_int. rewrite HN.
    cbn [fst snd app]. destruct (fst (v_nonneg I v (digits_val (n_int n)) st)); reflexivity.
  - intros HI HN HB. assert (R : reads_i n (lit_int n)) by (unfold reads_i, lit_int; rewrite HN; auto).
    apply lit_event_i in R; [|exact Hi]. destruct (LEAF _ R) as (r & -> & Hr). cbn [feed logged v_neg]. unfold log_call, lit_int. rewrite HN.
    cbn [fst snd app]. destruct (fst (v_neg I v (- digits_val (n_int n)) st)); reflexivity.
  - intros N1 N2. destruct (lit_event_cases n Hi) as [[f H]|[H|[(A & H & (R1 & R2 & R3 & R4))|(A & H & (R1 & R2 & R3 & R4))]]].
    + left. exists f. destruct (LEAF _ H) as (r & -> & Hr). cbn [feed logged v_float]. unfold log_call. cbn [fst snd app].
      destruct (fst (v_float I v f st)); reflexivity.
    + right. destruct (pv s) as [t o] eqn:EP.
      assert (HT : t = PBad /\ o = None).
      { destruct (num_text_of _ _ Hd) as (w1 & x & w2 & E & Hw1 & Hw2 & Hx). rewrite E in EP.
        rewrite (pv_bad_number w1 x w2 n Hw1 Hw2 Hx H) in EP. split; congruence. }
      destruct HT as [-> ->]. cbn [feed fst snd]. split; reflexivity.
    + exfalso. apply N1. unfold lit_int in R4. rewrite A in R4. auto.
    + exfalso. apply N2. unfold lit_int in R4. rewrite A in R4. auto.
Qed.

(** ** C10 *)
Theorem C10_integer_targets E k oc sg b s z :
  text_ok s -> bits_ok b = true -> env_ok E = true -> (wrap_depth E (TInt sg b) < k)%nat ->
  (from_str E k oc (TInt sg b) s = Ok (VInt z) <->
   exists w1 t w2 n, s = w1 ++ t ++ w2 /\ Ws w1 /\ Ws w2 /\ NumText n t /\
     n_frac n = None /\ n_exp n = None /\ (n_neg n = true -> sg = true) /\
     z = (if n_neg n then - digits_val (n_int n) else digits_val (n_int n)) /\
     (if sg then - 2 ^ (b - 1) <= z <= 2 ^ (b - 1) - 1 else 0 <= z <= 2 ^ b - 1)).
Proof.
  intros Hs Hb HE Hk. rewrite (from_str_reads E k oc (TInt sg b) s) by auto. split.
  - intros (d & Hd & HR). inversion HR as [| | |sg' b' n [N1 N2] HG HRg| | | | | | | | | | | | | | | | | | |]; subst.
    apply num_text_of in Hd. destruct Hd as (w1 & t & w2 & -> & H1 & H2 & Ht). exists w1, t, w2, n.
    repeat (split; [assumption || reflexivity|]). destruct sg; exact HRg.
  - intros (w1 & t & w2 & n & -> & H1 & H2 & Ht & N1 & N2 & HG & -> & HRg). exists (DNum n). split.
    + exists w1, t, w2. repeat split; auto. constructor. exact Ht.
    + change (if n_neg n then - digits_val (n_int n) else digits_val (n_int n)) with (lit_int n) in *.
      apply rd_int; [split; assumption|exact HG|]. unfold int_min, int_max. destruct sg; exact HRg.
Qed.
(** Never wrapped, never anything but an integer value. *)
Theorem C10_integer_result E k oc sg b s v :
  text_ok s -> bits_ok b = true -> env_ok E = true -> (wrap_depth E (TInt sg b) < k)%nat ->
  from_str E k oc (TInt sg b) s = Ok v -> exists z, v = VInt z /\ int_min sg b <= z <= int_max sg b.
Proof.
  intros Hs Hb HE Hk H. apply from_str_reads in H; auto. destruct H as (d & _ & HR). inversion HR; subst. eauto.
Qed.

(** ** C11 - C13 *)
Theorem C11_float_accuracy E k oc s f n :
  Utf8 s -> digit_runs digit_limit s -> env_ok E = true -> (wrap_depth E TF64 < k)%nat ->
  JText (DNum n) s -> from_str E k oc TF64 s = Ok (VF64 f) ->
  (Rabs (freal f - lit_value n) <= bpow radix2 (-50) * Rabs (lit_value n) + bpow radix2 (-1072))%R.
Proof.
  intros Hu HL HE Hk Hd H. apply from_str_reads in H; auto using limit_i32. destruct H as (d & Hd' & HR).
  pose proof (JText_unique _ _ _ Hd Hd') as <-.
  eapply reads64_accuracy; [eapply num_text_ok, Hd|eapply num_short; eassumption|exact HR].
Qed.
(** from_str::<f64> accepts nothing but number literals. *)
Theorem C11_f64_needs_number E k oc s v :
  text_ok s -> env_ok E = true -> (wrap_depth E TF64 < k)%nat ->
  from_str E k oc TF64 s = Ok v -> exists n f, v = VF64 f /\ JText (DNum n) s.
Proof.
  intros Hs HE Hk H. apply from_str_reads in H; auto. destruct H as (d & Hd & HR). inversion HR; subst; eauto.
Qed.
(** The same bound for the floats inside a json::Value, and for any visitor. *)
Theorem C11_float_event_accuracy n f : lit_ok n -> lit_short n -> reads_f n f ->
  (Rabs (freal f - lit_value n) <= bpow radix2 (-50) * Rabs (lit_value n) + bpow radix2 (-1072))%R.
Proof. intros HO HS H. eapply (reads64_accuracy []); [exact HO|exact HS|apply rd_f64, H]. Qed.

Theorem C12_short_decimals_correctly_rounded E k oc s n :
  Utf8 s -> digit_runs digit_limit s -> env_ok E = true -> (wrap_depth E TF64 < k)%nat ->
  JText (DNum n) s -> lit_mantissa n <= 2 ^ 53 -> -22 <= lit_scale n <= 22 ->
  exists f, from_str E k oc TF64 s = Ok (VF64 f) /\ f_is_finite f = true /\ freal f = nearest64 (lit_value n).
Proof.
  intros Hu HL HE Hk Hd HM HC.
  destruct (reads64_short E n (num_text_ok _ _ Hd) (num_short _ _ Hd HL) HM HC) as (f & HR & [V F] & EQ).
  exists f. split; [apply from_str_reads; auto using limit_i32; exists (DNum n); auto|]. split; [|exact EQ]. rewrite <- finite_SF. exact F.
Qed.

Theorem C13_f64_always_finite E k oc s f :
  text_ok s -> env_ok E = true -> (wrap_depth E TF64 < k)%nat ->
  from_str E k oc TF64 s = Ok (VF64 f) -> f_is_finite f = true /\ f64_ok f = true.
Proof.
  intros Hs HE Hk H. apply from_str_reads in H; auto. destruct H as (d & Hd & HR).
  assert (exists n, d = DNum n) as [n ->] by (inversion HR; eauto).
  destruct (reads64_finite E n f (num_text_ok _ _ Hd) HR) as [V F]. rewrite <- finite_SF. split; assumption.
Qed.
Theorem C13_overflow_is_an_error E k oc s n :
  Utf8 s -> digit_runs digit_limit s -> env_ok E = true -> (wrap_depth E TF64 < k)%nat ->
  JText (DNum n) s ->
  ((Rabs (lit_value n) <= (1 - bpow radix2 (-50)) * f64_MAX)%R -> exists f, from_str E k oc TF64 s = Ok (VF64 f)) /\
  (((1 + bpow radix2 (-50)) * bpow radix2 1024 <= Rabs (lit_value n))%R -> from_str E k oc TF64 s = Err).
Proof.
  intros Hu HL HE Hk Hd. pose proof (num_text_ok _ _ Hd) as HO. pose proof (num_short _ _ Hd HL) as HS. split.
  - intros HB. pose proof (readable_below n HO HS HB) as HR. apply (reads64_exists E) in HR; [|exact HO]. destruct HR as [v HR].
    pose proof HR as HR'. apply reads64_inv in HR'. destruct HR' as (f & -> & _). exists f.
    apply from_str_reads; auto using limit_i32. exists (DNum n). auto.
  - intros HB. destruct (C03_from_str_total E k oc TF64 s (limit_i32 _ Hu HL) Hk) as [[v K]|K]; [|exact K]. exfalso.
    apply from_str_reads in K; auto using limit_i32. destruct K as (d & Hd' & HR). pose proof (JText_unique _ _ _ Hd Hd') as <-.
    assert (RR : lit_readable n) by (apply (reads64_exists E); eauto).
    pose proof (readable_above n HO HS RR) as K. unfold e50 in K. lra.
Qed.

(** ** C14 *)
(** g is the f32 nearest to x (ties to even), or the infinity of sign s when that is out
    of range. *)
Definition is_f32_of (g : f32) (x : R) : Prop :=
  f32_ok g = true /\
  ((Rabs (nearest32 x) < bpow radix2 128)%R -> freal g = nearest32 x /\ f_is_finite g = true) /\
  ((bpow radix2 128 <= Rabs (nearest32 x))%R -> exists s, g = S754_infinity s).
Lemma in32_of g x s : in32 g x s -> is_f32_of g x.
Proof.
  intros [V H]. split; [exact V|]. split; intros HB.
  - rewrite Rlt_bool_true in H by exact HB. exact H.
  - rewrite Rlt_bool_false in H by exact HB. eauto.
Qed.
(** from_str::<f32> accepts what from_str::<f64> accepts; a literal with a fraction,
    an exponent or a value beyond u64/i64 gives the f64 result rounded to f32 (so it is
    rounded twice, and may become infinite); other integer literals are rounded once. *)
Theorem C14_f32_rounds_the_f64 E k oc s :
  text_ok s -> env_ok E = true -> (wrap_depth E TF32 < k)%nat -> (wrap_depth E TF64 < k)%nat ->
  ((exists g, from_str E k oc TF32 s = Ok (VF32 g)) <-> (exists f, from_str E k oc TF64 s = Ok (VF64 f))) /\
  (forall g f n, from_str E k oc TF32 s = Ok (VF32 g) -> from_str E k oc TF64 s = Ok (VF64 f) -> JText (DNum n) s ->
     (is_int_lit n /\ i64_MIN <= lit_int n <= u64_MAX /\ is_f32_of g (IZR (lit_int n))) \/ is_f32_of g (freal f)).
Proof.
  intros Hs HE Hk Hk'. split.
  - split; intros [g H]; apply from_str_reads in H; auto; destruct H as (d & Hd & HR); inversion HR; subst; eexists; apply from_str_reads; auto;
      eexists; (split; [exact Hd|]).
    + apply rd_f64_int. eassumption.
    + apply rd_f64. eassumption.
    + apply rd_f32_int. eassumption.
    + apply rd_f32. eassumption.
  - intros g f n H1 H2 Hd. apply from_str_reads in H1, H2; auto. destruct H1 as (d1 & Hd1 & R1), H2 as (d2 & Hd2 & R2).
    pose proof (JText_unique _ _ _ Hd Hd1) as <-. pose proof (JText_unique _ _ _ Hd Hd2) as <-. clear Hd1 Hd2.
    pose proof (num_text_ok _ _ Hd) as HO. pose proof HO as (Hi & _).
    inversion R1 as [| | | | | |n1 z1 Hz1|n1 f1 Hf1| | | | | | | | | | | | | | |]; subst.
    + left. pose proof (int_range _ _ Hz1 HO) as (A & B & C). split; [exact A|]. subst z1. split; [exact C|].
      eapply in32_of, f32_of_Z_spec.
    + right. inversion R2 as [| | | |n2 z2 Hz2|n2 f2 Hf2| | | | | | | | | | | | | | | | |]; subst.
      * exfalso. unfold reads_f in Hf1. destruct Hz2 as [K|K]; [apply lit_event_u in K|apply lit_event_i in K]; try exact Hi; congruence.
      * unfold reads_f in Hf1, Hf2. rewrite Hf1 in Hf2. injection Hf2 as <-. eapply in32_of, f32_of_f64_spec.
        apply (lit_event_finite n f1 HO Hf1).
Qed.

(** ** C15 *)
(** Without runs of 2^31 digits, debug builds (with overflow checks) and release builds (without) give
    the same result, which is never a panic. *)
Theorem C15_no_counter_overflow E k T s :
  text_ok s -> (wrap_depth E T < k)%nat ->
  from_str E k true T s = from_str E k false T s /\ forall f, from_str E k true T s <> Fault f.
Proof.
  intros Hs Hk. rewrite !from_str_total by assumption. split; [reflexivity|]. intros f. destruct (text_val E T s); discriminate.
Qed.

Section Overflow.
Variable inp : bytes.
Lemma decimal_zeros m : forall fuel e one b, Sfx inp (repeat 48 m) -> (m < fuel)%nat ->
  i32_MIN <= e <= 0 -> e - Z.of_nat m < i32_MIN ->
  parse_decimal_loop true inp fuel 0 e one (lx inp (repeat 48 m) b) = Fault FPanic.
Proof.
  induction m as [|m IH]; intros fuel e one b HS HF He HO; [exfalso; cbn [Z.of_nat] in HO; lia|].
  destruct fuel as [|fuel]; [lia|]. cbn [parse_decimal_loop]. rewrite peek_or_nul_eq by exact HS. cbn [bind hd0 repeat].
  change (is_digit 48) with true. cbv iota. cbn [repeat] in HS. rewrite bump_cons by exact HS.
  change (48 - 48) with 0. replace (overflow 0 0 u64_MAX) with false by reflexivity. cbv iota.
  replace (chk_u64 true (0 * 10 + 0)) with (Ok 0) by reflexivity. cbn [bind].
  unfold chk_i32, chk. destruct (Z_le_gt_dec i32_MIN (e - 1)) as [L|L].
  - rewrite (proj2 (Z.leb_le _ _) L). rewrite (proj2 (Z.leb_le (e - 1) i32_MAX)) by (unfold i32_MAX; lia). cbn [andb bind].
    apply IH; [eapply Sfx_tl, HS|lia|lia|lia].
  - rewrite (proj2 (Z.leb_gt _ _)) by lia. reflexivity.
Qed.
End Overflow.

(** The text 0.000... with 2^31 + 1 zeros after the point. *)
Definition long_zero : bytes := bs "0." ++ repeat 48 (Z.to_nat 2147483649).
Lemma zeros_panic m : Z.of_nat m = 2147483649 ->
  Utf8 (bs "0." ++ repeat 48 m) /\ from_str [] 1 true TF64 (bs "0." ++ repeat 48 m) = Fault FPanic.
Proof.
  intros HM. split.
  - exists (bs "0." ++ repeat 48 m). split.
    + rewrite forallb_app. apply andb_true_intro. split; [reflexivity|]. apply forallb_forall. intros c Hc. apply repeat_spec in Hc. subst. reflexivity.
    + unfold encode_all. induction m as [|m' IH] in |- *; [reflexivity|].
      replace (repeat 48 (S m')) with (repeat 48 m' ++ [48]) by (symmetry; apply repeat_cons).
      rewrite app_assoc, map_app, concat_app, <- IH. reflexivity.
  - unfold from_str, from_str_heap, from_str_impl.
    set (s := bs "0." ++ repeat 48 m).
    assert (S0 : Sfx s (48 :: 46 :: repeat 48 m)) by (exists []; reflexivity).
    assert (ES : s = 48 :: 46 :: repeat 48 m) by reflexivity.
    assert (S1 : Sfx s (46 :: repeat 48 m)) by (eapply Sfx_tl, S0).
    assert (S2 : Sfx s (repeat 48 m)) by (eapply Sfx_tl, S1).
    assert (HL : len s = S (S m)) by (unfold len; rewrite ES; cbn [List.length]; rewrite repeat_length; reflexivity).
    replace (mklex 0 []) with (lx s (48 :: 46 :: repeat 48 m) []).
    2: { unfold lx, posof. rewrite <- ES, Nat.sub_diag. reflexivity. }
    enough (EV : event_next true s (lx s (48 :: 46 :: repeat 48 m) []) = Fault FPanic).
    { cbn [outer_loop]. unfold turn. rewrite EV. reflexivity. }
    unfold event_next. rewrite parse_whitespace_eq by exact S0. rewrite skip_ws_nonws by (unfold ws_char; lia). cbn [bind].
    rewrite bump_cons by exact S0. change (48 =? 34) with false. change (is_digit 48) with true. cbv iota.
    unfold parse_integer. change (48 =? 48) with true. cbv iota. rewrite peek_or_nul_eq by exact S1. cbn [bind hd0].
    change (is_digit 46) with false. cbv iota. unfold parse_number. rewrite peek_or_nul_eq by exact S1. cbn [bind hd0].
    change (46 =? 46) with true. cbv iota. unfold parse_decimal. rewrite bump_cons by exact S1. rewrite HL.
    rewrite decimal_zeros; [reflexivity|exact S2|lia|unfold i32_MIN; lia|rewrite HM; unfold i32_MIN; lia].
Qed.
Theorem C15_overflow_beyond : Utf8 long_zero /\ from_str [] 1 true TF64 long_zero = Fault FPanic.
Proof. exact (zeros_panic (Z.to_nat 2147483649) (Z2Nat.id 2147483649 ltac:(lia))). Qed.

(** ** Concrete cases *)
Example ex_lit : numlit := mknum true [1; 2] (Some [5; 0]) (Some (true, [3])).
Example ex_lit_text : JText (DNum ex_lit) (bs " -12.50e-3").
Proof.
  exists [32], (bs "-12.50e-3"), []. split; [reflexivity|]. split; [repeat constructor; unfold ws_char; lia|]. split; [|constructor].
  constructor. apply (num_text true [1; 2] (Some [5; 0]) [46; 53; 48] (Some (true, [3])) [101; 45; 51]).
  - apply int_nonzero; [lia|repeat constructor; unfold digit; lia].
  - apply (frac_some 5 [0]). repeat constructor; lia.
  - apply (exp_some 101 true [45] 3 []); [left; reflexivity|constructor|repeat constructor; lia].
Qed.
Example ex_C11 : exists f, from_str [] 1 true TF64 (bs " -12.50e-3") = Ok (VF64 f) /\
  (Rabs (freal f - lit_value ex_lit) <= bpow radix2 (-50) * Rabs (lit_value ex_lit) + bpow radix2 (-1072))%R /\
  freal f = nearest64 (lit_value ex_lit).
Proof.
  assert (U : Utf8 (bs " -12.50e-3")) by (apply str_ok_spec; reflexivity).
  assert (L : digit_runs digit_limit (bs " -12.50e-3")) by (apply runs_of_length; vm_compute; discriminate).
  destruct (C12_short_decimals_correctly_rounded [] 1 true (bs " -12.50e-3") ex_lit U L) as (f & H & _ & EQ);
    [reflexivity|cbn; lia|exact ex_lit_text|vm_compute; discriminate|cbv; split; discriminate|].
  exists f. split; [exact H|]. split; [|exact EQ].
  apply (C11_float_accuracy [] 1 true (bs " -12.50e-3")); [exact U|exact L|reflexivity|cbn; lia|exact ex_lit_text|exact H].
Qed.
(** "-0" is told as negative(0), and read as +0.0 by f64. *)
Example ex_C09 : calls sum_iface true (bs "-0") tt (0, 0) = [CNeg tt 0] /\
  from_str [] 1 true TF64 (bs "-0") = Ok (VF64 (S754_zero false)) /\ from_str [] 1 true TF64 (bs "-0.0") = Ok (VF64 (S754_zero true)).
Proof. vm_compute. auto. Qed.
Example ex_C09_limits :
  calls sum_iface true (bs "18446744073709551615") tt (0, 0) = [CNonneg tt 18446744073709551615] /\
  calls sum_iface true (bs "-9223372036854775808") tt (0, 0) = [CNeg tt (-9223372036854775808)] /\
  exists f, calls sum_iface true (bs "18446744073709551616") tt (0, 0) = [CFloat tt f].
Proof. split; [vm_compute; reflexivity|]. split; [vm_compute; reflexivity|]. eexists. vm_compute. reflexivity. Qed.
Example ex_C10 : from_str [] 1 true (TInt true 8) (bs " -128") = Ok (VInt (-128)) /\ from_str [] 1 true (TInt true 8) (bs "128") = Err /\
  from_str [] 1 true (TInt false 8) (bs "255") = Ok (VInt 255) /\ from_str [] 1 true (TInt false 8) (bs "-0") = Err /\
  from_str [] 1 true (TInt true 8) (bs "-0") = Ok (VInt 0) /\ from_str [] 1 true (TInt false 8) (bs "1.0") = Err.
Proof. vm_compute. repeat split. Qed.
(** f32: infinity is silently returned. *)
Example ex_C14 : from_str [] 1 true TF32 (bs "1e300") = Ok (VF32 (S754_infinity false)) /\ from_str [] 1 true TF64 (bs "1e309") = Err.
Proof. vm_compute. auto. Qed.
