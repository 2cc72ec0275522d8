(** Numbers and events: the methods of Lexer.v compute [tok], without fault. *)
From Coq Require Import String ZArith List Bool Lia Floats.SpecFloat.
From Verif Require Import Base Utf8 Utf8Facts F64 Lexer Grammar LexSpec LexFacts RunFacts.
Import ListNotations.
Open Scope Z_scope.

Lemma overflow_spec a b c : 0 <= c -> 0 <= b <= 9 -> (overflow a b c = true <-> c < a * 10 + b).
Proof.
  intros Hc Hb. unfold overflow.
  rewrite andb_true_iff, orb_true_iff, Z.leb_le, !Z.ltb_lt.
  pose proof (Z.div_mod c 10). pose proof (Z.mod_pos_bound c 10). lia.
Qed.

Lemma overflow_false a b c : 0 <= c -> 0 <= b <= 9 -> (overflow a b c = false <-> a * 10 + b <= c).
Proof.
  intros Hc Hb. pose proof (overflow_spec a b c Hc Hb) as S.
  destruct (overflow a b c); split; intros; try discriminate; try reflexivity.
  - exfalso. pose proof (proj1 S eq_refl). lia.
  - destruct (Z.le_gt_cases (a * 10 + b) c); [assumption|].
    pose proof (proj2 S ltac:(lia)). discriminate.
Qed.

Lemma scan_digits_facts s ds r : scan_digits s = (ds, r) ->
  s = dtext ds ++ r /\ Forall digit ds /\ starts_digit r = false /\
  (str_ok s = true -> str_ok r = true).
Proof.
  revert ds r. induction s as [|c s IH]; intros ds r E; cbn in E.
  - injection E as <- <-. repeat split; auto.
  - destruct (is_digit c) eqn:D.
    + destruct (scan_digits s) as [ds' r'] eqn:E'. injection E as <- <-.
      destruct (IH _ _ eq_refl) as (-> & H1 & H2 & H3).
      apply is_digit_range in D. split; [unfold dtext; cbn [map app]; f_equal; lia|].
      split; [constructor; [unfold digit; lia | exact H1]|]. split; [exact H2|].
      intros K. apply H3. rewrite str_ok_ascii in K; [exact K | apply inr_true; lia].
    + injection E as <- <-. cbn. repeat split; auto.
Qed.

Lemma acc_exp_first d ds : 0 <= d <= 9 -> acc_exp 0 (d :: ds) = acc_exp d ds.
Proof.
  intros H. cbn [acc_exp].
  rewrite (proj2 (overflow_false 0 d i32_MAX ltac:(unfold i32_MAX; lia) H)) by (unfold i32_MAX; lia).
  f_equal.
Qed.
Lemma acc_int_first d ds : 0 <= d <= 9 -> acc_int 0 (d :: ds) = acc_int d ds.
Proof.
  intros H. cbn [acc_int].
  rewrite (proj2 (overflow_false 0 d u64_MAX ltac:(unfold u64_MAX; lia) H)) by (unfold u64_MAX; lia).
  f_equal.
Qed.

Section Num.
Variable oc : bool.
Variable inp : bytes.

Notation Sfx := (Sfx inp).
Notation lx := (lx inp).

Lemma Sfx_scan s ds r : scan_digits s = (ds, r) -> Sfx s -> Sfx r.
Proof.
  intros E H. apply scan_digits_facts in E. destruct E as (-> & _). eapply Sfx_app, H.
Qed.

Lemma skip_digits_eq s b fuel : Sfx s -> (List.length s < fuel)%nat ->
  skip_digits inp fuel (lx s b) = Ok (lx (snd (scan_digits s)) b).
Proof.
  revert fuel. induction s as [|c s IH]; intros fuel H L;
    (destruct fuel as [|fuel]; [lia|]); cbn [skip_digits];
    rewrite peek_or_nul_eq by exact H; cbn [bind hd0 scan_digits].
  - reflexivity.
  - destruct (is_digit c).
    + rewrite bump_cons by exact H. rewrite IH; [|eapply Sfx_tl, H|cbn in L; lia].
      destruct (scan_digits s). reflexivity.
    + reflexivity.
Qed.

Lemma skip_digits_len s b : Sfx s ->
  skip_digits inp (S (len inp)) (lx s b) = Ok (lx (snd (scan_digits s)) b).
Proof. intros H. apply skip_digits_eq; [exact H|]. apply Sfx_len in H. unfold len. lia. Qed.

Definition to_lex {A} (b : bytes) (r : res (A * bytes)) : res (A * lex) :=
  let* (a, s) := r in Ok (a, lx s b).

Lemma to_lex_with_rest {A} b (r : res A) s :
  to_lex b (with_rest r s) = let* a := r in Ok (a, lx s b).
Proof. destruct r; reflexivity. Qed.

(** ** Exponents *)
Lemma parse_exponent_loop_eq nn sig e pe s b fuel x :
  Sfx s -> (List.length s < fuel)%nat -> 0 <= x <= i32_MAX ->
  parse_exponent_loop oc inp fuel nn sig e pe x (lx s b) =
  let (ds, r) := scan_digits s in
  match acc_exp x ds with
  | None => if negb (sig =? 0) && pe then Err
            else Ok (if nn then f_zero else f64_neg f_zero, lx r b)
  | Some x' =>
      let* v := f64_from_parts nn sig (if pe then sat_i32 (e + x') else sat_i32 (e - x')) in
      Ok (v, lx r b)
  end.
Proof.
  revert fuel x. induction s as [|c s IH]; intros fuel x H L Hx;
    (destruct fuel as [|fuel]; [lia|]); cbn [parse_exponent_loop];
    rewrite peek_or_nul_eq by exact H; cbn [bind hd0 scan_digits].
  - reflexivity.
  - destruct (is_digit c) eqn:D.
    2:{ reflexivity. }
    apply is_digit_range in D. rewrite bump_cons by exact H.
    assert (H' : Sfx s) by (eapply Sfx_tl, H).
    destruct (scan_digits s) as [ds r] eqn:ES.
    cbn [acc_exp].
    destruct (overflow x (c - 48) i32_MAX) eqn:O.
    + unfold parse_exponent_overflow.
      destruct (negb (sig =? 0) && pe); [reflexivity|].
      rewrite skip_digits_len by exact H'. rewrite ES. reflexivity.
    + apply overflow_false in O; [|unfold i32_MAX; lia|lia].
      unfold chk_i32, chk.
      replace ((i32_MIN <=? x * 10 + (c - 48)) && (x * 10 + (c - 48) <=? i32_MAX)) with true
        by (symmetry; apply andb_true_iff; rewrite !Z.leb_le; unfold i32_MIN; lia).
      cbn [bind]. rewrite IH; [|exact H'|cbn in L; lia|lia]. reflexivity.
Qed.

Lemma parse_exponent_eq nn sig e c s b :
  Sfx (c :: s) -> is_e c = true ->
  parse_exponent oc inp nn sig e (lx (c :: s) b) =
  match p_exp (c :: s) with
  | None => Err
  | Some (ex, r) => let* v := exp_float nn sig e ex in Ok (v, lx r b)
  end.
Proof.
  intros H He. unfold parse_exponent, p_exp. rewrite He.
  rewrite bump_cons by exact H. assert (H1 : Sfx s) by (eapply Sfx_tl, H).
  rewrite peek_or_nul_eq by exact H1. cbn [bind].
  assert (G : forall sg s2, Sfx s2 ->
    (let* (c1, d2) := next_or_nul inp (lx s2 b) in
     if is_digit c1
     then parse_exponent_loop oc inp (S (len inp)) nn sig e (negb sg) (c1 - 48) d2
     else Err) =
    match (match scan_digits s2 with
           | ([], _) => None
           | (ds, r2) => Some (Some (sg, ds), r2) end) with
    | None => Err
    | Some (ex, r) => let* v := exp_float nn sig e ex in Ok (v, lx r b)
    end).
  { intros sg s2 H2. destruct s2 as [|c2 s2].
    { rewrite next_or_nul_nil. reflexivity. }
    rewrite next_or_nul_cons by exact H2. cbn [bind scan_digits].
    destruct (is_digit c2) eqn:D.
    2:{ reflexivity. }
    apply is_digit_range in D.
    assert (H3 : Sfx s2) by (eapply Sfx_tl, H2).
    rewrite parse_exponent_loop_eq;
      [|exact H3|apply Sfx_len in H3; unfold len; lia|unfold i32_MAX; lia].
    destruct (scan_digits s2) as [ds r2].
    unfold exp_float. rewrite acc_exp_first by lia.
    destruct (acc_exp (c2 - 48) ds).
    - destruct sg; reflexivity.
    - destruct (negb (sig =? 0) && negb sg); reflexivity. }
  unfold p_sign. destruct s as [|c1 s1].
  - cbn [hd0]. cbn [Z.eqb]. apply (G false [] H1).
  - cbn [hd0]. destruct (Z.eqb_spec c1 43).
    { subst c1. rewrite bump_cons by exact H1. apply (G false s1). eapply Sfx_tl, H1. }
    destruct (Z.eqb_spec c1 45).
    { subst c1. rewrite bump_cons by exact H1. apply (G true s1). eapply Sfx_tl, H1. }
    apply (G false (c1 :: s1) H1).
Qed.

Lemma p_exp_none s : is_e (hd0 s) = false -> p_exp s = Some (None, s).
Proof. destruct s as [|c s]; cbn; [reflexivity|]. intros ->. reflexivity. Qed.

Lemma is_e_hd s : is_e (hd0 s) = true -> exists c r, s = c :: r /\ is_e c = true.
Proof. destruct s as [|c s]; cbn; [discriminate|]. eauto. Qed.

(** What follows the digits: an optional exponent. *)
Lemma exponent_or_end nn sig e s b : Sfx s ->
  (let* c := peek_or_nul inp (lx s b) in
   if is_e c then parse_exponent oc inp nn sig e (lx s b)
   else let* x := f64_from_parts nn sig e in Ok (x, lx s b)) =
  match p_exp s with
  | None => Err
  | Some (ex, r) => let* v := exp_float nn sig e ex in Ok (v, lx r b)
  end.
Proof.
  intros H. rewrite peek_or_nul_eq by exact H. cbn [bind].
  destruct (is_e (hd0 s)) eqn:Ee.
  - destruct (is_e_hd _ Ee) as (c & r & -> & Hc). apply parse_exponent_eq; assumption.
  - rewrite p_exp_none by exact Ee. reflexivity.
Qed.

(** ** Fractions *)
Lemma parse_decimal_loop_eq s b fuel r e one :
  Sfx s -> (List.length s < fuel)%nat -> 0 <= r <= u64_MAX ->
  i32_MIN + run s <= e <= i32_MAX ->
  parse_decimal_loop oc inp fuel r e one (lx s b) =
  let (ds, s') := scan_digits s in
  let (r', e') := acc_frac r e ds in
  Ok (r', e', (one || negb (match ds with [] => true | _ => false end))%bool, lx s' b).
Proof.
  revert fuel r e one. induction s as [|c s IH]; intros fuel r e one H L Hr He;
    (destruct fuel as [|fuel]; [lia|]); cbn [parse_decimal_loop];
    rewrite peek_or_nul_eq by exact H; cbn [bind hd0 scan_digits].
  - cbn. rewrite orb_false_r. reflexivity.
  - destruct (is_digit c) eqn:D.
    2:{ cbn. rewrite orb_false_r. reflexivity. }
    rewrite run_cons in He by exact D. pose proof (run_nonneg s) as HR.
    apply is_digit_range in D. rewrite bump_cons by exact H.
    assert (H' : Sfx s) by (eapply Sfx_tl, H).
    rewrite skip_digits_len by exact H'.
    destruct (overflow r (c - 48) u64_MAX) eqn:O.
    + destruct (scan_digits s) as [ds r'] eqn:ES. cbn [acc_frac]. rewrite O.
      cbn [bind]. cbn [negb]. rewrite orb_true_r. reflexivity.
    + pose proof O as O'. apply overflow_false in O'; [|unfold u64_MAX; lia|lia].
      unfold chk_u64, chk_i32, chk.
      replace ((0 <=? r * 10 + (c - 48)) && (r * 10 + (c - 48) <=? u64_MAX)) with true
        by (symmetry; apply andb_true_iff; rewrite !Z.leb_le; lia).
      replace ((i32_MIN <=? e - 1) && (e - 1 <=? i32_MAX)) with true
        by (symmetry; apply andb_true_iff; rewrite !Z.leb_le; lia).
      cbn [bind]. rewrite IH; [|exact H'|cbn in L; lia|lia|lia].
      destruct (scan_digits s) as [ds r'] eqn:ES. cbn [acc_frac]. rewrite O.
      destruct (acc_frac (r * 10 + (c - 48)) (e - 1) ds).
      cbn [negb orb]. rewrite orb_true_r. reflexivity.
Qed.

Lemma parse_decimal_eq nn r e s b :
  Sfx (46 :: s) -> 0 <= r <= u64_MAX ->
  i32_MIN + run s <= e <= i32_MAX ->
  parse_decimal oc inp nn r e (lx (46 :: s) b) =
  match p_frac (46 :: s) with
  | None => Err
  | Some (f, s1) =>
      match p_exp s1 with
      | None => Err
      | Some (ex, s2) => let* v := frac_float nn r e f ex in Ok (v, lx s2 b)
      end
  end.
Proof.
  intros H Hr He. unfold parse_decimal, p_frac. cbn [Z.eqb Pos.eqb].
  rewrite bump_cons by exact H. assert (H' : Sfx s) by (eapply Sfx_tl, H).
  rewrite parse_decimal_loop_eq; [|exact H'|apply Sfx_len in H'; unfold len; lia|exact Hr|exact He].
  destruct (scan_digits s) as [ds s1] eqn:ES. destruct ds as [|d ds].
  - cbn. reflexivity.
  - destruct (acc_frac r e (d :: ds)) as [r' e'] eqn:EA.
    cbn [bind orb negb].
    rewrite exponent_or_end by (eapply Sfx_scan; eassumption).
    unfold frac_float. rewrite EA. reflexivity.
Qed.

(** What follows the integer digits: an optional fraction and exponent. *)
Lemma frac_or_end nn r e s b :
  Sfx s -> digit_runs i32_MAX s -> 0 <= r <= u64_MAX -> 0 <= e <= i32_MAX ->
  (let* c := peek_or_nul inp (lx s b) in
   if c =? 46 then parse_decimal oc inp nn r e (lx s b)
   else if is_e c then parse_exponent oc inp nn r e (lx s b)
   else let* x := f64_from_parts nn r e in Ok (x, lx s b)) =
  match p_frac s with
  | None => Err
  | Some (f, s1) =>
      match p_exp s1 with
      | None => Err
      | Some (ex, s2) => let* v := frac_float nn r e f ex in Ok (v, lx s2 b)
      end
  end.
Proof.
  intros H HR Hr He. rewrite peek_or_nul_eq by exact H. cbn [bind].
  destruct (Z.eqb_spec (hd0 s) 46) as [E|E].
  - destruct s as [|c s]; cbn [hd0] in E; [discriminate|]. subst c.
    apply parse_decimal_eq; [exact H|exact Hr|]. apply runs_tl in HR; [|lia]. apply run_bound in HR. unfold i32_MIN, i32_MAX in *. lia.
  - assert (P : p_frac s = Some (None, s)).
    { destruct s as [|c s]; [reflexivity|]. cbn [hd0] in E. unfold p_frac.
      destruct (Z.eqb_spec c 46); [congruence|reflexivity]. }
    rewrite P. unfold frac_float.
    pose proof (exponent_or_end nn r e s b H) as X.
    rewrite peek_or_nul_eq in X by exact H. cbn [bind] in X. exact X.
Qed.

Lemma parse_long_integer_eq nn r e s b fuel :
  Sfx s -> digit_runs i32_MAX s -> (List.length s < fuel)%nat -> 0 <= r <= u64_MAX ->
  1 <= e -> e + run s <= i32_MAX ->
  parse_long_integer oc inp fuel nn r e (lx s b) =
  let (ds, s0) := scan_digits s in
  match p_frac s0 with
  | None => Err
  | Some (f, s1) =>
      match p_exp s1 with
      | None => Err
      | Some (ex, s2) =>
          let* v := frac_float nn r (e + Z.of_nat (List.length ds)) f ex in Ok (v, lx s2 b)
      end
  end.
Proof.
  revert fuel e. induction s as [|c s IH]; intros fuel e H HR L Hr He He2;
    (destruct fuel as [|fuel]; [lia|]); cbn [parse_long_integer].
  - rewrite peek_or_nul_eq by exact H. cbn [bind hd0].
    pose proof (frac_or_end nn r e [] b H HR Hr) as X. rewrite peek_or_nul_eq in X by exact H.
    cbn [bind hd0] in X. unfold is_digit. cbn [Z.leb Z.compare andb]. rewrite X.
    + cbn [scan_digits List.length]. rewrite Z.add_0_r. reflexivity.
    + pose proof (run_nonneg []). lia.
  - destruct (is_digit c) eqn:D.
    + rewrite peek_or_nul_eq by exact H. cbn [bind hd0 scan_digits]. rewrite D.
      rewrite run_cons in He2 by exact D. pose proof (run_nonneg s) as HN.
      unfold chk_i32, chk.
      replace ((i32_MIN <=? e + 1) && (e + 1 <=? i32_MAX)) with true
        by (symmetry; apply andb_true_iff; rewrite !Z.leb_le; unfold i32_MIN; lia).
      cbn [bind]. rewrite bump_cons by exact H.
      rewrite IH; [|eapply Sfx_tl, H|apply is_digit_range in D; eapply runs_tl, HR; lia|cbn in L; lia|exact Hr|lia|lia].
      destruct (scan_digits s) as [ds s0].
      cbn [List.length]. rewrite Nat2Z.inj_succ.
      replace (e + 1 + Z.of_nat (List.length ds)) with (e + Z.succ (Z.of_nat (List.length ds))) by lia.
      reflexivity.
    + pose proof (frac_or_end nn r e (c :: s) b H HR Hr) as X.
      rewrite peek_or_nul_eq in X |- * by exact H. cbn [bind hd0] in X |- *.
      rewrite D, X.
      * cbn [scan_digits]. rewrite D. cbn [List.length]. rewrite Z.add_0_r. reflexivity.
      * pose proof (run_nonneg (c :: s)). lia.
Qed.

(** ** Integers *)

(** The event for significand [r] when [rest] digits did not fit. *)
Definition int_event (nn : bool) (r : Z) (rest : list Z) (f : option (list Z))
    (ex : option (bool * list Z)) : res event :=
  match rest with
  | [] =>
      match f, ex with
      | None, None =>
          Ok (if nn then ENonneg r
              else if 0 <? wrap_s 64 (- wrap_s 64 r) then EFloat (f64_neg (f64_of_Z r))
              else ENeg (wrap_s 64 (- wrap_s 64 r)))
      | f, e => float_event (frac_float nn r 0 f e)
      end
  | _ => float_event (frac_float nn r (Z.of_nat (List.length rest)) f ex)
  end.

Lemma parse_number_eq nn r s b : Sfx s -> digit_runs i32_MAX s -> 0 <= r <= u64_MAX ->
  parse_number oc inp nn r (lx s b) =
  match p_frac s with
  | None => Err
  | Some (f, s1) =>
      match p_exp s1 with
      | None => Err
      | Some (ex, s2) => let* ev := int_event nn r [] f ex in Ok (ev, lx s2 b)
      end
  end.
Proof.
  intros H HR Hr. unfold parse_number. rewrite peek_or_nul_eq by exact H. cbn [bind].
  pose proof (Sfx_len _ _ H) as L.
  destruct (Z.eqb_spec (hd0 s) 46) as [E|E].
  - destruct s as [|c s]; cbn [hd0] in E; [discriminate|]. subst c.
    rewrite parse_decimal_eq; [|exact H|exact Hr|apply runs_tl in HR; [|lia]; apply run_bound in HR; unfold i32_MIN, i32_MAX in *; lia].
    destruct (p_frac (46 :: s)) as [[f s1]|] eqn:EF; [|reflexivity].
    destruct (p_exp s1) as [[ex s2]|]; [|reflexivity].
    assert (exists ds, f = Some ds) as [ds ->].
    { unfold p_frac in EF. cbn [Z.eqb Pos.eqb] in EF.
      destruct (scan_digits s) as [[|d ds] s0]; [discriminate|].
      injection EF as <- <-. eauto. }
    unfold int_event, float_event. destruct (frac_float _ _ _ _ _); reflexivity.
  - assert (P : p_frac s = Some (None, s)).
    { destruct s as [|c s]; [reflexivity|]. cbn [hd0] in E. unfold p_frac.
      destruct (Z.eqb_spec c 46); [congruence|reflexivity]. }
    rewrite P.
    destruct (is_e (hd0 s)) eqn:Ee.
    + destruct (is_e_hd _ Ee) as (c & s' & -> & Hc).
      rewrite parse_exponent_eq by assumption.
      destruct (p_exp (c :: s')) as [[ex s2]|] eqn:EX; [|reflexivity].
      assert (exists x, ex = Some x) as [x ->].
      { unfold p_exp in EX. rewrite Hc in EX. destruct (p_sign s') as [sg s1].
        destruct (scan_digits s1) as [[|d ds] s0]; [discriminate|].
        injection EX as <- <-. eauto. }
      unfold int_event, float_event, frac_float. destruct (exp_float _ _ _ _); reflexivity.
    + rewrite p_exp_none by exact Ee. cbn [int_event bind]. destruct nn; [reflexivity|].
      destruct (0 <? _); reflexivity.
Qed.

Lemma parse_integer_loop_eq nn r s b fuel :
  Sfx s -> digit_runs i32_MAX s -> (List.length s < fuel)%nat -> 0 <= r <= u64_MAX ->
  parse_integer_loop oc inp fuel nn r (lx s b) =
  let (ds, s0) := scan_digits s in
  let (r', rest) := acc_int r ds in
  match p_frac s0 with
  | None => Err
  | Some (f, s1) =>
      match p_exp s1 with
      | None => Err
      | Some (ex, s2) => let* ev := int_event nn r' rest f ex in Ok (ev, lx s2 b)
      end
  end.
Proof.
  revert fuel r. induction s as [|c s IH]; intros fuel r H HR L Hr;
    (destruct fuel as [|fuel]; [lia|]); cbn [parse_integer_loop];
    rewrite peek_or_nul_eq by exact H; cbn [bind hd0 scan_digits].
  - rewrite parse_number_eq by assumption. reflexivity.
  - destruct (is_digit c) eqn:D.
    2:{ rewrite parse_number_eq by assumption. reflexivity. }
    pose proof (run_bound _ _ HR) as HB. rewrite run_cons in HB by exact D.
    apply is_digit_range in D. rewrite bump_cons by exact H.
    assert (H' : Sfx s) by (eapply Sfx_tl, H). assert (HR' : digit_runs i32_MAX s) by (eapply runs_tl, HR; lia).
    destruct (overflow r (c - 48) u64_MAX) eqn:O.
    + rewrite parse_long_integer_eq;
        [|exact H'|exact HR'|apply Sfx_len in H'; unfold len; lia|exact Hr|lia|lia].
      destruct (scan_digits s) as [ds s0]. cbn [acc_int]. rewrite O.
      destruct (p_frac s0) as [[f s1]|]; [|reflexivity].
      destruct (p_exp s1) as [[ex s2]|]; [|reflexivity].
      cbn [int_event List.length]. rewrite Nat2Z.inj_succ.
      replace (1 + Z.of_nat (List.length ds)) with (Z.succ (Z.of_nat (List.length ds))) by lia.
      unfold float_event. destruct (frac_float _ _ _ _ _); reflexivity.
    + pose proof O as O'. apply overflow_false in O'; [|unfold u64_MAX; lia|lia].
      unfold chk_u64, chk.
      replace ((0 <=? r * 10 + (c - 48)) && (r * 10 + (c - 48) <=? u64_MAX)) with true
        by (symmetry; apply andb_true_iff; rewrite !Z.leb_le; lia).
      cbn [bind]. rewrite IH; [|exact H'|exact HR'|cbn in L; lia|lia].
      destruct (scan_digits s) as [ds s0]. cbn [acc_int]. rewrite O. reflexivity.
Qed.

Lemma parse_integer_eq neg c s b :
  Sfx (c :: s) -> digit_runs i32_MAX (c :: s) ->
  parse_integer oc inp (negb neg) c (lx s b) =
  to_lex b (match p_unsigned neg (c :: s) with
            | Some (n, r) => with_rest (lit_event n) r
            | None => Err
            end).
Proof.
  intros H HR. unfold parse_integer, p_unsigned, p_int.
  assert (H' : Sfx s) by (eapply Sfx_tl, H).
  assert (T : forall (r : Z) (i rest : list Z) s0, acc_int 0 i = (r, rest) ->
    match p_frac s0 with
    | None => Err
    | Some (f, s1) =>
        match p_exp s1 with
        | None => Err
        | Some (ex, s2) => let* ev := int_event (negb neg) r rest f ex in Ok (ev, lx s2 b)
        end
    end =
    to_lex b (match (match p_frac s0 with
              | None => None
              | Some (f, s2) =>
                  match p_exp s2 with
                  | None => None
                  | Some (e, s3) => Some (mknum neg i f e, s3)
                  end
              end) with
            | Some (n, r) => with_rest (lit_event n) r
            | None => Err
            end)).
  { intros r i rest s0 E. destruct (p_frac s0) as [[f s1]|]; [|reflexivity].
    destruct (p_exp s1) as [[ex s2]|]; [|reflexivity].
    rewrite to_lex_with_rest. unfold lit_event. cbn [n_neg n_int n_frac n_exp]. rewrite E.
    destruct rest, f, ex; reflexivity. }
  destruct (Z.eqb_spec c 48).
  - rewrite peek_or_nul_eq by exact H'. cbn [bind].
    assert (D : is_digit (hd0 s) = starts_digit s) by (destruct s; reflexivity).
    rewrite D. destruct (starts_digit s); [reflexivity|].
    rewrite parse_number_eq; [|exact H'|eapply runs_tl, HR; lia|unfold u64_MAX; lia].
    apply T. reflexivity.
  - destruct (is_digit19 c) eqn:D19; [|reflexivity].
    assert (D : is_digit c = true /\ 1 <= c - 48 <= 9).
    { unfold is_digit19 in D19. apply andb_true_iff in D19. rewrite !Z.leb_le in D19.
      rewrite is_digit_range. lia. }
    destruct D as [D Dr].
    pose proof (Sfx_len _ _ H) as L. cbn in L.
    rewrite parse_integer_loop_eq; [|exact H'|apply is_digit_range in D; eapply runs_tl, HR; lia|unfold len; lia|unfold u64_MAX; lia].
    cbn [scan_digits]. rewrite D.
    destruct (scan_digits s) as [ds s0] eqn:ES.
    destruct (acc_int (c - 48) ds) as [r rest] eqn:EA.
    apply T. rewrite acc_int_first by lia. exact EA.
Qed.

(** ** Events *)
Lemma parse_ident_eq i s b : Sfx s ->
  parse_ident inp i (lx s b) = match p_ident i s with Some r => Ok (lx r b) | None => Err end.
Proof.
  revert s. induction i as [|c i IH]; intros s H; cbn [parse_ident p_ident]; [reflexivity|].
  destruct s as [|x s]; [rewrite next_nil; reflexivity|].
  rewrite next_cons by exact H. cbn [bind].
  destruct (x =? c); cbn [negb]; [|reflexivity]. apply IH. eapply Sfx_tl, H.
Qed.

End Num.

(** The token functions consume at least one byte and keep UTF-8 validity. *)
Definition consumes (s r : bytes) : Prop :=
  (exists h, s = h ++ r /\ h <> []) /\ (str_ok s = true -> str_ok r = true).

Lemma consumes_cons c s : inr 0 127 c = true -> consumes (c :: s) s.
Proof.
  intros H. split; [exists [c]; split; [reflexivity|discriminate]|].
  rewrite str_ok_ascii by exact H. auto.
Qed.
Lemma consumes_trans a b c : consumes a b -> consumes b c -> consumes a c.
Proof.
  intros [(h1 & -> & N1) K1] [(h2 & -> & N2) K2]. split; [|auto].
  exists (h1 ++ h2). split; [rewrite <- app_assoc; reflexivity|].
  destruct h1; [congruence|discriminate].
Qed.
Definition consumes0 (s r : bytes) : Prop := s = r \/ consumes s r.
Lemma consumes0_trans_l a b c : consumes a b -> consumes0 b c -> consumes a c.
Proof. intros H [<-|K]; [exact H|eapply consumes_trans; eassumption]. Qed.
Lemma consumes0_trans a b c : consumes0 a b -> consumes0 b c -> consumes0 a c.
Proof. intros [->|H] K; [exact K|]. right. eapply consumes0_trans_l; eassumption. Qed.

Lemma consumes_len s r : consumes s r -> (List.length r < List.length s)%nat.
Proof.
  intros [(h & -> & N) _]. rewrite app_length. destruct h; [congruence|cbn; lia].
Qed.
Lemma consumes_Sfx inp s r : consumes s r -> Sfx inp s -> Sfx inp r.
Proof. intros [(h & -> & N) _] H. eapply Sfx_app, H. Qed.

Lemma scan_consumes s ds r : scan_digits s = (ds, r) -> consumes0 s r.
Proof.
  intros E. apply scan_digits_facts in E. destruct E as (E & _ & _ & K).
  destruct ds as [|d ds]; [left; exact E|]. right. split; [|exact K].
  exists (dtext (d :: ds)). split; [exact E|discriminate].
Qed.

Lemma p_int_consumes s i r : p_int s = Some (i, r) -> consumes s r.
Proof.
  unfold p_int. destruct s as [|c s]; [discriminate|].
  destruct (Z.eqb_spec c 48).
  - destruct (starts_digit s); [discriminate|]. intros [= <- <-]. subst c.
    apply consumes_cons. reflexivity.
  - destruct (is_digit19 c) eqn:D; [|discriminate]. intros E. injection E as E.
    assert (D' : is_digit c = true).
    { unfold is_digit19 in D. apply andb_true_iff in D. rewrite !Z.leb_le in D.
      rewrite is_digit_range. lia. }
    cbn in E. rewrite D' in E. destruct (scan_digits s) as [ds r'] eqn:ES.
    injection E as <- <-. apply is_digit_range in D'.
    eapply consumes0_trans_l; [apply consumes_cons; apply inr_true; lia|].
    eapply scan_consumes, ES.
Qed.
Lemma p_frac_consumes s f r : p_frac s = Some (f, r) -> consumes0 s r.
Proof.
  unfold p_frac. destruct s as [|c s]; [intros [= <- <-]; left; reflexivity|].
  destruct (Z.eqb_spec c 46); [|intros [= <- <-]; left; reflexivity].
  destruct (scan_digits s) as [[|d ds] r'] eqn:ES; [discriminate|]. intros [= <- <-].
  right. eapply consumes0_trans_l; [apply consumes_cons; subst; reflexivity|].
  eapply scan_consumes, ES.
Qed.
Lemma p_sign_consumes s sg r : p_sign s = (sg, r) -> consumes0 s r.
Proof.
  unfold p_sign. destruct s as [|c s]; [intros [= <- <-]; left; reflexivity|].
  destruct (Z.eqb_spec c 43).
  { intros [= <- <-]. right. subst c. apply consumes_cons. reflexivity. }
  destruct (Z.eqb_spec c 45).
  { intros [= <- <-]. right. subst c. apply consumes_cons. reflexivity. }
  intros [= <- <-]; left; reflexivity.
Qed.
Lemma p_exp_consumes s f r : p_exp s = Some (f, r) -> consumes0 s r.
Proof.
  unfold p_exp. destruct s as [|c s]; [intros [= <- <-]; left; reflexivity|].
  destruct (is_e c) eqn:Ee; [|intros [= <- <-]; left; reflexivity].
  destruct (p_sign s) as [sg s1] eqn:E1.
  destruct (scan_digits s1) as [[|d ds] r'] eqn:ES; [discriminate|]. intros [= <- <-].
  right. eapply consumes0_trans_l; [apply consumes_cons|].
  { unfold is_e in Ee. apply orb_true_iff in Ee. rewrite !Z.eqb_eq in Ee.
    apply inr_true. lia. }
  eapply consumes0_trans; [eapply p_sign_consumes, E1|eapply scan_consumes, ES].
Qed.
Lemma p_unsigned_consumes neg s n r : p_unsigned neg s = Some (n, r) -> consumes s r.
Proof.
  unfold p_unsigned. destruct (p_int s) as [[i s1]|] eqn:E1; [|discriminate].
  destruct (p_frac s1) as [[f s2]|] eqn:E2; [|discriminate].
  destruct (p_exp s2) as [[e s3]|] eqn:E3; [|discriminate].
  intros [= <- <-].
  eapply consumes0_trans_l; [eapply p_int_consumes, E1|].
  eapply consumes0_trans; [eapply p_frac_consumes, E2|eapply p_exp_consumes, E3].
Qed.
Lemma p_ident_consumes i s r :
  forallb (inr 0 127) i = true -> p_ident i s = Some r -> consumes0 s r.
Proof.
  revert s. induction i as [|c i IH]; intros s Hi E; cbn in E.
  - injection E as <-. left. reflexivity.
  - destruct s as [|x s]; [discriminate|]. destruct (Z.eqb_spec x c); [|discriminate].
    cbn in Hi. apply andb_true_iff in Hi. destruct Hi as [Hc Hi]. subst x.
    right. eapply consumes0_trans_l; [apply consumes_cons, Hc|]. apply IH; assumption.
Qed.
Lemma p_string_consumes s t r : p_string s = Some (t, r) -> consumes s r.
Proof. intros E. exact (p_string_facts _ _ _ E). Qed.
Lemma skip_ws_consumes s : consumes0 s (skip_ws s).
Proof.
  induction s as [|c s IH]; [left; reflexivity|]. cbn. destruct (is_ws c) eqn:E.
  - right. eapply consumes0_trans_l; [apply consumes_cons|exact IH].
    unfold is_ws in E. rewrite !orb_true_iff, !Z.eqb_eq in E. apply inr_true. lia.
  - left. reflexivity.
Qed.

Lemma tok_consumes s ev r : tok s = Ok (ev, r) -> consumes s r.
Proof.
  unfold tok. intros E.
  destruct (skip_ws_consumes s) as [Q|Q]; [|].
  all: destruct (skip_ws s) as [|c s1]; [discriminate|].
  1: rewrite Q; clear Q s.
  2: eapply consumes_trans; [exact Q|]; clear Q s.
  all: assert (W : forall {A} (x : res A) (a : A) t, with_rest x t = Ok (a, r) -> t = r)
    by (intros ? [?| |?] ? ?; cbn; congruence).
  all: destruct (Z.eqb_spec c 34) as [->|];
    [eapply consumes_trans; [apply consumes_cons; reflexivity|];
     destruct (p_string s1) as [[x r']|] eqn:E1; [|discriminate];
     injection E as <- <-; eapply p_string_consumes, E1|].
  all: destruct (is_digit c) eqn:D;
    [destruct (p_unsigned false (c :: s1)) as [[n0 r']|] eqn:E1; [|discriminate];
     apply W in E; subst r'; eapply p_unsigned_consumes, E1|].
  all: destruct (Z.eqb_spec c 45) as [->|];
    [eapply consumes_trans; [apply consumes_cons; reflexivity|];
     destruct (p_unsigned true s1) as [[n0 r']|] eqn:E1; [|discriminate];
     apply W in E; subst r'; eapply p_unsigned_consumes, E1|].
  all: destruct (Z.eqb_spec c 123) as [->|]; [injection E as <- <-; apply consumes_cons; reflexivity|].
  all: destruct (Z.eqb_spec c 91) as [->|]; [injection E as <- <-; apply consumes_cons; reflexivity|].
  all: destruct (Z.eqb_spec c 110) as [->|];
    [destruct (p_ident (bs "ull") s1) as [r'|] eqn:E1; [|discriminate]; injection E as <- <-;
     eapply consumes0_trans_l; [apply consumes_cons; reflexivity|];
     eapply p_ident_consumes, E1; reflexivity|].
  all: destruct (Z.eqb_spec c 116) as [->|];
    [destruct (p_ident (bs "rue") s1) as [r'|] eqn:E1; [|discriminate]; injection E as <- <-;
     eapply consumes0_trans_l; [apply consumes_cons; reflexivity|];
     eapply p_ident_consumes, E1; reflexivity|].
  all: destruct (Z.eqb_spec c 102) as [->|];
    [destruct (p_ident (bs "alse") s1) as [r'|] eqn:E1; [|discriminate]; injection E as <- <-;
     eapply consumes0_trans_l; [apply consumes_cons; reflexivity|];
     eapply p_ident_consumes, E1; reflexivity|].
  all: discriminate.
Qed.

(** [event_next] computes [tok]; the strings it produces are valid UTF-8. *)
Definition ev_ok (ev : event) : Prop :=
  match ev with EStr s => str_ok s = true | _ => True end.

Section Event.
Variable oc : bool.
Variable inp : bytes.

Notation Sfx := (Sfx inp).
Notation lx := (lx inp).

Lemma event_next_eq s b : Sfx s -> str_ok s = true -> digit_runs i32_MAX s ->
  match tok s with
  | Ok (ev, r) => exists b', event_next oc inp (lx s b) = Ok (ev, lx r b') /\ ev_ok ev
  | Err => event_next oc inp (lx s b) = Err
  | Fault f => False
  end.
Proof.
  intros H Hs HR. unfold event_next, tok.
  rewrite parse_whitespace_eq by exact H. cbn [bind].
  assert (H1 : Sfx (skip_ws s)) by (apply Sfx_skip_ws, H).
  assert (Hs1 : str_ok (skip_ws s) = true).
  { destruct (skip_ws_consumes s) as [<-|[_ K]]; auto. }
  pose proof (passes_runs _ _ _ (skip_ws_passes s) HR) as HR1.
  destruct (skip_ws s) as [|c s1]; [reflexivity|]. clear H Hs HR s.
  rewrite bump_cons by exact H1. assert (H2 : Sfx s1) by (eapply Sfx_tl, H1).
  assert (N : forall neg n r, p_unsigned neg (c :: s1) = Some (n, r) \/ True -> True) by auto. clear N.
  assert (LE : forall n ev, lit_event n = Ok ev -> ev_ok ev).
  { clear. intros n ev. unfold lit_event. destruct (acc_int 0 (n_int n)) as [r [|d rest]].
    - destruct (n_frac n), (n_exp n); unfold float_event;
        try (destruct (frac_float _ _ _ _ _); cbn; intros [= <-]; exact I).
      intros [= <-]. destruct (negb (n_neg n)); [exact I|]. destruct (0 <? _); exact I.
    - unfold float_event. destruct (frac_float _ _ _ _ _); cbn; intros [= <-]; exact I. }
  assert (PI : forall neg c s, Sfx (c :: s) -> digit_runs i32_MAX (c :: s) ->
    match (match p_unsigned neg (c :: s) with
           | Some (n, r) => with_rest (lit_event n) r | None => Err end) with
    | Ok (ev, r) => exists b', parse_integer oc inp (negb neg) c (lx s b) = Ok (ev, lx r b') /\ ev_ok ev
    | Err => parse_integer oc inp (negb neg) c (lx s b) = Err
    | Fault f => False
    end).
  { intros neg x t Hx HRx. rewrite (parse_integer_eq oc inp) by assumption.
    destruct (p_unsigned neg (x :: t)) as [[n0 r]|]; [|reflexivity].
    destruct (lit_event n0) as [ev| |f] eqn:El; cbn.
    - exists b. split; [reflexivity|]. eapply LE, El.
    - reflexivity.
    - exact (lit_event_nofault _ _ El). }
  destruct (Z.eqb_spec c 34) as [->|].
  { rewrite str_ok_ascii in Hs1 by reflexivity.
    pose proof (parse_str_eq oc inp s1 b H2 Hs1) as P.
    destruct (p_string s1) as [[t r]|].
    - destruct P as (b' & E & Ht). exists b'. rewrite E. split; [reflexivity | exact Ht].
    - rewrite P. reflexivity. }
  destruct (is_digit c) eqn:D.
  { exact (PI false c s1 H1 HR1). }
  destruct (Z.eqb_spec c 45) as [->|].
  { destruct s1 as [|x t].
    - rewrite next_or_nul_nil. reflexivity.
    - rewrite next_or_nul_cons by exact H2. cbn [bind]. exact (PI true x t H2 (runs_tl i32_MAX 45 (x :: t) ltac:(lia) HR1)). }
  destruct (c =? 123); [exists b; split; [reflexivity|exact I]|].
  destruct (c =? 91); [exists b; split; [reflexivity|exact I]|].
  rewrite !parse_ident_eq by exact H2.
  destruct (c =? 110); [destruct (p_ident (bs "ull") s1); [exists b; split; [reflexivity|exact I]|reflexivity]|].
  destruct (c =? 116); [destruct (p_ident (bs "rue") s1); [exists b; split; [reflexivity|exact I]|reflexivity]|].
  destruct (c =? 102); [destruct (p_ident (bs "alse") s1); [exists b; split; [reflexivity|exact I]|reflexivity]|].
  reflexivity.
Qed.

End Event.
