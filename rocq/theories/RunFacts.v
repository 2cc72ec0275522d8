(** Runs of digits: consuming a token keeps the bound. *)
From Coq Require Import String ZArith List Bool Lia Floats.SpecFloat.
From Verif Require Import Base Utf8 Utf8Facts F64 Lexer Grammar LexSpec LexFacts.
Import ListNotations.
Open Scope Z_scope.

Lemma is_digit_range c : is_digit c = true <-> 48 <= c <= 57.
Proof. unfold is_digit. rewrite andb_true_iff, !Z.leb_le. tauto. Qed.

Lemma blank_length s : forall m, List.length (blank m s) = List.length s.
Proof. induction s as [|c s IH]; intros m; [reflexivity|]. cbn [blank List.length]. rewrite IH. reflexivity. Qed.
(** A text of at most m bytes has no longer runs. *)
Lemma runs_of_length m s : Z.of_nat (List.length s) <= m -> digit_runs m s.
Proof.
  intros H a ds b E _. apply (f_equal (@List.length Z)) in E. rewrite blank_length, !app_length in E. unfold dtext in E. rewrite map_length in E. lia.
Qed.
Lemma runs_mono m n s : m <= n -> digit_runs m s -> digit_runs n s.
Proof. intros H K a ds b E HD. specialize (K a ds b E HD). lia. Qed.

Definition qend (m : qmode) (p : bytes) : qmode := fold_left qnext p m.
Lemma blank_app p : forall m r, blank m (p ++ r) = blank m p ++ blank (qend m p) r.
Proof. induction p as [|c p IH]; intros m r; [reflexivity|]. cbn [app blank qend fold_left]. rewrite IH. reflexivity. Qed.

(** [passes s r]: what is left after consuming a balanced part. *)
Definition passes (s r : bytes) : Prop := exists p, s = p ++ r /\ qend QOut p = QOut.
Lemma passes_runs m s r : passes s r -> digit_runs m s -> digit_runs m r.
Proof.
  intros (p & -> & Q) H a ds b E HD. apply (H (blank QOut p ++ a) ds b); [|exact HD]. rewrite blank_app, Q, E, app_assoc. reflexivity.
Qed.
Lemma passes_refl s : passes s s.
Proof. exists []. split; reflexivity. Qed.
Lemma passes_trans a b c : passes a b -> passes b c -> passes a c.
Proof.
  intros (p & -> & P) (q & -> & Q). exists (p ++ q). split; [rewrite app_assoc; reflexivity|]. unfold qend in *. rewrite fold_left_app, P. exact Q.
Qed.
Lemma passes_cons c s : c <> 34 -> passes (c :: s) s.
Proof. intros H. exists [c]. split; [reflexivity|]. cbn. rewrite (proj2 (Z.eqb_neq c 34) H). reflexivity. Qed.
Lemma qend_out p : Forall (fun c => c <> 34) p -> qend QOut p = QOut.
Proof. unfold qend. induction 1 as [|c p H _ IH]; [reflexivity|]. cbn. rewrite (proj2 (Z.eqb_neq c 34) H). exact IH. Qed.
Lemma passes_plain p s : Forall (fun c => c <> 34) p -> passes (p ++ s) s.
Proof. intros H. exists p. split; [reflexivity|apply qend_out, H]. Qed.
Lemma dtext_plain ds : Forall digit ds -> Forall (fun c => c <> 34) (dtext ds).
Proof. unfold dtext. induction 1 as [|d ds H _ IH]; cbn [map]; constructor; [unfold digit in H; lia|exact IH]. Qed.
Lemma scan_passes s ds r : scan_digits s = (ds, r) -> passes s r.
Proof.
  revert ds r. induction s as [|c s IH]; cbn [scan_digits]; intros ds r.
  - intros [= <- <-]. apply passes_refl.
  - destruct (is_digit c) eqn:D; [|intros [= <- <-]; apply passes_refl]. destruct (scan_digits s) as [ds' r']. intros [= <- <-].
    apply is_digit_range in D. eapply passes_trans; [apply passes_cons; lia|]. eapply IH. reflexivity.
Qed.
Lemma skip_ws_passes s : passes s (skip_ws s).
Proof.
  induction s as [|c s IH]; [apply passes_refl|]. cbn [skip_ws]. destruct (is_ws c) eqn:E; [|apply passes_refl].
  eapply passes_trans; [apply passes_cons|exact IH]. unfold is_ws in E. rewrite !orb_true_iff, !Z.eqb_eq in E. lia.
Qed.
Lemma p_int_passes s i r : p_int s = Some (i, r) -> passes s r.
Proof.
  unfold p_int. destruct s as [|c s]; [discriminate|]. destruct (Z.eqb_spec c 48).
  - destruct (starts_digit s); [discriminate|]. intros [= <- <-]. apply passes_cons. lia.
  - destruct (is_digit19 c); [|discriminate]. intros E. injection E as E. eapply scan_passes, E.
Qed.
Lemma p_frac_passes s f r : p_frac s = Some (f, r) -> passes s r.
Proof.
  unfold p_frac. destruct s as [|c s]; [intros [= <- <-]; apply passes_refl|].
  destruct (Z.eqb_spec c 46); [|intros [= <- <-]; apply passes_refl].
  destruct (scan_digits s) as [[|d ds] r'] eqn:ES; [discriminate|]. intros [= <- <-].
  eapply passes_trans; [apply passes_cons; lia|]. eapply scan_passes, ES.
Qed.
Lemma p_sign_passes s sg r : p_sign s = (sg, r) -> passes s r.
Proof.
  unfold p_sign. destruct s as [|c s]; [intros [= <- <-]; apply passes_refl|].
  destruct (Z.eqb_spec c 43); [intros [= <- <-]; apply passes_cons; lia|].
  destruct (Z.eqb_spec c 45); [intros [= <- <-]; apply passes_cons; lia|]. intros [= <- <-]; apply passes_refl.
Qed.
Lemma p_exp_passes s f r : p_exp s = Some (f, r) -> passes s r.
Proof.
  unfold p_exp. destruct s as [|c s]; [intros [= <- <-]; apply passes_refl|].
  destruct (is_e c) eqn:Ee; [|intros [= <- <-]; apply passes_refl].
  destruct (p_sign s) as [sg s1] eqn:E1. destruct (scan_digits s1) as [[|d ds] r'] eqn:ES; [discriminate|]. intros [= <- <-].
  eapply passes_trans; [apply passes_cons|].
  { unfold is_e in Ee. apply orb_true_iff in Ee. rewrite !Z.eqb_eq in Ee. lia. }
  eapply passes_trans; [eapply p_sign_passes, E1|eapply scan_passes, ES].
Qed.
Lemma p_unsigned_passes neg s n r : p_unsigned neg s = Some (n, r) -> passes s r.
Proof.
  unfold p_unsigned. destruct (p_int s) as [[i s1]|] eqn:E1; [|discriminate].
  destruct (p_frac s1) as [[f s2]|] eqn:E2; [|discriminate]. destruct (p_exp s2) as [[e s3]|] eqn:E3; [|discriminate]. intros [= <- <-].
  eapply passes_trans; [eapply p_int_passes, E1|]. eapply passes_trans; [eapply p_frac_passes, E2|eapply p_exp_passes, E3].
Qed.
Lemma p_ident_passes i s r : Forall (fun c => c <> 34) i -> p_ident i s = Some r -> passes s r.
Proof.
  revert s. induction i as [|c i IH]; intros s Hi E; cbn in E; [injection E as <-; apply passes_refl|].
  destruct s as [|x s]; [discriminate|]. destruct (Z.eqb_spec x c); [|discriminate]. inversion Hi; subst.
  eapply passes_trans; [apply passes_cons; assumption|]. apply IH; assumption.
Qed.
(** String literals. *)
Lemma qend_in p : Forall (fun c => c <> 34 /\ c <> 92) p -> qend QIn p = QIn.
Proof.
  unfold qend. induction 1 as [|c p [H1 H2] _ IH]; [reflexivity|]. cbn. rewrite (proj2 (Z.eqb_neq c 34) H1), (proj2 (Z.eqb_neq c 92) H2). exact IH.
Qed.
Lemma hexval_plain c v : hexval c = Some v -> c <> 34 /\ c <> 92.
Proof.
  intros H. split; intros ->; discriminate H.
Qed.
Lemma p_hex_in k : forall n s n' r, p_hex k n s = Some (n', r) -> exists p, s = p ++ r /\ qend QIn p = QIn.
Proof.
  induction k as [|k IH]; intros n s n' r H; cbn [p_hex] in H; [injection H as <- <-; exists []; split; reflexivity|].
  destruct s as [|c s]; [discriminate|]. destruct (hexval c) as [v|] eqn:E; [|discriminate]. apply IH in H. destruct H as (p & -> & Q).
  apply hexval_plain in E. destruct E as [E1 E2]. exists (c :: p). split; [reflexivity|].
  unfold qend. cbn [fold_left qnext]. rewrite (proj2 (Z.eqb_neq c 34) E1), (proj2 (Z.eqb_neq c 92) E2). exact Q.
Qed.
Lemma p_esc_in s x r : p_esc s = Some (x, r) -> exists p, s = p ++ r /\ qend QEsc p = QIn.
Proof.
  unfold p_esc. destruct s as [|c s]; [discriminate|]. destruct (short_esc c); [intros [= <- <-]; exists [c]; split; reflexivity|].
  destruct (c =? 117); [|discriminate]. unfold p_uni. destruct (p_hex 4 0 s) as [[n1 s1]|] eqn:E1; [|discriminate].
  apply p_hex_in in E1. destruct E1 as (p1 & -> & Q1). destruct ((56320 <=? n1) && (n1 <=? 57343)); [discriminate|].
  assert (D : forall p, qend QEsc (c :: p) = qend QIn p) by (intros; reflexivity).
  destruct ((55296 <=? n1) && (n1 <=? 56319)).
  2: { intros [= <- <-]. exists (c :: p1). split; [reflexivity|]. rewrite D. exact Q1. }
  destruct s1 as [|a [|b s2]]; try discriminate. destruct ((a =? 92) && (b =? 117)) eqn:EAB; [|discriminate].
  apply andb_true_iff in EAB. rewrite !Z.eqb_eq in EAB. destruct EAB as [-> ->].
  destruct (p_hex 4 0 s2) as [[n2 s3]|] eqn:E2; [|discriminate]. apply p_hex_in in E2. destruct E2 as (p2 & -> & Q2).
  destruct ((56320 <=? n2) && (n2 <=? 57343)); [|discriminate]. intros [= <- <-].
  exists (c :: p1 ++ 92 :: 117 :: p2). split; [cbn [app]; rewrite <- app_assoc; reflexivity|]. rewrite D. unfold qend in *. rewrite fold_left_app, Q1. exact Q2.
Qed.
Lemma p_str_out f : forall s t r, p_str f s = Some (t, r) -> exists p, s = p ++ r /\ qend QIn p = QOut.
Proof.
  induction f as [|f IH]; intros s t r; cbn [p_str]; [discriminate|]. destruct s as [|c s]; [discriminate|].
  destruct (Z.eqb_spec c 34) as [->|N1]; [intros [= <- <-]; exists [34]; split; reflexivity|].
  destruct (Z.eqb_spec c 92) as [->|N2].
  - destruct (p_esc s) as [[x r1]|] eqn:E1; [|discriminate]. destruct (p_str f r1) as [[t' r2]|] eqn:E2; [|discriminate]. intros [= <- <-].
    apply p_esc_in in E1. destruct E1 as (p1 & -> & Q1). apply IH in E2. destruct E2 as (p2 & -> & Q2).
    exists (92 :: p1 ++ p2). split; [cbn [app]; rewrite <- app_assoc; reflexivity|]. unfold qend in *. cbn [fold_left qnext Z.eqb Pos.eqb]. rewrite fold_left_app, Q1. exact Q2.
  - destruct (c <? 32); [discriminate|]. destruct (p_str f s) as [[t' r2]|] eqn:E2; [|discriminate]. intros [= <- <-].
    apply IH in E2. destruct E2 as (p2 & -> & Q2). exists (c :: p2). split; [reflexivity|].
    unfold qend in *. cbn [fold_left qnext]. rewrite (proj2 (Z.eqb_neq c 34) N1), (proj2 (Z.eqb_neq c 92) N2). exact Q2.
Qed.
Lemma p_string_passes s t r : p_string s = Some (t, r) -> passes (34 :: s) r.
Proof.
  intros H. apply p_str_out in H. destruct H as (p & -> & Q). exists (34 :: p). split; [reflexivity|]. exact Q.
Qed.
Lemma tok_passes s ev r : tok s = Ok (ev, r) -> passes s r.
Proof.
  unfold tok. intros E. eapply passes_trans; [apply skip_ws_passes|]. destruct (skip_ws s) as [|c s1]; [discriminate|].
  assert (W : forall {A} (x : res A) (a : A) t, with_rest x t = Ok (a, r) -> t = r) by (intros ? [?| |?] ? ?; cbn; congruence).
  destruct (Z.eqb_spec c 34) as [->|NQ].
  { destruct (p_string s1) as [[x r']|] eqn:E1; [|discriminate]. assert (r' = r) as -> by congruence. eapply p_string_passes, E1. }
  destruct (is_digit c).
  { destruct (p_unsigned false (c :: s1)) as [[n r']|] eqn:E1; [|discriminate]. apply W in E. subst r'. eapply p_unsigned_passes, E1. }
  eapply passes_trans; [apply passes_cons, NQ|].
  destruct (c =? 45).
  { destruct (p_unsigned true s1) as [[n r']|] eqn:E1; [|discriminate]. apply W in E. subst r'. eapply p_unsigned_passes, E1. }
  destruct (c =? 123); [assert (s1 = r) as -> by congruence; apply passes_refl|].
  destruct (c =? 91); [assert (s1 = r) as -> by congruence; apply passes_refl|].
  assert (PI : forall i r', Forall (fun c => c <> 34) i -> p_ident i s1 = Some r' -> r' = r -> passes s1 r) by (intros i r' Hi HP ->; eapply p_ident_passes; eassumption).
  destruct (c =? 110); [destruct (p_ident (bs "ull") s1) as [r'|] eqn:E1; [|discriminate]; eapply PI; [|exact E1|congruence]; cbn; repeat constructor; lia|].
  destruct (c =? 116); [destruct (p_ident (bs "rue") s1) as [r'|] eqn:E1; [|discriminate]; eapply PI; [|exact E1|congruence]; cbn; repeat constructor; lia|].
  destruct (c =? 102); [destruct (p_ident (bs "alse") s1) as [r'|] eqn:E1; [|discriminate]; eapply PI; [|exact E1|congruence]; cbn; repeat constructor; lia|].
  discriminate.
Qed.

(** The length of the run of digits a text starts with. *)
Definition run (s : bytes) : Z := Z.of_nat (List.length (fst (scan_digits s))).
Lemma blank_plain p r : Forall (fun c => c <> 34) p -> blank QOut (p ++ r) = p ++ blank QOut r.
Proof.
  induction 1 as [|c p H _ IH]; [reflexivity|]. cbn [app blank]. f_equal. cbn [qnext]. rewrite (proj2 (Z.eqb_neq c 34) H). exact IH.
Qed.
Lemma scan_digits_form s ds r : scan_digits s = (ds, r) -> s = dtext ds ++ r /\ Forall digit ds.
Proof.
  revert ds r. induction s as [|c s IH]; cbn [scan_digits]; intros ds r.
  - intros [= <- <-]. split; [reflexivity|constructor].
  - destruct (is_digit c) eqn:D; [|intros [= <- <-]; split; [reflexivity|constructor]]. destruct (scan_digits s) as [ds' r'] eqn:ES. intros [= <- <-].
    destruct (IH _ _ eq_refl) as [-> HD]. apply is_digit_range in D. split; [unfold dtext; cbn [map app]; f_equal; lia|]. constructor; [unfold digit; lia|exact HD].
Qed.
Lemma run_bound m s : digit_runs m s -> 0 <= run s <= m.
Proof.
  intros H. unfold run. destruct (scan_digits s) as [ds r] eqn:ES. apply scan_digits_form in ES. destruct ES as [-> HD]. cbn [fst].
  split; [lia|]. apply (H [] ds (blank QOut r)); [|exact HD]. cbn [app]. apply blank_plain, dtext_plain, HD.
Qed.
Lemma run_nonneg s : 0 <= run s.
Proof. unfold run. lia. Qed.
Lemma run_cons c s : is_digit c = true -> run (c :: s) = run s + 1.
Proof. intros H. unfold run. cbn [scan_digits]. rewrite H. destruct (scan_digits s) as [ds r]. cbn [fst List.length]. lia. Qed.
Lemma runs_tl m c s : c <> 34 -> digit_runs m (c :: s) -> digit_runs m s.
Proof. intros H. apply passes_runs, passes_cons, H. Qed.
