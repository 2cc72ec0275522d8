(** Runs of digits in JSON texts. *)
From Coq Require Import String ZArith List Bool Lia.
From Verif Require Import Base Utf8 Grammar RunFacts.
Import ListNotations.
Open Scope Z_scope.

Definition balanced (p : bytes) : Prop := qend QOut p = QOut.
Lemma balanced_app p q : balanced p -> balanced q -> balanced (p ++ q).
Proof. unfold balanced, qend. intros P Q. rewrite fold_left_app, P. exact Q. Qed.
Lemma balanced_cons c q : c <> 34 -> balanced q -> balanced (c :: q).
Proof. intros H Q. unfold balanced, qend in *. cbn [fold_left qnext]. rewrite (proj2 (Z.eqb_neq c 34) H). exact Q. Qed.
Lemma balanced_plain p : Forall (fun c => c <> 34) p -> balanced p.
Proof. apply qend_out. Qed.
Lemma ws_plain w : Ws w -> Forall (fun c => c <> 34) w.
Proof. unfold Ws, ws_char. apply Forall_impl. intros; lia. Qed.
Lemma ws_balanced w : Ws w -> balanced w.
Proof. intros H. apply balanced_plain, ws_plain, H. Qed.

(** *** Strings *)
Lemma hex_digit_in c v : HexDigit c v -> c <> 34 /\ c <> 92.
Proof. intros [x H|x H|x H]; lia. Qed.
Lemma hex4_in h n : Hex4 h n -> qend QIn h = QIn.
Proof.
  intros [a b c d va vb vc vd A B C D]. apply hex_digit_in in A, B, C, D. apply qend_in. repeat (apply Forall_cons; [assumption|]); apply Forall_nil.
Qed.
Lemma str_body_in t s : StrBody t s -> qend QIn t = QIn.
Proof.
  unfold qend. induction 1 as [|c t s H1 H2 H3 H IH|e c t s HE H IH|h n t s H4 N1 N2 H IH|h1 n1 h2 n2 t s A N1 B N2 H IH].
  - reflexivity.
  - cbn [fold_left qnext]. rewrite (proj2 (Z.eqb_neq c 34) H2), (proj2 (Z.eqb_neq c 92) H3). exact IH.
  - cbn [fold_left qnext Z.eqb Pos.eqb]. exact IH.
  - cbn [fold_left qnext Z.eqb Pos.eqb]. rewrite fold_left_app. apply hex4_in in H4. unfold qend in H4. rewrite H4. exact IH.
  - cbn [fold_left qnext Z.eqb Pos.eqb]. rewrite fold_left_app. apply hex4_in in A. unfold qend in A. rewrite A.
    cbn [fold_left qnext Z.eqb Pos.eqb]. rewrite fold_left_app. apply hex4_in in B. unfold qend in B. rewrite B. exact IH.
Qed.
Lemma str_balanced t s : StrText t s -> balanced t.
Proof.
  intros (b & -> & H). apply str_body_in in H. unfold balanced, qend in *. cbn [fold_left qnext Z.eqb Pos.eqb]. rewrite fold_left_app, H. reflexivity.
Qed.

(** *** Numbers *)
Lemma num_plain n t : NumText n t -> Forall (fun c => c <> 34) t.
Proof.
  intros [neg i f ft e et H1 H2 H3]. apply Forall_app. split; [destruct neg; repeat constructor; lia|].
  apply Forall_app. split; [apply dtext_plain; destruct H1; constructor; unfold digit; try lia; auto|]. apply Forall_app. split.
  - destruct H2 as [|d ds H]; [constructor|]. constructor; [lia|apply dtext_plain, H].
  - destruct H3 as [|e0 sg st d ds He HS H]; [constructor|]. constructor; [lia|]. apply Forall_app. split; [|apply dtext_plain, H].
    destruct HS; repeat constructor; lia.
Qed.

Lemma texts_balanced :
  (forall d t, VText d t -> balanced t) /\ (forall l t, EText l t -> balanced t) /\ (forall l t, MText l t -> balanced t).
Proof.
  apply Text_mutind; intros; try (eapply str_balanced; eassumption); try reflexivity; try (eapply balanced_plain, num_plain; eassumption);
    repeat (assumption || (eapply str_balanced; eassumption) || (apply ws_balanced; assumption) || reflexivity || apply balanced_app || (apply balanced_cons; [lia|])).
Qed.

(** *** Parts of a text *)
Lemma runs_prefix m p q : digit_runs m (p ++ q) -> digit_runs m p.
Proof.
  intros H a ds b E HD. apply (H a ds (b ++ blank (qend QOut p) q)); [|exact HD]. rewrite blank_app, E, <- !app_assoc. reflexivity.
Qed.
Lemma runs_suffix m p q : balanced p -> digit_runs m (p ++ q) -> digit_runs m q.
Proof. intros B. apply passes_runs. exists p. split; [reflexivity|exact B]. Qed.
(** A literal inside. *)
Lemma runs_digits m p ds q : Forall (fun c => c <> 34) p -> Forall digit ds -> digit_runs m (p ++ dtext ds ++ q) -> Z.of_nat (List.length ds) <= m.
Proof.
  intros HP HD H. apply (H p ds (blank QOut q)); [|exact HD]. rewrite blank_plain by exact HP. rewrite blank_plain by (apply dtext_plain, HD). reflexivity.
Qed.

(** *** Putting texts together *)
Definition non_digit (c : Z) : Prop := ~ 48 <= c <= 57.
Lemma split_sep (a D b X Y : bytes) c : a ++ D ++ b = X ++ c :: Y -> ~ In c D ->
  (exists b', X = a ++ D ++ b') \/ (exists a', Y = a' ++ D ++ b).
Proof.
  revert X. induction a as [|x a IH]; intros X E HD; cbn [app] in E.
  - revert X E. induction D as [|d D IHD]; intros X E; cbn [app] in *.
    + left. exists X. reflexivity.
    + destruct X as [|x X]; cbn [app] in E.
      * injection E as -> E. exfalso. apply HD. left. reflexivity.
      * injection E as <- E. destruct (IHD (fun H => HD (or_intror H)) X E) as [[b' ->]|[a' ->]].
        { left. exists b'. reflexivity. }
        exfalso. clear - E. assert (L : length (D ++ b) = length (X ++ c :: a' ++ D ++ b)) by congruence.
        rewrite !app_length in L. cbn [length] in L. rewrite !app_length in L. lia.
  - destruct X as [|y X]; cbn [app] in E.
    + injection E as -> <-. right. exists a. reflexivity.
    + injection E as <- E. destruct (IH X E HD) as [[b' ->]|[a' ->]]; [left; exists b'; reflexivity|right; exists a'; reflexivity].
Qed.
Lemma dtext_digits ds c : Forall digit ds -> In c (dtext ds) -> 48 <= c <= 57.
Proof. unfold dtext. intros H HI. apply in_map_iff in HI. destruct HI as (d & <- & Hd). rewrite Forall_forall in H. apply H in Hd. unfold digit in Hd. lia. Qed.
Lemma runs_join m p c q : balanced p -> non_digit c -> digit_runs m p -> digit_runs m (c :: q) -> digit_runs m (p ++ c :: q).
Proof.
  intros HB HC HP HQ a ds b E HD. rewrite blank_app in E. unfold balanced in HB. rewrite HB in E. cbn [blank] in E. symmetry in E. apply split_sep in E.
  - destruct E as [[b' E]|[a' E]]; [eapply HP; eassumption|]. eapply (HQ (c :: a')); [|exact HD]. cbn [blank app]. rewrite E. reflexivity.
  - intros HI. apply HC. eapply dtext_digits; eassumption.
Qed.
Lemma runs_cons m c q : c <> 34 -> non_digit c -> 0 <= m -> digit_runs m q -> digit_runs m (c :: q).
Proof.
  intros H34 HC Hm HQ a ds b E HD. cbn [blank qnext] in E. rewrite (proj2 (Z.eqb_neq c 34) H34) in E.
  destruct a as [|x a]; cbn [app] in E.
  - destruct ds as [|d ds]; [cbn; lia|]. exfalso. apply HC. eapply (dtext_digits (d :: ds)); [exact HD|]. unfold dtext in *. cbn [map app] in *. injection E as E _. left. symmetry. exact E.
  - injection E as _ E. eapply HQ; eassumption.
Qed.
Lemma runs_nil m : 0 <= m -> digit_runs m [].
Proof. intros H. apply runs_of_length. exact H. Qed.
Lemma runs_one m c : c <> 34 -> non_digit c -> 0 <= m -> digit_runs m [c].
Proof. intros. apply runs_cons; auto using runs_nil. Qed.
Lemma runs_words m p : Forall (fun c => c <> 34 /\ non_digit c) p -> 0 <= m -> digit_runs m p.
Proof. intros H Hm. induction H as [|c p [H1 H2] _ IH]; [apply runs_nil, Hm|]. apply runs_cons; assumption. Qed.
Lemma in_all34 m : forall p, Forall (fun c => c = 34) p -> forall a ds b, p = a ++ dtext ds ++ b -> 0 <= m -> Forall digit ds -> Z.of_nat (List.length ds) <= m.
Proof.
  intros p H a ds b -> Hm HD. destruct ds as [|d ds]; [cbn; lia|]. exfalso. apply Forall_app in H. destruct H as [_ H]. apply Forall_app in H. destruct H as [H _].
  unfold dtext in H. cbn [map] in H. apply Forall_inv in H. apply Forall_inv in HD. unfold digit in HD. lia.
Qed.
Lemma qnext_in c : c <> 34 -> c <> 92 -> qnext QIn c = QIn.
Proof. intros A B. cbn [qnext]. rewrite (proj2 (Z.eqb_neq c 34) A), (proj2 (Z.eqb_neq c 92) B). reflexivity. Qed.
Lemma str_body_blank t s : StrBody t s -> Forall (fun c => c = 34) (blank QIn t).
Proof.
  intros H.
  assert (forall q t, (forall n, qend q (firstn n t) <> QOut) -> Forall (fun c => c = 34) (blank q t)) as G.
  { clear. intros q t. revert q. induction t as [|c t IH]; intros q K; [constructor|]. cbn [blank]. constructor.
    - specialize (K O). cbn in K. destruct q; [congruence|reflexivity|reflexivity].
    - apply IH. intros n. specialize (K (S n)). cbn [firstn] in K. exact K. }
  apply G. clear G.
  induction H as [|c t s H1 H2 H3 H IH|e c t s HE H IH|h n t s H4 N1 N2 H IH|h1 n1 h2 n2 t s A N1 B N2 H IH]; intros m.
  - rewrite firstn_nil. discriminate.
  - destruct m; [discriminate|]. cbn [firstn]. unfold qend in *. cbn [fold_left qnext]. rewrite (proj2 (Z.eqb_neq c 34) H2), (proj2 (Z.eqb_neq c 92) H3). apply IH.
  - destruct m as [|[|m]]; [discriminate|discriminate|]. cbn [firstn]. unfold qend in *. cbn [fold_left qnext Z.eqb Pos.eqb]. apply IH.
  - destruct m as [|[|m]]; [discriminate|discriminate|]. cbn [firstn]. unfold qend in *. cbn [fold_left qnext Z.eqb Pos.eqb].
    destruct H4 as [a b c d va vb vc vd X1 X2 X3 X4]. apply hex_digit_in in X1, X2, X3, X4.
    destruct X1 as [P1 Q1], X2 as [P2 Q2], X3 as [P3 Q3], X4 as [P4 Q4]. cbn [app].
    pose proof (qnext_in _ P1 Q1) as R1. pose proof (qnext_in _ P2 Q2) as R2. pose proof (qnext_in _ P3 Q3) as R3. pose proof (qnext_in _ P4 Q4) as R4.
    destruct m as [|[|[|[|m]]]]; cbn [firstn fold_left]; rewrite ?R1, ?R2, ?R3, ?R4; try discriminate. apply IH.
  - destruct m as [|[|m]]; [discriminate|discriminate|]. cbn [firstn]. unfold qend in *. cbn [fold_left qnext Z.eqb Pos.eqb].
    destruct A as [a b c d va vb vc vd X1 X2 X3 X4]. apply hex_digit_in in X1, X2, X3, X4.
    destruct X1 as [P1 Q1], X2 as [P2 Q2], X3 as [P3 Q3], X4 as [P4 Q4]. cbn [app].
    pose proof (qnext_in _ P1 Q1) as R1. pose proof (qnext_in _ P2 Q2) as R2. pose proof (qnext_in _ P3 Q3) as R3. pose proof (qnext_in _ P4 Q4) as R4.
    destruct m as [|[|[|[|m]]]]; cbn [firstn fold_left]; rewrite ?R1, ?R2, ?R3, ?R4; try discriminate.
    destruct m as [|[|m]]; cbn [firstn fold_left qnext Z.eqb Pos.eqb]; try discriminate.
    clear P1 Q1 P2 Q2 P3 Q3 P4 Q4 R1 R2 R3 R4.
    destruct B as [a' b' c' d' va' vb' vc' vd' X1 X2 X3 X4]. apply hex_digit_in in X1, X2, X3, X4.
    destruct X1 as [P1 Q1], X2 as [P2 Q2], X3 as [P3 Q3], X4 as [P4 Q4]. cbn [app].
    pose proof (qnext_in _ P1 Q1) as R1. pose proof (qnext_in _ P2 Q2) as R2. pose proof (qnext_in _ P3 Q3) as R3. pose proof (qnext_in _ P4 Q4) as R4.
    destruct m as [|[|[|[|m]]]]; cbn [firstn fold_left]; rewrite ?R1, ?R2, ?R3, ?R4; try discriminate. apply IH.
Qed.
Lemma runs_str m t s : StrText t s -> 0 <= m -> digit_runs m t.
Proof.
  intros (b & -> & H) Hm a ds q E HD. eapply in_all34; [|exact E|exact Hm|exact HD].
  cbn [blank qnext Z.eqb Pos.eqb]. constructor; [reflexivity|]. rewrite blank_app. apply Forall_app. split; [eapply str_body_blank, H|].
  rewrite (str_body_in _ _ H). constructor; [reflexivity|constructor].
Qed.
