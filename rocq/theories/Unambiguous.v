(** The grammar is unambiguous: a text denotes at most one document, and the text of a
    string, array or object is never a proper prefix of another value's text. *)
From Coq Require Import String ZArith List Bool Lia Floats.SpecFloat.
From Verif Require Import Base Utf8 Utf8Facts F64 Lexer Driver Grammar LexSpec LexFacts RunFacts LexNumFacts Tree TreeFacts DriverFacts GrammarFacts.
Import ListNotations.
Open Scope Z_scope.

Lemma ws_cancel w w' c c' r r' : Ws w -> Ws w' -> ~ ws_char c -> ~ ws_char c' ->
  w ++ c :: r = w' ++ c' :: r' -> w = w' /\ c = c' /\ r = r'.
Proof.
  intros H. revert w'. induction H as [|x w Hx H IH]; intros w' H' Nc Nc' E.
  - destruct H' as [|y w' Hy H']; cbn in E; [split; [reflexivity|split; congruence]|].
    exfalso. apply Nc. congruence.
  - destruct H' as [|y w' Hy H']; cbn in E; [exfalso; apply Nc'; congruence|].
    destruct (IH w' H' Nc Nc') as (-> & -> & ->); [congruence|].
    assert (x = y) by congruence. subst. auto.
Qed.

Lemma str_cancel kt k kt' k' r r' : StrText kt k -> StrText kt' k' ->
  kt ++ r = kt' ++ r' -> k = k' /\ r = r'.
Proof.
  intros (b & -> & Hb) (b' & -> & Hb') E. cbn [app] in E.
  assert (E1 : b ++ 34 :: r = b' ++ 34 :: r').
  { injection E as E. rewrite <- !app_assoc in E. exact E. }
  pose proof (p_string_complete _ _ r Hb) as P. rewrite E1, (p_string_complete _ _ r' Hb') in P.
  apply Some_pair_inv in P. destruct P as [-> ->]. auto.
Qed.

Lemma num_cancel n x n' x' r r' : NumText n x -> NumText n' x' ->
  numend r = true -> numend r' = true -> x ++ r = x' ++ r' -> n = n' /\ r = r'.
Proof.
  intros [neg i f ft e et H1 H2 H3] [neg' i' f' ft' e' et' H1' H2' H3'] Hr Hr' E.
  repeat rewrite <- app_assoc in E.
  assert (HD : forall i s, IntDigits i -> exists c z, dtext i ++ s = c :: z /\ 48 <= c <= 57).
  { intros j s [|d ds Hd H]; cbn [dtext map app]; eexists _, _; (split; [reflexivity|lia]). }
  assert (K : neg = neg' /\ dtext i ++ ft ++ et ++ r = dtext i' ++ ft' ++ et' ++ r').
  { destruct (HD i (ft ++ et ++ r) H1) as (c & z & Ec & Hc).
    destruct (HD i' (ft' ++ et' ++ r') H1') as (c' & z' & Ec' & Hc').
    destruct neg, neg'; cbn [app] in E; rewrite ?Ec, ?Ec' in *.
    - split; [reflexivity|congruence].
    - exfalso. assert (c' = 45) by congruence. lia.
    - exfalso. assert (c = 45) by congruence. lia.
    - split; [reflexivity|congruence]. }
  destruct K as [<- K].
  pose proof (p_unsigned_complete neg i f ft e et r H1 H2 H3 Hr) as P.
  rewrite K, (p_unsigned_complete neg i' f' ft' e' et' r' H1' H2' H3' Hr') in P.
  apply Some_pair_inv in P. destruct P as [-> ->]. auto.
Qed.

Lemma EText_head l x : EText l x -> exists w c y, x = w ++ c :: y /\ Ws w /\ ~ ws_char c /\ c <> 93 /\ c <> 125.
Proof.
  intros H. destruct H as [d w1 t w2 Hw1 Hx Hw2|d w1 t w2 l ts Hw1 Hx Hw2 Hl];
  destruct (VText_head_ok _ _ Hx) as (c & y & -> & N1 & N2 & N3 & N4 & N5);
  eexists w1, c, _; (split; [cbn [app]; reflexivity|auto]).
Qed.
Lemma MText_head l x : MText l x -> exists w y, x = w ++ 34 :: y /\ Ws w.
Proof.
  intros H. destruct H as [k d w1 kt w2 w3 t w4 Hw1 (b & -> & Hb) Hw2 Hw3 Hx Hw4
    |k d w1 kt w2 w3 t w4 l ts Hw1 (b & -> & Hb) Hw2 Hw3 Hx Hw4 Hl];
  eexists w1, _; (split; [cbn [app]; reflexivity|auto]).
Qed.

(** Cancelling a value after whitespace. *)
Lemma value_cancel w d x w' d' x' r r' : Ws w -> VText d x -> Ws w' -> VText d' x' ->
  w ++ x ++ r = w' ++ x' ++ r' -> x ++ r = x' ++ r'.
Proof.
  intros Hw Hx Hw' Hx' E.
  destruct (VText_head_ok _ _ Hx) as (c & y & -> & N & _).
  destruct (VText_head_ok _ _ Hx') as (c' & y' & -> & N' & _).
  cbn [app] in *. apply ws_cancel in E; try assumption. destruct E as (_ & -> & ->). reflexivity.
Qed.
Lemma string_cancel w k x w' k' x' r r' : Ws w -> StrText x k -> Ws w' -> StrText x' k' ->
  w ++ x ++ r = w' ++ x' ++ r' -> k = k' /\ r = r'.
Proof.
  intros Hw Hx Hw' Hx' E. eapply str_cancel; [exact Hx|exact Hx'|].
  eapply (value_cancel w (DStr k) x w' (DStr k') x'); try eassumption; constructor; assumption.
Qed.

Definition num_follow (d : doc) (r r' : bytes) : Prop :=
  is_num d = true -> numend r = true /\ numend r' = true.

Lemma num_follow_of d r r' : follow d r -> follow d r' -> num_follow d r r'.
Proof. intros H H' E. split; auto. Qed.

Lemma ws_char_punct c : c = 44 \/ c = 58 \/ c = 93 \/ c = 125 \/ c = 34 -> ~ ws_char c.
Proof. unfold ws_char. lia. Qed.

Lemma text_unambiguous :
  (forall d x, VText d x -> forall d' x' r r', VText d' x' -> x ++ r = x' ++ r' ->
     num_follow d r r' -> d = d' /\ r = r') /\
  (forall l x, EText l x -> forall l' x' r r', EText l' x' ->
     x ++ 93 :: r = x' ++ 93 :: r' -> l = l' /\ r = r') /\
  (forall l x, MText l x -> forall l' x' r r', MText l' x' ->
     x ++ 125 :: r = x' ++ 125 :: r' -> l = l' /\ r = r').
Proof.
  assert (HEAD : forall d x d' x' r r', VText d x -> VText d' x' -> x ++ r = x' ++ r' ->
    match d, d' with
    | DNull, DNull | DStr _, DStr _ | DNum _, DNum _ | DArr _, DArr _ | DObj _, DObj _ => True
    | DBool b, DBool b' => b = b'
    | _, _ => False end).
  { intros d x d' x' r r' H H' E. apply VText_head in H, H'.
    destruct H as (c & y & -> & H). destruct H' as (c' & y' & -> & H').
    cbn [app] in E. assert (c = c') by congruence. subst c'.
    destruct d as [|[|]| | | |], d' as [|[|]| | | |]; (exact I || reflexivity || lia). }
  apply Text_mutind.
  - intros d' x' r r' H' E _. pose proof (HEAD _ _ _ _ _ _ vt_null H' E) as K.
    destruct H'; try contradiction. cbn in E. split; [reflexivity|congruence].
  - intros d' x' r r' H' E _. pose proof (HEAD _ _ _ _ _ _ vt_true H' E) as K.
    destruct H'; try contradiction; try discriminate. cbn in E. split; [reflexivity|congruence].
  - intros d' x' r r' H' E _. pose proof (HEAD _ _ _ _ _ _ vt_false H' E) as K.
    destruct H'; try contradiction; try discriminate. cbn in E. split; [reflexivity|congruence].
  - intros s t Hs d' x' r r' H' E _. pose proof (HEAD _ _ _ _ _ _ (vt_str _ _ Hs) H' E) as K.
    destruct H'; try contradiction. destruct (str_cancel _ _ _ _ _ _ Hs H E) as [-> ->]. auto.
  - intros n t Hn d' x' r r' H' E F. pose proof (HEAD _ _ _ _ _ _ (vt_num _ _ Hn) H' E) as K.
    destruct H'; try contradiction. destruct (F eq_refl) as [F1 F2].
    destruct (num_cancel _ _ _ _ _ _ Hn H F1 F2 E) as [-> ->]. auto.
  - intros w Hw d' x' r r' H' E _. pose proof (HEAD _ _ _ _ _ _ (vt_arr0 _ Hw) H' E) as K.
    destruct H' as [| | | | |w' Hw'|l' x' H'| |]; try contradiction; cbn [app] in E;
      injection E as E; rewrite <- !app_assoc in E; cbn [app] in E.
    + apply ws_cancel in E; try assumption; try (apply ws_char_punct; lia). destruct E as (_ & _ & ->). auto.
    + exfalso. apply EText_head in H'. destruct H' as (w' & c & y & -> & Hw' & N1 & N2 & N3).
      rewrite <- app_assoc in E. cbn [app] in E.
      apply ws_cancel in E; try assumption; try (apply ws_char_punct; lia). destruct E as (_ & E & _). congruence.
  - intros l x Hl IH d' x' r r' H' E _. pose proof (HEAD _ _ _ _ _ _ (vt_arr _ _ Hl) H' E) as K.
    destruct H' as [| | | | |w' Hw'|l' x' H'| |]; try contradiction; cbn [app] in E;
      injection E as E; rewrite <- !app_assoc in E; cbn [app] in E.
    + exfalso. apply EText_head in Hl. destruct Hl as (w & c & y & -> & Hw & N1 & N2 & N3).
      rewrite <- app_assoc in E. cbn [app] in E.
      apply ws_cancel in E; try assumption; try (apply ws_char_punct; lia). destruct E as (_ & E & _). congruence.
    + destruct (IH _ _ _ _ H' E) as [-> ->]. auto.
  - intros w Hw d' x' r r' H' E _. pose proof (HEAD _ _ _ _ _ _ (vt_obj0 _ Hw) H' E) as K.
    destruct H' as [| | | | | | |w' Hw'|l' x' H']; try contradiction; cbn [app] in E;
      injection E as E; rewrite <- !app_assoc in E; cbn [app] in E.
    + apply ws_cancel in E; try assumption; try (apply ws_char_punct; lia). destruct E as (_ & _ & ->). auto.
    + exfalso. apply MText_head in H'. destruct H' as (w' & y & -> & Hw').
      rewrite <- app_assoc in E. cbn [app] in E.
      apply ws_cancel in E; try assumption; try (apply ws_char_punct; lia). destruct E as (_ & E & _). congruence.
  - intros l x Hl IH d' x' r r' H' E _. pose proof (HEAD _ _ _ _ _ _ (vt_obj _ _ Hl) H' E) as K.
    destruct H' as [| | | | | | |w' Hw'|l' x' H']; try contradiction; cbn [app] in E;
      injection E as E; rewrite <- !app_assoc in E; cbn [app] in E.
    + exfalso. apply MText_head in Hl. destruct Hl as (w & y & -> & Hw).
      rewrite <- app_assoc in E. cbn [app] in E.
      apply ws_cancel in E; try assumption; try (apply ws_char_punct; lia). destruct E as (_ & E & _). congruence.
    + destruct (IH _ _ _ _ H' E) as [-> ->]. auto.
  - intros d w1 x w2 Hw1 Hx IH Hw2 l' x' r r' H' E.
    destruct H' as [d' w1' y' w2' Hw1' Hx' Hw2'|d' w1' y' w2' l' ts' Hw1' Hx' Hw2' Hl'];
      repeat (rewrite <- app_assoc in E; cbn [app] in E).
    + apply value_cancel with (d := d) (d' := d') in E; try assumption.
      destruct (IH _ _ _ _ Hx' E) as [-> E2].
      { apply num_follow_of; apply follow_ws; try assumption; apply follow_char; auto. }
      apply ws_cancel in E2; try assumption; try (apply ws_char_punct; lia). destruct E2 as (_ & _ & ->). auto.
    + exfalso. apply value_cancel with (d := d) (d' := d') in E; try assumption.
      destruct (IH _ _ _ _ Hx' E) as [-> E2].
      { apply num_follow_of; apply follow_ws; try assumption; apply follow_char; auto. }
      apply ws_cancel in E2; try assumption; try (apply ws_char_punct; lia). destruct E2 as (_ & E2 & _). discriminate.
  - intros d w1 x w2 l ts Hw1 Hx IH Hw2 Hl IHl l' x' r r' H' E.
    destruct H' as [d' w1' y' w2' Hw1' Hx' Hw2'|d' w1' y' w2' l' ts' Hw1' Hx' Hw2' Hl'];
      repeat (rewrite <- app_assoc in E; cbn [app] in E).
    + exfalso. apply value_cancel with (d := d) (d' := d') in E; try assumption.
      destruct (IH _ _ _ _ Hx' E) as [-> E2].
      { apply num_follow_of; apply follow_ws; try assumption; apply follow_char; auto. }
      apply ws_cancel in E2; try assumption; try (apply ws_char_punct; lia). destruct E2 as (_ & E2 & _). discriminate.
    + apply value_cancel with (d := d) (d' := d') in E; try assumption.
      destruct (IH _ _ _ _ Hx' E) as [-> E2].
      { apply num_follow_of; apply follow_ws; try assumption; apply follow_char; auto. }
      apply ws_cancel in E2; try assumption; try (apply ws_char_punct; lia). destruct E2 as (_ & _ & E2).
      destruct (IHl _ _ _ _ Hl' E2) as [-> ->]. auto.
  - intros k d w1 kt w2 w3 x w4 Hw1 Hk Hw2 Hw3 Hx IH Hw4 l' x' r r' H' E.
    destruct H' as [k' d' w1' kt' w2' w3' y' w4' Hw1' Hk' Hw2' Hw3' Hx' Hw4'
      |k' d' w1' kt' w2' w3' y' w4' l' ts' Hw1' Hk' Hw2' Hw3' Hx' Hw4' Hl'];
      repeat (rewrite <- app_assoc in E; cbn [app] in E);
      (apply string_cancel with (k := k) (k' := k') in E; try assumption; destruct E as [<- E];
       apply ws_cancel in E; try assumption; try (apply ws_char_punct; lia); destruct E as (_ & _ & E);
       apply value_cancel with (d := d) (d' := d') in E; try assumption;
       destruct (IH _ _ _ _ Hx' E) as [-> E2];
       [apply num_follow_of; apply follow_ws; try assumption; apply follow_char; auto|];
       apply ws_cancel in E2; try assumption; try (apply ws_char_punct; lia)).
    + destruct E2 as (_ & _ & ->). auto.
    + exfalso. destruct E2 as (_ & E2 & _). discriminate.
  - intros k d w1 kt w2 w3 x w4 l ts Hw1 Hk Hw2 Hw3 Hx IH Hw4 Hl IHl l' x' r r' H' E.
    destruct H' as [k' d' w1' kt' w2' w3' y' w4' Hw1' Hk' Hw2' Hw3' Hx' Hw4'
      |k' d' w1' kt' w2' w3' y' w4' l' ts' Hw1' Hk' Hw2' Hw3' Hx' Hw4' Hl'];
      repeat (rewrite <- app_assoc in E; cbn [app] in E);
      (apply string_cancel with (k := k) (k' := k') in E; try assumption; destruct E as [<- E];
       apply ws_cancel in E; try assumption; try (apply ws_char_punct; lia); destruct E as (_ & _ & E);
       apply value_cancel with (d := d) (d' := d') in E; try assumption;
       destruct (IH _ _ _ _ Hx' E) as [-> E2];
       [apply num_follow_of; apply follow_ws; try assumption; apply follow_char; auto|];
       apply ws_cancel in E2; try assumption; try (apply ws_char_punct; lia)).
    + exfalso. destruct E2 as (_ & E2 & _). discriminate.
    + destruct E2 as (_ & _ & E2). destruct (IHl _ _ _ _ Hl' E2) as [-> ->]. auto.
Qed.

Theorem JText_unique d d' s : JText d s -> JText d' s -> d = d'.
Proof.
  intros (w1 & x & w2 & -> & H1 & Hx & H2) (w1' & x' & w2' & E & H1' & Hx' & H2').
  apply value_cancel with (d := d) (d' := d') in E; try assumption.
  destruct (proj1 text_unambiguous _ _ Hx _ _ _ _ Hx' E) as [-> _]; [|reflexivity].
  apply num_follow_of; apply follow_ws_end; assumption.
Qed.

(** A text whose value is not a number, cut or extended, is no text unless only
    whitespace is cut or added. *)
Theorem JText_prefix d d' s z : JText d s -> JText d' (s ++ z) -> is_num d = false -> Ws z /\ d = d'.
Proof.
  intros (w1 & x & w2 & -> & H1 & Hx & H2) (w1' & x' & w2' & E & H1' & Hx' & H2') HN.
  repeat rewrite <- app_assoc in E.
  apply value_cancel with (d := d) (d' := d') in E; try assumption.
  destruct (proj1 text_unambiguous _ _ Hx _ _ _ _ Hx' E) as [-> E2].
  { intros K. congruence. }
  split; [|reflexivity]. rewrite <- E2 in H2'. unfold Ws in H2'. apply Forall_app in H2'. apply H2'.
Qed.
