(** JSON texts depend only on their tokens. *)
From Coq Require Import String ZArith List Bool Lia Floats.SpecFloat.
From Verif Require Import Base Utf8 F64 Lexer Grammar LexSpec GrammarFacts Unambiguous Types Reading ParseSpec.
Import ListNotations.
Open Scope Z_scope.

(** ** The grammar over tokens *)
Inductive VTok : doc -> list bytes -> Prop :=
| vk_null : VTok DNull [bs "null"]
| vk_true : VTok (DBool true) [bs "true"]
| vk_false : VTok (DBool false) [bs "false"]
| vk_str s t : StrText t s -> VTok (DStr s) [t]
| vk_num n t : NumText n t -> VTok (DNum n) [t]
| vk_arr0 : VTok (DArr []) [[91]; [93]]
| vk_arr l ts : ETok l ts -> VTok (DArr l) ([91] :: ts ++ [[93]])
| vk_obj0 : VTok (DObj []) [[123]; [125]]
| vk_obj l ts : MTok l ts -> VTok (DObj l) ([123] :: ts ++ [[125]])
with ETok : list doc -> list bytes -> Prop :=
| ek_one d ts : VTok d ts -> ETok [d] ts
| ek_cons d ts l ts' : VTok d ts -> ETok l ts' -> ETok (d :: l) (ts ++ [44] :: ts')
with MTok : list (bytes * doc) -> list bytes -> Prop :=
| mk_one k kt d ts : StrText kt k -> VTok d ts -> MTok [(k, d)] (kt :: [58] :: ts)
| mk_cons k kt d ts l ts' : StrText kt k -> VTok d ts -> MTok l ts' -> MTok ((k, d) :: l) (kt :: [58] :: ts ++ [44] :: ts').
Scheme VTok_mut := Induction for VTok Sort Prop
  with ETok_mut := Induction for ETok Sort Prop
  with MTok_mut := Induction for MTok Sort Prop.
Combined Scheme Tok_mutind from VTok_mut, ETok_mut, MTok_mut.

Lemma tokens_ws w s ts : Ws w -> Tokens s ts -> Tokens (w ++ s) ts.
Proof. intros H. induction H as [|c w Hc H IH]; intros HT; cbn [app]; [exact HT|]. apply tk_ws; auto. Qed.
Lemma ws_tokens w : Ws w -> Tokens w [].
Proof. intros H. rewrite <- (app_nil_r w). apply tokens_ws; [exact H|constructor]. Qed.

(** A token of a text, after whitespace. *)
Lemma tokens_head s t ts : Tokens s (t :: ts) -> exists w r, s = w ++ t ++ r /\ Ws w /\ Tokens r ts.
Proof.
  remember (t :: ts) as tt eqn:E. intros H. revert t ts E.
  induction H as [|c s ts' Hc H IH|c s ts' Hc H IH|b s ts' Hb H IH|w s ts' Hw HF HN H IH]; intros t ts E.
  - discriminate.
  - destruct (IH _ _ E) as (w & r & -> & Hw & HT). exists (c :: w), r. split; [reflexivity|]. split; [constructor; assumption|exact HT].
  - injection E as <- <-. exists [], s. split; [reflexivity|]. split; [constructor|exact H].
  - injection E as <- <-. exists [], s. split; [cbn [app]; rewrite <- app_assoc; reflexivity|]. split; [constructor|exact H].
  - injection E as <- <-. exists [], s. split; [reflexivity|]. split; [constructor|exact H].
Qed.
Lemma tokens_nil s : Tokens s [] -> Ws s.
Proof. remember [] as tt eqn:E. intros H. induction H; try discriminate; [constructor|constructor; [assumption|apply IHTokens; assumption]]. Qed.

Lemma tokens_text :
  (forall d ts, VTok d ts -> forall s rts, Tokens s (ts ++ rts) ->
     exists w t r, s = w ++ t ++ r /\ Ws w /\ VText d t /\ Tokens r rts) /\
  (forall l ts, ETok l ts -> forall s rts, Tokens s (ts ++ rts) ->
     exists t r, s = t ++ r /\ EText l t /\ Tokens r rts) /\
  (forall l ts, MTok l ts -> forall s rts, Tokens s (ts ++ rts) ->
     exists t r, s = t ++ r /\ MText l t /\ Tokens r rts).
Proof.
  apply Tok_mutind.
  - intros s rts H. apply tokens_head in H. destruct H as (w & r & -> & Hw & HT). exists w, (bs "null"), r. repeat split; auto. constructor.
  - intros s rts H. apply tokens_head in H. destruct H as (w & r & -> & Hw & HT). exists w, (bs "true"), r. repeat split; auto. constructor.
  - intros s rts H. apply tokens_head in H. destruct H as (w & r & -> & Hw & HT). exists w, (bs "false"), r. repeat split; auto. constructor.
  - intros s t Hs x rts H. apply tokens_head in H. destruct H as (w & r & -> & Hw & HT). exists w, t, r. repeat split; auto. constructor. exact Hs.
  - intros s t Hs x rts H. apply tokens_head in H. destruct H as (w & r & -> & Hw & HT). exists w, t, r. repeat split; auto. constructor. exact Hs.
  - intros s rts H. apply tokens_head in H. destruct H as (w & r & -> & Hw & HT).
    apply tokens_head in HT. destruct HT as (w2 & r2 & -> & Hw2 & HT).
    exists w, (91 :: w2 ++ [93]), r2. split; [cbn [app]; repeat rewrite <- app_assoc; reflexivity|]. repeat split; auto. constructor. exact Hw2.
  - intros l ts HE IH s rts H. cbn [app] in H. rewrite <- app_assoc in H. apply tokens_head in H. destruct H as (w & r & -> & Hw & HT).
    apply IH in HT. destruct HT as (t & r1 & -> & Ht & HT). apply tokens_head in HT. destruct HT as (w2 & r2 & -> & Hw2 & HT).
    exists w, (91 :: (t ++ w2) ++ [93]), r2. split; [cbn [app]; repeat rewrite <- app_assoc; reflexivity|].
    split; [exact Hw|]. split; [|exact HT]. constructor.
    (* trailing whitespace belongs to the last element *)
    clear -Ht Hw2. revert Hw2. revert w2. induction Ht as [d w1 t w3 H1 H2 H3|d w1 t w3 l ts H1 H2 H3 H4 IH]; intros w2 Hw2.
    + repeat rewrite <- app_assoc. constructor; [exact H1|exact H2|apply Forall_app; split; assumption].
    + repeat (rewrite <- app_assoc; cbn [app]). constructor; [exact H1|exact H2|exact H3|apply IH, Hw2].
  - intros s rts H. apply tokens_head in H. destruct H as (w & r & -> & Hw & HT).
    apply tokens_head in HT. destruct HT as (w2 & r2 & -> & Hw2 & HT).
    exists w, (123 :: w2 ++ [125]), r2. split; [cbn [app]; repeat rewrite <- app_assoc; reflexivity|]. repeat split; auto. constructor. exact Hw2.
  - intros l ts HE IH s rts H. cbn [app] in H. rewrite <- app_assoc in H. apply tokens_head in H. destruct H as (w & r & -> & Hw & HT).
    apply IH in HT. destruct HT as (t & r1 & -> & Ht & HT). apply tokens_head in HT. destruct HT as (w2 & r2 & -> & Hw2 & HT).
    exists w, (123 :: (t ++ w2) ++ [125]), r2. split; [cbn [app]; repeat rewrite <- app_assoc; reflexivity|].
    split; [exact Hw|]. split; [|exact HT]. constructor.
    clear -Ht Hw2. revert Hw2. revert w2. induction Ht as [k d w1 kt w3 w4 t w5 H1 H2 H3 H4 H5 H6|k d w1 kt w3 w4 t w5 l ts H1 H2 H3 H4 H5 H6 H7 IH]; intros w2 Hw2.
    + repeat (rewrite <- app_assoc; cbn [app]). constructor; try assumption. apply Forall_app; split; assumption.
    + repeat (rewrite <- app_assoc; cbn [app]). constructor; try assumption. apply IH, Hw2.
  - intros d ts HV IH s rts H. apply IH in H. destruct H as (w & t & r & -> & Hw & Ht & HT).
    exists (w ++ t ++ []), r. split; [rewrite app_nil_r, <- app_assoc; reflexivity|]. split; [|exact HT]. constructor; [exact Hw|exact Ht|constructor].
  - intros d ts l ts' HV IHV HE IHE s rts H. rewrite <- app_assoc in H. cbn [app] in H.
    apply IHV in H. destruct H as (w & t & r & -> & Hw & Ht & HT). apply tokens_head in HT. destruct HT as (w2 & r2 & -> & Hw2 & HT).
    apply IHE in HT. destruct HT as (t2 & r3 & -> & Ht2 & HT).
    exists (w ++ t ++ w2 ++ 44 :: t2), r3. split; [repeat (rewrite <- app_assoc; cbn [app]); reflexivity|]. split; [|exact HT]. constructor; assumption.
  - intros k kt d ts HK HV IHV s rts H. cbn [app] in H. apply tokens_head in H. destruct H as (w & r & -> & Hw & HT).
    apply tokens_head in HT. destruct HT as (w2 & r2 & -> & Hw2 & HT).
    apply IHV in HT. destruct HT as (w3 & t & r3 & -> & Hw3 & Ht & HT).
    exists (w ++ kt ++ w2 ++ 58 :: w3 ++ t ++ []), r3. split; [rewrite app_nil_r; repeat (rewrite <- app_assoc; cbn [app]); reflexivity|].
    split; [|exact HT]. constructor; try assumption. constructor.
  - intros k kt d ts l ts' HK HV IHV HM IHM s rts H. cbn [app] in H. rewrite <- app_assoc in H. cbn [app] in H.
    apply tokens_head in H. destruct H as (w & r & -> & Hw & HT).
    apply tokens_head in HT. destruct HT as (w2 & r2 & -> & Hw2 & HT).
    apply IHV in HT. destruct HT as (w3 & t & r3 & -> & Hw3 & Ht & HT).
    apply tokens_head in HT. destruct HT as (w4 & r4 & -> & Hw4 & HT).
    apply IHM in HT. destruct HT as (t2 & r5 & -> & Ht2 & HT).
    exists (w ++ kt ++ w2 ++ 58 :: w3 ++ t ++ w4 ++ 44 :: t2), r5. split; [repeat (rewrite <- app_assoc; cbn [app]); reflexivity|].
    split; [|exact HT]. constructor; assumption.
Qed.

(** ** Every text has tokens *)
Definition wordend (r : bytes) : Prop := match r with c :: _ => ~ word_char c | [] => True end.
Lemma wordend_ws w r : Ws w -> wordend r -> wordend (w ++ r).
Proof. intros [|c w' Hc H] HR; [exact HR|]. cbn [app wordend]. intros (_ & K & _). auto. Qed.
Lemma wordend_punct c r : punct c -> wordend (c :: r).
Proof. intros H (K & _). auto. Qed.

Lemma StrBody_Q b s : StrBody b s -> QBody b.
Proof.
  assert (HX : forall h n, Hex4 h n -> Forall (fun c => c <> 34 /\ c <> 92) h).
  { assert (D : forall c v, HexDigit c v -> c <> 34 /\ c <> 92) by (intros c v []; lia).
    intros h n []. repeat constructor; eapply D; eassumption. }
  assert (QA : forall h t, Forall (fun c => c <> 34 /\ c <> 92) h -> QBody t -> QBody (h ++ t)).
  { intros h t H HQ. induction H as [|c h [] H IH]; cbn [app]; [exact HQ|]. constructor; auto. }
  induction 1 as [|c t s H1 H2 H3 H IH|e c t s He H IH|h n t s Hh N1 N2 H IH|h1 n1 h2 n2 t s Hh1 S1 Hh2 S2 H IH].
  - constructor.
  - constructor; assumption.
  - apply qb_esc. exact IH.
  - apply qb_esc. apply QA; [eapply HX, Hh|exact IH].
  - apply qb_esc. apply QA; [eapply HX, Hh1|]. apply qb_esc. apply QA; [eapply HX, Hh2|exact IH].
Qed.

Lemma tokens_str kt k s ts : StrText kt k -> Tokens s ts -> Tokens (kt ++ s) (kt :: ts).
Proof.
  intros (b & -> & Hb) HT. cbn [app]. rewrite <- app_assoc. cbn [app]. apply tk_str; [eapply StrBody_Q, Hb|exact HT].
Qed.

Definition num_char (c : Z) : Prop := 48 <= c <= 57 \/ c = 45 \/ c = 43 \/ c = 46 \/ c = 101 \/ c = 69.
Lemma NumText_chars n t : NumText n t -> Forall num_char t /\ t <> [].
Proof.
  intros [neg i f ft e et H1 H2 H3].
  assert (D : forall ds, Forall digit ds -> Forall num_char (dtext ds)).
  { intros ds H. unfold dtext. apply Forall_map. eapply Forall_impl; [|exact H]. unfold digit, num_char. intros; lia. }
  split.
  - apply Forall_app. split; [destruct neg; repeat constructor; unfold num_char; lia|].
    apply Forall_app. split; [apply D, IntDigits_digit, H1|]. apply Forall_app. split.
    + destruct H2 as [|d ds H]; [constructor|]. constructor; [unfold num_char; lia|]. apply D, H.
    + destruct H3 as [|e' sg st d ds He Hs H]; [constructor|]. constructor; [unfold num_char; lia|].
      apply Forall_app. split; [destruct Hs; repeat constructor; unfold num_char; lia|apply D, H].
  - destruct neg; [discriminate|]. destruct H1; discriminate.
Qed.
Lemma num_word c : num_char c -> word_char c.
Proof. unfold num_char, word_char, punct, ws_char. lia. Qed.
Lemma lower_word c : 97 <= c <= 122 -> word_char c.
Proof. unfold word_char, punct, ws_char. lia. Qed.

Lemma text_tokens :
  (forall d t, VText d t -> exists ts, VTok d ts /\ forall r rts, Tokens r rts -> wordend r -> Tokens (t ++ r) (ts ++ rts)) /\
  (forall l t, EText l t -> exists ts, ETok l ts /\ forall r rts, Tokens r rts -> wordend r -> Tokens (t ++ r) (ts ++ rts)) /\
  (forall l t, MText l t -> exists ts, MTok l ts /\ forall r rts, Tokens r rts -> wordend r -> Tokens (t ++ r) (ts ++ rts)).
Proof.
  assert (P44 : punct 44) by (unfold punct; lia). assert (P58 : punct 58) by (unfold punct; lia).
  assert (P91 : punct 91) by (unfold punct; lia). assert (P93 : punct 93) by (unfold punct; lia).
  assert (P123 : punct 123) by (unfold punct; lia). assert (P125 : punct 125) by (unfold punct; lia).
  apply Text_mutind.
  - exists [bs "null"]. split; [constructor|]. intros r rts HT HE. apply (tk_word (bs "null")); auto; [discriminate|].
    repeat constructor; apply lower_word; cbn; lia.
  - exists [bs "true"]. split; [constructor|]. intros r rts HT HE. apply (tk_word (bs "true")); auto; [discriminate|].
    repeat constructor; apply lower_word; cbn; lia.
  - exists [bs "false"]. split; [constructor|]. intros r rts HT HE. apply (tk_word (bs "false")); auto; [discriminate|].
    repeat constructor; apply lower_word; cbn; lia.
  - intros s t H. exists [t]. split; [constructor; exact H|]. intros r rts HT HE. eapply tokens_str; eassumption.
  - intros n t H. exists [t]. split; [constructor; exact H|]. intros r rts HT HE. apply NumText_chars in H. destruct H as [H1 H2].
    apply (tk_word t); auto. eapply Forall_impl; [|exact H1]. apply num_word.
  - intros w Hw. exists [[91]; [93]]. split; [constructor|]. intros r rts HT HE. cbn [app]. apply tk_punct; [exact P91|].
    rewrite <- app_assoc. apply tokens_ws; [exact Hw|]. cbn [app]. apply tk_punct; [exact P93|exact HT].
  - intros l t HE (ts & H1 & H2). exists ([91] :: ts ++ [[93]]). split; [constructor; exact H1|].
    intros r rts HT HW. cbn [app]. apply tk_punct; [exact P91|]. repeat rewrite <- app_assoc. apply H2; [|apply wordend_punct; exact P93].
    cbn [app]. apply tk_punct; [exact P93|exact HT].
  - intros w Hw. exists [[123]; [125]]. split; [constructor|]. intros r rts HT HE. cbn [app]. apply tk_punct; [exact P123|].
    rewrite <- app_assoc. apply tokens_ws; [exact Hw|]. cbn [app]. apply tk_punct; [exact P125|exact HT].
  - intros l t HE (ts & H1 & H2). exists ([123] :: ts ++ [[125]]). split; [constructor; exact H1|].
    intros r rts HT HW. cbn [app]. apply tk_punct; [exact P123|]. repeat rewrite <- app_assoc. apply H2; [|apply wordend_punct; exact P125].
    cbn [app]. apply tk_punct; [exact P125|exact HT].
  - intros d w1 t w2 Hw1 HV (ts & H1 & H2) Hw2. exists ts. split; [constructor; exact H1|].
    intros r rts HT HW. repeat rewrite <- app_assoc. apply tokens_ws; [exact Hw1|]. apply H2.
    + apply tokens_ws; assumption.
    + apply wordend_ws; assumption.
  - intros d w1 t w2 l t' Hw1 HV (ts & H1 & H2) Hw2 HE (ts' & H1' & H2'). exists (ts ++ [44] :: ts'). split; [constructor; assumption|].
    intros r rts HT HW. repeat (rewrite <- app_assoc; cbn [app]). apply tokens_ws; [exact Hw1|]. apply H2.
    + apply tokens_ws; [assumption|]. apply tk_punct; [exact P44|]. apply H2'; assumption.
    + apply wordend_ws; [assumption|apply wordend_punct; exact P44].
  - intros k d w1 kt w2 w3 t w4 Hw1 HK Hw2 Hw3 HV (ts & H1 & H2) Hw4. exists (kt :: [58] :: ts). split; [constructor; assumption|].
    intros r rts HT HW. repeat (rewrite <- app_assoc; cbn [app]). apply tokens_ws; [exact Hw1|].
    eapply tokens_str; [exact HK|]. apply tokens_ws; [exact Hw2|]. apply tk_punct; [exact P58|]. apply tokens_ws; [exact Hw3|]. apply H2.
    + apply tokens_ws; assumption.
    + apply wordend_ws; assumption.
  - intros k d w1 kt w2 w3 t w4 l t' Hw1 HK Hw2 Hw3 HV (ts & H1 & H2) Hw4 HM (ts' & H1' & H2').
    exists (kt :: [58] :: ts ++ [44] :: ts'). split; [constructor; assumption|].
    intros r rts HT HW. repeat (rewrite <- app_assoc; cbn [app]). apply tokens_ws; [exact Hw1|].
    eapply tokens_str; [exact HK|]. apply tokens_ws; [exact Hw2|]. apply tk_punct; [exact P58|]. apply tokens_ws; [exact Hw3|]. apply H2.
    + apply tokens_ws; [assumption|]. apply tk_punct; [exact P44|]. apply H2'; assumption.
    + apply wordend_ws; [assumption|apply wordend_punct; exact P44].
Qed.

(** ** Tokens are unique *)
Lemma QBody_split b b' s s' : QBody b -> QBody b' -> b ++ 34 :: s = b' ++ 34 :: s' -> b = b' /\ s = s'.
Proof.
  intros H. revert b' s s'. induction H as [|c t H1 H2 H IH|c t H IH]; intros b' s s' H' E.
  - destruct H' as [|c t H1 H2 H|c t H]; cbn [app] in E; [split; congruence|injection E as E _; congruence|discriminate].
  - destruct H' as [|c' t' H1' H2' H'|c' t' H']; cbn [app] in E.
    + injection E as E _. congruence.
    + injection E as -> E. destruct (IH _ _ _ H' E) as [-> ->]. auto.
    + injection E as E _. congruence.
  - destruct H' as [|c' t' H1' H2' H'|c' t' H']; cbn [app] in E.
    + discriminate.
    + injection E as E _. congruence.
    + injection E as -> E. destruct (IH _ _ _ H' E) as [-> ->]. auto.
Qed.
Lemma word_split w w' s s' : Forall word_char w -> Forall word_char w' -> wordend s -> wordend s' -> w ++ s = w' ++ s' -> w = w' /\ s = s'.
Proof.
  intros H. revert w' s s'. induction H as [|c w Hc H IH]; intros w' s s' H' HE HE' E.
  - destruct H' as [|c' w' Hc' H']; [auto|]. cbn [app] in E. subst s. destruct (HE Hc').
  - destruct H' as [|c' w' Hc' H']; cbn [app] in E; [subst s'; destruct (HE' Hc)|].
    injection E as -> E. destruct (IH _ _ _ H' HE HE' E) as [-> ->]. auto.
Qed.
Lemma word_not c : word_char c -> ~ punct c /\ ~ ws_char c /\ c <> 34.
Proof. auto. Qed.

Lemma tokens_unique s ts ts' : Tokens s ts -> Tokens s ts' -> ts = ts'.
Proof.
  intros H. revert ts'. induction H as [|c s ts Hc H IH|c s ts Hc H IH|b s ts Hb H IH|w s ts Hw HF HN H IH]; intros ts' H'.
  - inversion H' as [| | | |w s' ts2 Hw]; subst; auto. destruct w; [congruence|discriminate].
  - inversion H' as [|? ? ? Hc'|? ? ? Hc'|b|w s' ts2 Hw HF HN HT E1 E2]; subst.
    + apply IH; assumption.
    + exfalso. unfold ws_char, punct in *. lia.
    + exfalso. unfold ws_char in *. lia.
    + destruct w as [|x w]; [congruence|]. injection E1 as -> _. inversion HF as [|? ? (_ & K & _)]; subst. contradiction.
  - inversion H' as [|? ? ? Hc'|? ? ? Hc'|b|w s' ts2 Hw HF HN HT E1 E2]; subst.
    + exfalso. unfold ws_char, punct in *. lia.
    + f_equal. apply IH; assumption.
    + exfalso. unfold punct in *. lia.
    + destruct w as [|x w]; [congruence|]. injection E1 as -> _. inversion HF as [|? ? (K & _ & _)]; subst. contradiction.
  - inversion H' as [|? ? ? Hc'|? ? ? Hc'|b' s' ts2 Hb' HT E1|w s' ts2 Hw HF HN HT E1 E2]; subst.
    + exfalso. unfold ws_char in *. lia.
    + exfalso. unfold punct in *. lia.
    + destruct (QBody_split _ _ _ _ Hb' Hb E1) as [-> ->]. f_equal. apply IH; assumption.
    + destruct w as [|x w]; [congruence|]. injection E1 as -> _. inversion HF as [|? ? (_ & _ & K)]; subst. contradiction.
  - destruct w as [|x w]; [congruence|]. pose proof HF as HF0. inversion HF as [|? ? (K1 & K2 & K3) _]; subst.
    inversion H' as [|? ? ? Hc'|? ? ? Hc'|b' s' ts2 Hb' HT E1|w' s' ts2 Hw' HF' HN' HT E1 E2]; subst; try contradiction.
    destruct (word_split _ _ _ _ HF' HF0 HN' HN E1) as [-> ->]. f_equal. apply IH; assumption.
Qed.

Theorem JText_tokens d s1 s2 ts : Tokens s1 ts -> Tokens s2 ts -> JText d s1 -> JText d s2.
Proof.
  intros H1 H2 (w1 & t & w2 & -> & Hw1 & Ht & Hw2).
  destruct (proj1 text_tokens _ _ Ht) as (ts' & HV & HT).
  assert (T1 : Tokens (w1 ++ t ++ w2) (ts' ++ [])).
  { apply tokens_ws; [exact Hw1|]. apply HT; [apply ws_tokens, Hw2|].
    rewrite <- (app_nil_r w2). apply wordend_ws; [exact Hw2|exact I]. }
  rewrite <- (tokens_unique _ _ _ T1 H1) in H2.
  apply (proj1 tokens_text _ _ HV) in H2. destruct H2 as (w & t' & r & -> & Hw & Ht' & HR).
  exists w, t', r. repeat split; auto. apply tokens_nil, HR.
Qed.
