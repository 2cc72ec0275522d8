(** Texts with a hole: where an opening bracket outside of the string literals stands, a value begins. *)
From Coq Require Import String ZArith List Bool Lia.
From Verif Require Import Base Utf8 Grammar TokenFacts TemplateSpec.
Import ListNotations.
Open Scope Z_scope.

(** ** String literals, from left to right *)
Inductive mode := MOut | MIn | MEsc | MClosed | MDead.
Definition mstep (m : mode) (c : Z) : mode :=
  match m with
  | MOut => if c =? 34 then MIn else MOut
  | MClosed => if c =? 34 then MDead else MOut
  | MIn => if c =? 34 then MClosed else if c =? 92 then MEsc else MIn
  | MEsc => if (c =? 34) || (c =? 92) || (c =? 47) || (c =? 98) || (c =? 102) || (c =? 110) || (c =? 114) || (c =? 116) || (c =? 117) then MIn else MDead
  | MDead => MDead
  end.
Definition mrun (s : bytes) (m : mode) : mode := fold_left mstep s m.
Definition out (m : mode) : Prop := m = MOut \/ m = MClosed.
Definition inside (m : mode) : Prop := m = MIn \/ m = MEsc.

Lemma mrun_app a b m : mrun (a ++ b) m = mrun b (mrun a m).
Proof. unfold mrun. apply fold_left_app. Qed.
Lemma mrun_cons c s m : mrun (c :: s) m = mrun s (mstep m c).
Proof. reflexivity. Qed.
Lemma mrun_dead s : mrun s MDead = MDead.
Proof. induction s; auto. Qed.
Lemma out_inside m : out m -> inside m -> False.
Proof. intros [->| ->] [|]; discriminate. Qed.
Lemma plain_out s : Forall (fun c => c <> 34) s -> mrun s MOut = MOut.
Proof. induction 1 as [|c s H F IH]; [reflexivity|]. rewrite mrun_cons. cbn [mstep]. apply Z.eqb_neq in H. rewrite H. exact IH. Qed.
Lemma plain_keeps s m : Forall (fun c => c <> 34) s -> out m -> out (mrun s m).
Proof.
  intros F [->| ->]; [left; apply plain_out, F|]. destruct F as [|c s H F]; [right; reflexivity|]. rewrite mrun_cons. cbn [mstep]. apply Z.eqb_neq in H. rewrite H.
  left. apply plain_out, F.
Qed.
Lemma ws_plain w : Ws w -> Forall (fun c => c <> 34) w.
Proof. apply Forall_impl. unfold ws_char. intros c H. lia. Qed.
Lemma hex_in c v : HexDigit c v -> mstep MIn c = MIn /\ c <> 34 /\ c <> 92.
Proof.
  intros H. assert (c <> 34 /\ c <> 92) as [A B] by (inversion H; lia). split; [|auto]. cbn [mstep]. apply Z.eqb_neq in A, B. rewrite A, B. reflexivity.
Qed.
Lemma hex4_in h n : Hex4 h n -> exists a b c d, h = [a; b; c; d] /\ mstep MIn a = MIn /\ mstep MIn b = MIn /\ mstep MIn c = MIn /\ mstep MIn d = MIn.
Proof.
  intros [a b c d va vb vc vd A B C D]. exists a, b, c, d. apply hex_in in A, B, C, D. tauto.
Qed.
Lemma body_prefix b s : StrBody b s -> mrun b MIn = MIn /\ forall p r, b = p ++ r -> inside (mrun p MIn).
Proof.
  assert (I : inside MIn) by (left; reflexivity). assert (E : inside MEsc) by (right; reflexivity).
  assert (U : mstep (mstep MIn 92) 117 = MIn) by reflexivity.
  induction 1 as [|c t s H1 H2 H3 _ [IH1 IH2]|e c t s HE _ [IH1 IH2]|h n t s HH _ _ _ [IH1 IH2]|h1 n1 h2 n2 t s HH _ HH' _ _ [IH1 IH2]].
  - split; [reflexivity|]. intros [|c p] r EQ; [exact I|discriminate EQ].
  - assert (S : mstep MIn c = MIn) by (cbn [mstep]; apply Z.eqb_neq in H2, H3; rewrite H2, H3; reflexivity).
    split; [rewrite mrun_cons, S; exact IH1|]. intros [|c' p] r EQ; [exact I|]. injection EQ as <- ->. rewrite mrun_cons, S. eapply IH2; reflexivity.
  - assert (S : mstep (mstep MIn 92) e = MIn) by (destruct HE; reflexivity).
    split; [rewrite !mrun_cons, S; exact IH1|]. intros [|c1 [|c2 p]] r EQ; try (injection EQ; clear EQ; intros; subst); [exact I|exact E|]. rewrite !mrun_cons, S. eapply IH2; reflexivity.
  - destruct (hex4_in _ _ HH) as (a & b & c & d & -> & A & B & C & D). cbn [app].
    split; [rewrite !mrun_cons, U, A, B, C, D; exact IH1|].
    intros [|c1 [|c2 [|c3 [|c4 [|c5 [|c6 p]]]]]] r EQ; try (injection EQ; clear EQ; intros; subst); rewrite ?mrun_cons, ?U, ?A, ?B, ?C, ?D; try exact I; try exact E. eapply IH2; reflexivity.
  - destruct (hex4_in _ _ HH) as (a & b & c & d & -> & A & B & C & D). destruct (hex4_in _ _ HH') as (a' & b' & c' & d' & -> & A' & B' & C' & D'). cbn [app].
    split; [rewrite !mrun_cons, U, A, B, C, D, U, A', B', C', D'; exact IH1|].
    intros [|c1 [|c2 [|c3 [|c4 [|c5 [|c6 [|c7 [|c8 [|c9 [|c10 [|c11 [|c12 p]]]]]]]]]]]] r EQ; try (injection EQ; clear EQ; intros; subst); rewrite ?mrun_cons, ?U, ?A, ?B, ?C, ?D, ?U, ?A', ?B', ?C', ?D'; try exact I; try exact E. eapply IH2; reflexivity.
Qed.
Lemma str_run t s : StrText t s -> mrun t MOut = MClosed.
Proof. intros (b & -> & H). rewrite mrun_cons. change (mstep MOut 34) with MIn. rewrite mrun_app. rewrite (proj1 (body_prefix _ _ H)). reflexivity. Qed.

(** ** Splitting a concatenation at a byte *)
Lemma at_byte {A} (a b : list A) p c r : a ++ b = p ++ c :: r ->
  (exists a', a = p ++ c :: a' /\ r = a' ++ b) \/ (exists p', p = a ++ p' /\ b = p' ++ c :: r).
Proof.
  revert p. induction a as [|x a IH]; intros p H; [right; exists p; auto|]. destruct p as [|y p]; cbn [app] in H.
  - injection H as -> <-. left. exists a. auto.
  - injection H as -> H. apply IH in H. destruct H as [(a' & -> & ->)|(p' & -> & ->)]; [left|right]; eexists; split; reflexivity.
Qed.
Lemma str_at t s p c r : StrText t s -> t = p ++ c :: r -> c <> 34 -> inside (mrun p MOut).
Proof.
  intros (b & -> & H) E N. destruct p as [|x p]; [cbn [app] in E; injection E as E1 _; congruence|]. injection E as <- E. rewrite mrun_cons. change (mstep MOut 34) with MIn.
  apply at_byte in E. destruct E as [(a' & -> & _)|(p' & _ & E)].
  - eapply (proj2 (body_prefix _ _ H)). reflexivity.
  - destruct p'; [cbn [app] in E; injection E as E1 _; congruence|]. injection E as _ E. destruct p'; discriminate.
Qed.
Lemma not_in {A} (P : A -> Prop) s p c r : Forall P s -> s = p ++ c :: r -> P c.
Proof. intros F ->. apply Forall_app in F. destruct F as [_ F]. inversion F; assumption. Qed.

(** ** Values end outside of their strings *)
Lemma texts_out :
  (forall d t, VText d t -> out (mrun t MOut)) /\ (forall l t, EText l t -> out (mrun t MOut)) /\ (forall l t, MText l t -> out (mrun t MOut)).
Proof.
  assert (W : forall w m, Ws w -> out m -> out (mrun w m)) by (intros w m Hw; apply plain_keeps, ws_plain, Hw).
  assert (W0 : forall w, Ws w -> mrun w MOut = MOut) by (intros w Hw; apply plain_out, ws_plain, Hw).
  assert (C1 : forall m c, out m -> c <> 34 -> mstep m c = MOut) by (intros m c [->| ->] N; cbn [mstep]; apply Z.eqb_neq in N; rewrite N; reflexivity).
  assert (O : out MOut) by (left; reflexivity).
  apply Text_mutind.
  - exact O.
  - exact O.
  - exact O.
  - intros s t H. rewrite (str_run _ _ H). right. reflexivity.
  - intros n t H. left. apply plain_out. apply NumText_chars in H. destruct H as [H _]. eapply Forall_impl; [|exact H]. unfold num_char. intros; lia.
  - intros w H. rewrite mrun_cons. change (mstep MOut 91) with MOut. rewrite mrun_app, (W0 w H). exact O.
  - intros l t H IH. rewrite mrun_cons. change (mstep MOut 91) with MOut. rewrite mrun_app, mrun_cons, C1 by (auto; lia). exact O.
  - intros w H. rewrite mrun_cons. change (mstep MOut 123) with MOut. rewrite mrun_app, (W0 w H). exact O.
  - intros l t H IH. rewrite mrun_cons. change (mstep MOut 123) with MOut. rewrite mrun_app, mrun_cons, C1 by (auto; lia). exact O.
  - intros d w1 t w2 H1 H IH H2. rewrite !mrun_app, (W0 w1 H1). auto.
  - intros d w1 t w2 l ts H1 H IH H2 HT IHT. rewrite !mrun_app, mrun_cons, (W0 w1 H1), C1 by (auto; lia). exact IHT.
  - intros k d w1 kt w2 w3 t w4 H1 HK H2 H3 H IH H4. rewrite !mrun_app, mrun_cons, (W0 w1 H1), (str_run _ _ HK). rewrite C1 by (first [lia|apply W; [assumption|right; reflexivity]]).
    rewrite !mrun_app, (W0 w3 H3). auto.
  - intros k d w1 kt w2 w3 t w4 l ts H1 HK H2 H3 H IH H4 HT IHT. rewrite !mrun_app, mrun_cons, (W0 w1 H1), (str_run _ _ HK). rewrite C1 by (first [lia|apply W; [assumption|right; reflexivity]]).
    rewrite !mrun_app, mrun_cons, (W0 w3 H3), C1 by (auto; lia). exact IHT.
Qed.
Lemma jtext_out d t : JText d t -> out (mrun t MOut).
Proof.
  intros (w1 & v & w2 & -> & H1 & H & H2). rewrite !mrun_app, plain_out by (apply ws_plain, H1). apply plain_keeps; [apply ws_plain, H2|]. eapply (proj1 texts_out), H.
Qed.

(** ** The value that begins at a bracket *)
Lemma value_jtext d t : VText d t -> JText d t.
Proof. intros H. exists [], t, []. rewrite app_nil_r. repeat split; auto; constructor. Qed.
Lemma jtext_ws d w1 t w2 : Ws w1 -> JText d t -> Ws w2 -> JText d (w1 ++ t ++ w2).
Proof.
  intros H1 (a & v & b & -> & Ha & H & Hb) H2. exists (w1 ++ a), v, (b ++ w2). split; [rewrite <- !app_assoc; reflexivity|]. split; [apply Forall_app; auto|]. split; [exact H|apply Forall_app; auto].
Qed.
Lemma etext_one d t : JText d t -> EText [d] t.
Proof. intros (w1 & v & w2 & -> & H1 & H & H2). constructor; assumption. Qed.
Lemma etext_more d t l ts : JText d t -> EText l ts -> EText (d :: l) (t ++ 44 :: ts).
Proof. intros (w1 & v & w2 & -> & H1 & H & H2) HT. rewrite <- !app_assoc. constructor; assumption. Qed.
Lemma mtext_one k d w1 kt w2 t : Ws w1 -> StrText kt k -> Ws w2 -> JText d t -> MText [(k, d)] (w1 ++ kt ++ w2 ++ 58 :: t).
Proof. intros H1 HK H2 (w3 & v & w4 & -> & H3 & H & H4). constructor; assumption. Qed.
Lemma mtext_more k d w1 kt w2 t l ts : Ws w1 -> StrText kt k -> Ws w2 -> JText d t -> MText l ts -> MText ((k, d) :: l) (w1 ++ kt ++ w2 ++ 58 :: t ++ 44 :: ts).
Proof. intros H1 HK H2 (w3 & v & w4 & -> & H3 & H & H4) HT. rewrite <- !app_assoc. constructor; assumption. Qed.

(** What becomes of an array or object around the hole. *)
Definition at_v (d : doc) (t : bytes) : Prop := forall p r, t = p ++ 91 :: r -> out (mrun p MOut) ->
  exists C dv v q, 91 :: r = v ++ q /\ VText dv v /\ d = fill C dv /\ forall d' t', JText d' t' -> JText (fill C d') (p ++ t' ++ q).
Definition at_e (l : list doc) (t : bytes) : Prop := forall p r, t = p ++ 91 :: r -> out (mrun p MOut) ->
  exists l1 C l2 dv v q, 91 :: r = v ++ q /\ VText dv v /\ l = l1 ++ fill C dv :: l2 /\ forall d' t', JText d' t' -> EText (l1 ++ fill C d' :: l2) (p ++ t' ++ q).
Definition at_m (l : list (bytes * doc)) (t : bytes) : Prop := forall p r, t = p ++ 91 :: r -> out (mrun p MOut) ->
  exists l1 k C l2 dv v q, 91 :: r = v ++ q /\ VText dv v /\ l = l1 ++ (k, fill C dv) :: l2 /\ forall d' t', JText d' t' -> MText (l1 ++ (k, fill C d') :: l2) (p ++ t' ++ q).

Lemma ext_r {A} {c : A} {a v q : list A} (E : c :: a = v ++ q) b : c :: a ++ b = v ++ q ++ b.
Proof. rewrite app_assoc, <- E. reflexivity. Qed.
Theorem bracket_opens : (forall d t, VText d t -> at_v d t) /\ (forall l t, EText l t -> at_e l t) /\ (forall l t, MText l t -> at_m l t).
Proof.
  assert (WN : forall w p r, Ws w -> w = p ++ 91 :: r -> False).
  { intros w p r H E. assert (X := not_in ws_char w p 91 r H E). unfold ws_char in X. lia. }
  assert (W : forall w m, Ws w -> out m -> out (mrun w m)) by (intros w m Hw; apply plain_keeps, ws_plain, Hw).
  assert (W0 : forall w, Ws w -> mrun w MOut = MOut) by (intros w Hw; apply plain_out, ws_plain, Hw).
  assert (C1 : forall m c, out m -> c <> 34 -> mstep m c = MOut) by (intros m c [->| ->] N; cbn [mstep]; apply Z.eqb_neq in N; rewrite N; reflexivity).
  assert (O : out MOut) by (left; reflexivity).
  assert (SN : forall kt k p r, StrText kt k -> kt = p ++ 91 :: r -> out (mrun p MOut) -> False).
  { intros kt k p r HK E HO. eapply out_inside; [exact HO|]. eapply str_at; [exact HK|exact E|lia]. }
  assert (LN : forall (s : bytes) p r, forallb (fun c => negb (c =? 91)) s = true -> s = p ++ 91 :: r -> False).
  { intros s p r H ->. rewrite forallb_app in H. apply andb_true_iff in H. destruct H as [_ H]. discriminate H. }
  assert (ON : forall c p r, c <> 91 -> [c] = p ++ 91 :: r -> False).
  { intros c [|x p] r N E; [cbn [app] in E; injection E as E _; congruence|]. injection E as _ E. destruct p; discriminate. }
  assert (HERE : forall d t r, VText d t -> t = 91 :: r -> exists C dv v q, 91 :: r = v ++ q /\ VText dv v /\ d = fill C dv /\ forall d' t', JText d' t' -> JText (fill C d') ([] ++ t' ++ q)).
  { intros d t r H ->. exists Hole, d, (91 :: r), []. rewrite app_nil_r. split; [reflexivity|]. split; [exact H|]. split; [reflexivity|]. intros d' t' H'. rewrite app_nil_r. exact H'. }
  apply Text_mutind; unfold at_v, at_e, at_m.
  - intros p r E _. destruct (LN (bs "null") p r eq_refl E).
  - intros p r E _. destruct (LN (bs "true") p r eq_refl E).
  - intros p r E _. destruct (LN (bs "false") p r eq_refl E).
  - intros s t H p r E HO. destruct (SN t s p r H E HO).
  - intros n t H p r E _. apply NumText_chars in H. destruct H as [H _]. assert (X := not_in num_char t p 91 r H E). unfold num_char in X. lia.
  - intros w H [|c p] r E HO; [eapply HERE; [apply vt_arr0, H|exact E]|]. injection E as <- E. exfalso. apply at_byte in E. destruct E as [(a' & E & _)|(p' & _ & E)]; [eapply WN; eassumption|eapply ON; [|exact E]; lia].
  - intros l t H IH [|c p] r E HO; [eapply HERE; [apply vt_arr, H|exact E]|]. injection E as <- E. rewrite mrun_cons in HO. change (mstep MOut 91) with MOut in HO.
    apply at_byte in E. destruct E as [(a' & E & ->)|(p' & _ & E)]; [|exfalso; eapply ON; [|exact E]; lia].
    destruct (IH p a' E HO) as (l1 & C & l2 & dv & v & q & E1 & HV & -> & HF). exists (InArr l1 C l2), dv, v, (q ++ [93]). split; [apply (ext_r E1)|]. split; [exact HV|]. split; [reflexivity|].
    intros d' t' H'. apply value_jtext. cbn [fill]. replace ((91 :: p) ++ t' ++ q ++ [93]) with (91 :: (p ++ t' ++ q) ++ [93]) by (rewrite <- !app_assoc; reflexivity). apply vt_arr. auto.
  - intros w H [|c p] r E HO; [discriminate E|]. injection E as <- E. exfalso. apply at_byte in E. destruct E as [(a' & E & _)|(p' & _ & E)]; [eapply WN; eassumption|eapply ON; [|exact E]; lia].
  - intros l t H IH [|c p] r E HO; [discriminate E|]. injection E as <- E. rewrite mrun_cons in HO. change (mstep MOut 123) with MOut in HO.
    apply at_byte in E. destruct E as [(a' & E & ->)|(p' & _ & E)]; [|exfalso; eapply ON; [|exact E]; lia].
    destruct (IH p a' E HO) as (l1 & k & C & l2 & dv & v & q & E1 & HV & -> & HF). exists (InObj l1 k C l2), dv, v, (q ++ [125]). split; [apply (ext_r E1)|]. split; [exact HV|]. split; [reflexivity|].
    intros d' t' H'. apply value_jtext. cbn [fill]. replace ((123 :: p) ++ t' ++ q ++ [125]) with (123 :: (p ++ t' ++ q) ++ [125]) by (rewrite <- !app_assoc; reflexivity). apply vt_obj. auto.
  - intros d w1 t w2 H1 H IH H2 p r E HO. apply at_byte in E. destruct E as [(a' & E & _)|(p1 & -> & E)]; [destruct (WN _ _ _ H1 E)|].
    rewrite mrun_app, (W0 w1 H1) in HO.
    apply at_byte in E. destruct E as [(a' & E & ->)|(p2 & -> & E)]; [|destruct (WN _ _ _ H2 E)].
    destruct (IH p1 a' E HO) as (C & dv & v & q & E1 & HV & -> & HF). exists [], C, [], dv, v, (q ++ w2). split; [apply (ext_r E1)|]. split; [exact HV|]. split; [reflexivity|].
    intros d' t' H'. cbn [app]. apply etext_one. replace ((w1 ++ p1) ++ t' ++ q ++ w2) with (w1 ++ (p1 ++ t' ++ q) ++ w2) by (rewrite <- !app_assoc; reflexivity). apply jtext_ws; auto.
  - intros d w1 t w2 l ts H1 H IH H2 HT IHT p r E HO. apply at_byte in E. destruct E as [(a' & E & _)|(p1 & -> & E)]; [destruct (WN _ _ _ H1 E)|].
    rewrite mrun_app, (W0 w1 H1) in HO.
    apply at_byte in E. destruct E as [(a' & E & ->)|(p2 & -> & E)].
    + destruct (IH p1 a' E HO) as (C & dv & v & q & E1 & HV & -> & HF). exists [], C, l, dv, v, (q ++ w2 ++ 44 :: ts). split; [apply (ext_r E1)|]. split; [exact HV|]. split; [reflexivity|].
      intros d' t' H'. cbn [app]. replace ((w1 ++ p1) ++ t' ++ q ++ w2 ++ 44 :: ts) with ((w1 ++ (p1 ++ t' ++ q) ++ w2) ++ 44 :: ts) by (rewrite <- !app_assoc; reflexivity).
      apply etext_more; [apply jtext_ws; auto|exact HT].
    + apply at_byte in E. destruct E as [(a' & E & _)|(p3 & -> & E)]; [destruct (WN _ _ _ H2 E)|].
      destruct p3 as [|c p3]; [discriminate E|]. injection E as <- E.
      rewrite !mrun_app, mrun_cons, C1 in HO by (first [lia|apply W; [assumption|]; eapply (proj1 texts_out); eassumption]).
      destruct (IHT p3 r E HO) as (l1 & C & l2 & dv & v & q & E1 & HV & -> & HF). exists (d :: l1), C, l2, dv, v, q. split; [exact E1|]. split; [exact HV|]. split; [reflexivity|].
      intros d' t' H'. cbn [app]. replace ((w1 ++ t ++ w2 ++ 44 :: p3) ++ t' ++ q) with ((w1 ++ t ++ w2) ++ 44 :: (p3 ++ t' ++ q)) by (rewrite <- !app_assoc; reflexivity).
      apply etext_more; [apply jtext_ws; auto using value_jtext|auto].
  - intros k d w1 kt w2 w3 t w4 H1 HK H2 H3 H IH H4 p r E HO. apply at_byte in E. destruct E as [(a' & E & _)|(p1 & -> & E)]; [destruct (WN _ _ _ H1 E)|].
    rewrite mrun_app, (W0 w1 H1) in HO.
    apply at_byte in E. destruct E as [(a' & E & ->)|(p2 & -> & E)]; [destruct (SN _ _ _ _ HK E HO)|].
    apply at_byte in E. destruct E as [(a' & E & _)|(p3 & -> & E)]; [destruct (WN _ _ _ H2 E)|].
    destruct p3 as [|c p3]; [discriminate E|]. injection E as <- E.
    rewrite !mrun_app, mrun_cons, C1 in HO by (first [lia|apply W; [assumption|]; rewrite (str_run _ _ HK); right; reflexivity]).
    apply at_byte in E. destruct E as [(a' & E & _)|(p4 & -> & E)]; [destruct (WN _ _ _ H3 E)|].
    rewrite mrun_app, (W0 w3 H3) in HO.
    apply at_byte in E. destruct E as [(a' & E & ->)|(p5 & -> & E)]; [|destruct (WN _ _ _ H4 E)].
    destruct (IH p4 a' E HO) as (C & dv & v & q & E1 & HV & -> & HF). exists [], k, C, [], dv, v, (q ++ w4). split; [apply (ext_r E1)|]. split; [exact HV|]. split; [reflexivity|].
    intros d' t' H'. cbn [app]. replace ((w1 ++ kt ++ w2 ++ 58 :: w3 ++ p4) ++ t' ++ q ++ w4) with (w1 ++ kt ++ w2 ++ 58 :: (w3 ++ (p4 ++ t' ++ q) ++ w4)) by (rewrite <- ?app_assoc; cbn [app]; rewrite <- ?app_assoc; reflexivity).
    apply mtext_one; auto. apply jtext_ws; auto.
  - intros k d w1 kt w2 w3 t w4 l ts H1 HK H2 H3 H IH H4 HT IHT p r E HO. apply at_byte in E. destruct E as [(a' & E & _)|(p1 & -> & E)]; [destruct (WN _ _ _ H1 E)|].
    rewrite mrun_app, (W0 w1 H1) in HO.
    apply at_byte in E. destruct E as [(a' & E & ->)|(p2 & -> & E)]; [destruct (SN _ _ _ _ HK E HO)|].
    apply at_byte in E. destruct E as [(a' & E & _)|(p3 & -> & E)]; [destruct (WN _ _ _ H2 E)|].
    destruct p3 as [|c p3]; [discriminate E|]. injection E as <- E.
    rewrite !mrun_app, mrun_cons, C1 in HO by (first [lia|apply W; [assumption|]; rewrite (str_run _ _ HK); right; reflexivity]).
    apply at_byte in E. destruct E as [(a' & E & _)|(p4 & -> & E)]; [destruct (WN _ _ _ H3 E)|].
    rewrite mrun_app, (W0 w3 H3) in HO.
    apply at_byte in E. destruct E as [(a' & E & ->)|(p5 & -> & E)].
    + destruct (IH p4 a' E HO) as (C & dv & v & q & E1 & HV & -> & HF). exists [], k, C, l, dv, v, (q ++ w4 ++ 44 :: ts). split; [apply (ext_r E1)|]. split; [exact HV|]. split; [reflexivity|].
      intros d' t' H'. cbn [app]. replace ((w1 ++ kt ++ w2 ++ 58 :: w3 ++ p4) ++ t' ++ q ++ w4 ++ 44 :: ts) with (w1 ++ kt ++ w2 ++ 58 :: (w3 ++ (p4 ++ t' ++ q) ++ w4) ++ 44 :: ts) by (rewrite <- ?app_assoc; cbn [app]; rewrite <- ?app_assoc; reflexivity).
      apply mtext_more; auto. apply jtext_ws; auto.
    + apply at_byte in E. destruct E as [(a' & E & _)|(p6 & -> & E)]; [destruct (WN _ _ _ H4 E)|].
      destruct p6 as [|c p6]; [discriminate E|]. injection E as <- E.
      rewrite !mrun_app, mrun_cons, C1 in HO by (first [lia|apply W; [assumption|]; eapply (proj1 texts_out); eassumption]).
      destruct (IHT p6 r E HO) as (l1 & k' & C & l2 & dv & v & q & E1 & HV & -> & HF). exists ((k, d) :: l1), k', C, l2, dv, v, q. split; [exact E1|]. split; [exact HV|]. split; [reflexivity|].
      intros d' t' H'. cbn [app].
      replace ((w1 ++ kt ++ w2 ++ 58 :: w3 ++ t ++ w4 ++ 44 :: p6) ++ t' ++ q) with (w1 ++ kt ++ w2 ++ 58 :: (w3 ++ t ++ w4) ++ 44 :: (p6 ++ t' ++ q)) by (repeat (rewrite <- ?app_assoc; cbn [app]); reflexivity).
      apply mtext_more; auto. apply jtext_ws; auto using value_jtext.
Qed.

(** ** The probe *)
Lemma mrun_of_out p r m : mrun (p ++ r) m <> MDead -> mrun p m <> MDead.
Proof. rewrite mrun_app. intros H E. rewrite E, mrun_dead in H. congruence. Qed.
Lemma probe_value dv v q r : VText dv v -> v ++ q = probe ++ r -> v = probe /\ q = r /\ dv = DArr [DStr []].
Proof.
  assert (P : probe = [91; 34; 34; 93]) by reflexivity. rewrite P. cbn [app].
  assert (WS : forall w (c : Z) r1 r2, Ws w -> ~ ws_char c -> w ++ r1 = c :: r2 -> w = [] /\ r1 = c :: r2).
  { intros [|x w] c r1 r2 H N E; [auto|]. injection E as -> _. inversion H; contradiction. }
  assert (N34 : ~ ws_char 34) by (unfold ws_char; lia). assert (N93 : ~ ws_char 93) by (unfold ws_char; lia).
  assert (ST : forall kt s r1 r2, StrText kt s -> kt ++ r1 = 34 :: 34 :: r2 -> kt = [34; 34] /\ r1 = r2 /\ s = []).
  { intros kt s r1 r2 (b & -> & H) E. cbn [app] in E. injection E as E. destruct H; cbn [app] in E; injection E; intros; subst; try congruence; try discriminate. auto. }
  assert (VT : forall d t r1 r2, VText d t -> t ++ r1 = 34 :: 34 :: r2 -> t = [34; 34] /\ r1 = r2 /\ d = DStr []).
  { intros d t r1 r2 H E. inversion H; subst; cbn -[bs] in E; try discriminate E.
    - match goal with K : StrText _ _ |- _ => destruct (ST _ _ _ _ K E) as (-> & -> & ->) end. auto.
    - match goal with K : NumText _ _ |- _ => apply NumText_chars in K; destruct K as [F NE]; destruct t as [|c t]; [congruence|]; injection E as -> _; inversion F as [|? ? X]; unfold num_char in X; lia end. }
  intros H E. inversion H; subst; cbn -[bs] in E; try discriminate E.
  - match goal with K : StrText _ _ |- _ => destruct K as (b & -> & _); discriminate E end.
  - match goal with K : NumText _ _ |- _ => apply NumText_chars in K; destruct K as [F NE]; destruct v as [|c t]; [congruence|]; injection E as -> _; inversion F as [|? ? X]; unfold num_char in X; lia end.
  - injection E as E. rewrite <- app_assoc in E. apply WS in E; [|assumption..]. destruct E as [_ E]. discriminate E.
  - injection E as E. match goal with K : EText _ _ |- _ => destruct K as [d w1 t w2 H1 HV H2|d w1 t w2 l ts H1 HV H2 HT] end; rewrite <- ?app_assoc in E.
    + apply WS in E; [|assumption..]. destruct E as [-> E]. destruct (VT _ _ _ _ HV E) as (-> & E' & ->). apply WS in E'; [|assumption..]. destruct E' as [-> E']. cbn [app] in E'. injection E' as ->. auto.
    + apply WS in E; [|assumption..]. destruct E as [-> E]. destruct (VT _ _ _ _ HV E) as (-> & E' & ->). apply WS in E'; [|assumption..]. destruct E' as [-> E']. cbn [app] in E'. discriminate E'.
Qed.
Theorem probe_hole d p q : JText d (p ++ probe ++ q) ->
  exists C, d = fill C (DArr [DStr []]) /\ forall d' t', JText d' t' -> JText (fill C d') (p ++ t' ++ q).
Proof.
  intros HJ. pose proof (jtext_out _ _ HJ) as HO.
  assert (HP : out (mrun p MOut)).
  { rewrite !mrun_app in HO. destruct (mrun p MOut) eqn:EM; [left; reflexivity| | |right; reflexivity|]; exfalso;
      (change (mrun probe _) with MDead in HO || idtac); rewrite ?mrun_dead in HO; destruct HO; discriminate. }
  destruct HJ as (w1 & t & w2 & E & H1 & H & H2). change (probe ++ q) with (91 :: bs """""]" ++ q) in E. symmetry in E.
  assert (WN : forall w p r, Ws w -> w = p ++ 91 :: r -> False).
  { intros w p0 r H0 E0. assert (X := not_in ws_char w p0 91 r H0 E0). unfold ws_char in X. lia. }
  apply at_byte in E. destruct E as [(a' & E & _)|(p1 & -> & E)]; [destruct (WN _ _ _ H1 E)|].
  rewrite mrun_app, (plain_out w1 (ws_plain _ H1)) in HP.
  apply at_byte in E. destruct E as [(a' & E & EQ)|(p2 & -> & E)]; [|destruct (WN _ _ _ H2 E)].
  destruct (proj1 bracket_opens d t H p1 a' E HP) as (C & dv & v & q1 & E1 & HV & -> & HF).
  assert (EP : v ++ q1 ++ w2 = probe ++ q). { rewrite app_assoc, <- E1. cbn [app]. rewrite <- EQ. reflexivity. }
  destruct (probe_value dv v (q1 ++ w2) q HV EP) as (-> & EQ1 & ->). exists C. split; [reflexivity|].
  intros d' t' H'. rewrite <- EQ1. replace ((w1 ++ p1) ++ t' ++ q1 ++ w2) with (w1 ++ (p1 ++ t' ++ q1) ++ w2) by (rewrite <- !app_assoc; reflexivity). apply jtext_ws; auto.
Qed.
