(** The walk and the visit relation; legality of the arguments; absence of faults. *)
From Coq Require Import String ZArith List Bool Lia Floats.SpecFloat.
From Flocq Require Import BinarySingleNaN.
From Verif Require Import Base Utf8 Utf8Facts F64 Lexer Driver Grammar NumValue LexSpec LexFacts RunFacts LexNumFacts Types Tree TreeFacts DriverFacts
  GrammarFacts Unambiguous Reading ReadFacts FromStr ParseSpec ParseFacts FloatRead.
Import ListNotations.
Open Scope Z_scope.

Lemma NumText_ok n t : NumText n t -> lit_ok n.
Proof.
  intros [neg i f ft e et H1 H2 H3]. unfold lit_ok, frac_digits. cbn [n_int n_frac n_exp].
  split; [apply IntDigits_digit, H1|]. split.
  - destruct H2; [constructor|assumption].
  - destruct H3; [exact I|assumption].
Qed.

Lemma finite_eq f : is_finite_SF f = f_is_finite f.
Proof. destruct f; reflexivity. Qed.

Lemma lit_event_legal n ev : lit_ok n -> lit_event n = Ok ev -> ev_legal ev.
Proof.
  intros H E. pose proof H as (Hi & _).
  destruct (lit_event_cases n Hi) as [[f K]|[K|[(_ & K & R)|(_ & K & R)]]]; rewrite K in E; try discriminate; injection E as <-.
  - apply lit_event_finite in K; [|exact H]. cbn [ev_legal]. rewrite <- finite_eq. apply K.
  - destruct R as (_ & N & _ & L). cbn [ev_legal]. split; [|exact L]. unfold lit_int. rewrite N.
    apply (FloatLit.digits_bound _ Hi).
  - destruct R as (_ & N & _ & L). cbn [ev_legal]. split; [exact L|]. unfold lit_int. rewrite N.
    pose proof (FloatLit.digits_bound _ Hi). lia.
Qed.

Lemma p_string_ok s t r : str_ok s = true -> p_string s = Some (t, r) -> str_ok t = true.
Proof.
  intros Hs E. pose proof (parse_str_eq false s s []) as P. rewrite E in P.
  destruct P as (b' & _ & H); [exists []; reflexivity|exact Hs|exact H].
Qed.

Lemma tok_legal s ev r : str_ok s = true -> tok s = Ok (ev, r) -> ev_legal ev.
Proof.
  intros Hs E. assert (HB : Forall byte_le s).
  { apply str_ok_bytes in Hs. eapply Forall_impl; [|exact Hs]. intros a Ha. apply Ha. }
  destruct (tok_sound _ _ _ HB E) as (w & x & _ & _ & H).
  destruct ev; try exact I.
  all: match goal with |- ev_legal (EStr _) => idtac | _ =>
    destruct H as (d & _ & Hx & Ht); destruct d as [| | |m|l|l]; try discriminate;
    [|rewrite tree_of_arr in Ht; destruct (trees_of l); discriminate|rewrite tree_of_obj in Ht; destruct (mtrees_of l); discriminate];
    cbn [tree_of] in Ht; destruct (lit_event m) as [ev| |] eqn:El; try discriminate; injection Ht as ->;
    inversion Hx; subst; eapply lit_event_legal; [eapply NumText_ok; eassumption|exact El] end.
  cbn [ev_legal]. clear H. unfold tok in E.
    assert (Hs1 : str_ok (skip_ws s) = true) by (destruct (skip_ws_consumes s) as [<-|[_ K]]; auto).
    destruct (skip_ws s) as [|c s1]; [discriminate|].
    destruct (Z.eqb_spec c 34) as [->|].
    { rewrite str_ok_ascii in Hs1 by reflexivity.
      destruct (p_string s1) as [[t r1]|] eqn:EP; [|discriminate]. injection E as <- <-. eapply p_string_ok; eassumption. }
    assert (L : forall n r1 ev', with_rest (lit_event n) r1 = Ok (ev', r) -> forall y, ev' <> EStr y).
    { intros n0 r1 ev' K y ->. unfold with_rest in K. destruct (lit_event n0) as [ev| |] eqn:El; try discriminate.
      injection K as -> _. clear -El. unfold lit_event in El. destruct (acc_int 0 (n_int n0)) as [a [|d rest]].
      - destruct (n_frac n0), (n_exp n0); unfold float_event in El;
          try (destruct (frac_float _ _ _ _ _); discriminate).
        destruct (negb (n_neg n0)); [discriminate|]. destruct (0 <? _); discriminate.
      - unfold float_event in El. destruct (frac_float _ _ _ _ _); discriminate. }
    destruct (is_digit c). { destruct (p_unsigned false (c :: s1)) as [[n0 r1]|]; [|discriminate]. edestruct L; [exact E|reflexivity]. }
    destruct (c =? 45). { destruct (p_unsigned true s1) as [[n0 r1]|]; [|discriminate]. edestruct L; [exact E|reflexivity]. }
    destruct (c =? 123); [discriminate|]. destruct (c =? 91); [discriminate|].
    destruct (c =? 110); [destruct (p_ident _ s1); discriminate|].
    destruct (c =? 116); [destruct (p_ident _ s1); discriminate|].
    destruct (c =? 102); [destruct (p_ident _ s1); discriminate|]. discriminate.
Qed.

Lemma p_next_ok first s r : str_ok s = true -> p_next first s = NItem r -> str_ok r = true.
Proof.
  intros Hs. unfold p_next.
  assert (Hs1 : str_ok (skip_ws s) = true) by (destruct (skip_ws_consumes s) as [<-|[_ K]]; auto).
  destruct (skip_ws s) as [|c t]; [destruct first; [intros [= <-]; exact Hs1|discriminate]|].
  destruct (Z.eqb_spec c 44) as [->|]; cbn [andb].
  - destruct first; cbn [negb].
    + intros [= <-]. exact Hs1.
    + intros [= <-]. rewrite str_ok_ascii in Hs1 by reflexivity. exact Hs1.
  - destruct ((c =? 93) || (c =? 125)); [discriminate|]. destruct first; [intros [= <-]; exact Hs1|discriminate].
Qed.
Lemma p_key_str_ok s k o : str_ok s = true -> p_key s = Some (k, o) -> str_ok k = true.
Proof.
  intros Hs. unfold p_key.
  assert (Hs1 : str_ok (skip_ws s) = true) by (destruct (skip_ws_consumes s) as [<-|[_ K]]; auto).
  destruct (skip_ws s) as [|c t]; [discriminate|].
  destruct (Z.eqb_spec c 34) as [->|]; [|discriminate]. rewrite str_ok_ascii in Hs1 by reflexivity.
  destruct (p_string t) as [[k' s3]|] eqn:E; [|discriminate].
  destruct (skip_ws s3) as [|c' s4]; [|destruct (c' =? 58)]; intros [= <- _]; eapply p_string_ok; eassumption.
Qed.

Lemma parse_legal n :
  (forall s t o, str_ok s = true -> pval n s = (t, o) -> tree_legal t) /\
  (forall first s l c o, str_ok s = true -> pitems n first s = (l, c, o) -> Forall tree_legal l) /\
  (forall first s l c o, str_ok s = true -> pmembers n first s = (l, c, o) ->
     Forall (fun kt => str_ok (fst kt) = true /\ tree_legal (snd kt)) l).
Proof.
  induction n as [|n (IHv & IHi & IHm)].
  { split; [|split]; cbn [pval pitems pmembers]; intros; match goal with H : (_, _) = _ |- _ => inversion H; subst end; constructor. }
  split; [|split].
  - intros s t o Hs. cbn [pval]. destruct (tok s) as [[ev s1]| |f] eqn:E;
      [|intros [= <- <-]; exact I|intros [= <- <-]; exact I].
    pose proof (tok_legal _ _ _ Hs E) as HL. apply tok_consumes in E. destruct E as [_ E]. specialize (E Hs).
    destruct ev; try (intros [= <- <-]; exact HL).
    + destruct (pitems n true s1) as [[l c] o1] eqn:E1. intros [= <- <-]. apply IHi in E1; [|exact E].
      cbn [tree_legal]. apply fold_and, E1.
    + destruct (pmembers n true s1) as [[l c] o1] eqn:E1. intros [= <- <-]. apply IHm in E1; [|exact E].
      cbn [tree_legal]. apply (fold_and (fun kt => str_ok (fst kt) = true /\ tree_legal (snd kt))), E1.
  - intros first s l c o Hs. cbn [pitems].
    destruct (p_next first s) as [s1|x t|] eqn:EN; [| |intros [= <- <- <-]; constructor].
    + apply p_next_ok in EN; [|exact Hs]. destruct (pval n s1) as [t [r1|]] eqn:E1.
      * destruct (pitems n false r1) as [[l' c'] o'] eqn:E2. intros [= <- <- <-].
        pose proof (proj1 (parse_consumes n) _ _ _ E1) as [_ C].
        constructor; [eapply IHv; eassumption|eapply IHi; [apply C, EN|exact E2]].
      * intros [= <- <- <-]. constructor; [eapply IHv; eassumption|constructor].
    + destruct (x =? 93); intros [= <- <- <-]; constructor.
  - intros first s l c o Hs. rewrite pmembers_S.
    destruct (p_next first s) as [s1|x t|] eqn:EN; [| |intros [= <- <- <-]; constructor].
    + apply p_next_ok in EN; [|exact Hs]. destruct (p_key s1) as [[k [s4|]]|] eqn:EK.
      * pose proof (p_key_str_ok _ _ _ EN EK) as HK. apply p_key_consumes in EK. destruct EK as [_ C4]. specialize (C4 EN).
        destruct (pval n s4) as [t [r1|]] eqn:E1.
        -- destruct (pmembers n false r1) as [[l' c'] o'] eqn:E2. intros [= <- <- <-].
           pose proof (proj1 (parse_consumes n) _ _ _ E1) as [_ C].
           constructor; [split; [exact HK|exact (IHv _ _ _ C4 E1)]|eapply IHm; [apply C, C4|exact E2]].
        -- intros [= <- <- <-]. constructor; [split; [exact HK|exact (IHv _ _ _ C4 E1)]|constructor].
      * intros [= <- <- <-]. constructor; [split; [exact (p_key_str_ok _ _ _ EN EK)|exact I]|constructor].
      * intros [= <- <- <-]. constructor.
    + destruct (x =? 125); intros [= <- <- <-]; constructor.
Qed.
Lemma pv_legal s : str_ok s = true -> tree_legal (fst (pv s)).
Proof. intros H. unfold pv. destruct (pval _ s) as [t o] eqn:E. exact (proj1 (parse_legal _) _ _ _ H E). Qed.

(** ** The walk of a document's tree succeeds exactly when the visit does *)
Section Walk.
Context {St V SH MH : Type}.
Variable I : iface St V SH MH.

Definition PV (d : doc) : Prop := forall v st st',
  Visit I d v st st' <-> exists t, tree_of d = Some t /\ feed I t v st = (Ok tt, st').

Lemma unit_ok {X : Type} (r : res unit) (x y : X) : (r, x) = (Ok tt, y) <-> (exists u, r = Ok u) /\ x = y.
Proof. split; [intros [= -> ->]; eauto|intros [[[] ->] ->]; reflexivity]. Qed.

Lemma items_visit l : Forall PV l -> forall q st st4,
  (exists st2 st3 r, VisitItems I q l st st2 /\ s_finish I q st2 = (Ok tt, st3) /\ s_drop I q st3 = (r, st4) /\ is_fault r = false) <->
  exists ts, trees_of l = Some ts /\ feed_items I (feed I) q ts true st = (Ok tt, st4).
Proof.
  intros H. induction H as [|d l Hd Hl IH]; intros q st st4.
  - split.
    + intros (st2 & st3 & r & H1 & H2 & H3 & H4). inversion H1; subst. exists []. split; [reflexivity|].
      cbn [feed_items finish_layer]. rewrite H2. cbn [drop_layer]. rewrite H3. destruct r; try discriminate; reflexivity.
    + intros (ts & [= <-] & HF). cbn [feed_items] in HF. unfold finish_layer in HF.
      destruct (s_finish I q st) as [[[]| |f] st3] eqn:E; [|exfalso; eapply drop_err_not_ok, HF|exfalso; eapply on_fault_not_ok, HF].
      cbn [drop_layer] in HF. destruct (s_drop I q st3) as [r st5] eqn:ED.
      exists st, st3, r. split; [constructor|]. split; [exact E|]. destruct r; try discriminate; injection HF as <-; auto.
  - split.
    + intros (st2 & st3 & r & H1 & H2). inversion H1 as [|? ? ? v ? s1 s2 ? E1 HV HI]; subst.
      apply Hd in HV. destruct HV as (t & Ht & HF).
      destruct (proj1 (IH q s2 st4)) as (ts & Hts & HF2); [eauto 6|].
      exists (t :: ts). cbn [trees_of]. rewrite Ht, Hts. split; [reflexivity|].
      cbn [feed_items]. rewrite E1, HF. exact HF2.
    + intros (ts & Hts & HF). apply trees_cons in Hts. destruct Hts as (t & ts' & -> & Ht & Hts).
      cbn [feed_items] in HF. destruct (s_element I q st) as [[v| |f] st1] eqn:E1; [|exfalso; eapply drop_err_not_ok, HF|exfalso; eapply on_fault_not_ok, HF].
      destruct (feed I t v st1) as [[[]| |f] s2] eqn:EF; [|exfalso; eapply drop_err_not_ok, HF|exfalso; eapply on_fault_not_ok, HF].
      destruct (proj2 (IH q s2 st4)) as (st2 & st3 & r & HI & HR); [eauto|].
      exists st2, st3, r. split; [|exact HR]. econstructor; [exact E1| |exact HI]. apply Hd. eauto.
Qed.

Lemma members_visit l : Forall (fun kd => PV (snd kd)) l -> forall q st st4,
  (exists st2 st3 r, VisitMembers I q l st st2 /\ m_finish I q st2 = (Ok tt, st3) /\ m_drop I q st3 = (r, st4) /\ is_fault r = false) <->
  exists ts, mtrees_of l = Some ts /\ feed_members I (feed I) q ts true st = (Ok tt, st4).
Proof.
  intros H. induction H as [|[k d] l Hd Hl IH]; intros q st st4.
  - split.
    + intros (st2 & st3 & r & H1 & H2 & H3 & H4). inversion H1; subst. exists []. split; [reflexivity|].
      cbn [feed_members finish_layer]. rewrite H2. cbn [drop_layer]. rewrite H3. destruct r; try discriminate; reflexivity.
    + intros (ts & [= <-] & HF). cbn [feed_members] in HF. unfold finish_layer in HF.
      destruct (m_finish I q st) as [[[]| |f] st3] eqn:E; [|exfalso; eapply drop_err_not_ok, HF|exfalso; eapply on_fault_not_ok, HF].
      cbn [drop_layer] in HF. destruct (m_drop I q st3) as [r st5] eqn:ED.
      exists st, st3, r. split; [constructor|]. split; [exact E|]. destruct r; try discriminate; injection HF as <-; auto.
  - cbn [snd] in Hd. split.
    + intros (st2 & st3 & r & H1 & H2). inversion H1 as [|? ? ? ? v ? s1 s2 ? E1 HV HI]; subst.
      apply Hd in HV. destruct HV as (t & Ht & HF).
      destruct (proj1 (IH q s2 st4)) as (ts & Hts & HF2); [eauto 6|].
      exists ((k, t) :: ts). cbn [mtrees_of]. rewrite Ht, Hts. split; [reflexivity|].
      cbn [feed_members]. rewrite E1, HF. exact HF2.
    + intros (ts & Hts & HF). apply mtrees_cons in Hts. destruct Hts as (t & ts' & -> & Ht & Hts).
      cbn [feed_members] in HF. destruct (m_key I q k st) as [[v| |f] st1] eqn:E1; [|exfalso; eapply drop_err_not_ok, HF|exfalso; eapply on_fault_not_ok, HF].
      destruct (feed I t v st1) as [[[]| |f] s2] eqn:EF; [|exfalso; eapply drop_err_not_ok, HF|exfalso; eapply on_fault_not_ok, HF].
      destruct (proj2 (IH q s2 st4)) as (st2 & st3 & r & HI & HR); [eauto|].
      exists st2, st3, r. split; [|exact HR]. econstructor; [exact E1| |exact HI]. apply Hd. eauto.
Qed.

Lemma visit_feed d : doc_ok d -> PV d.
Proof.
  induction d as [|b|s|n|l IH|l IH] using doc_ind'; intros HD v st st'.
  - cbn [tree_of]. split.
    + intros H. inversion H; subst. exists (PLeaf ENull). split; [reflexivity|assumption].
    + intros (t & [= <-] & H). constructor. exact H.
  - cbn [tree_of]. split.
    + intros H. inversion H; subst. eexists. split; [reflexivity|assumption].
    + intros (t & [= <-] & H). constructor. exact H.
  - cbn [tree_of]. split.
    + intros H. inversion H; subst. eexists. split; [reflexivity|assumption].
    + intros (t & [= <-] & H). constructor. exact H.
  - cbn [tree_of doc_ok] in *. split.
    + intros H. inversion H as [| | |? z ? ? ? R E|? z ? ? ? R E|? f ? ? ? R E| |]; subst.
      * apply (lit_event_u n z HD) in R. rewrite R. eexists. split; [reflexivity|exact E].
      * apply (lit_event_i n z HD) in R. rewrite R. eexists. split; [reflexivity|exact E].
      * unfold reads_f in R. rewrite R. eexists. split; [reflexivity|exact E].
    + intros (t & Ht & H). destruct (lit_event n) as [ev| |] eqn:El; try discriminate. injection Ht as <-.
      destruct (lit_event_cases n HD) as [[f K]|[K|[(_ & K & R)|(_ & K & R)]]]; rewrite K in El; try discriminate; injection El as <-.
      * eapply vi_float; [exact K|exact H].
      * eapply vi_nonneg; [exact R|exact H].
      * eapply vi_neg; [exact R|exact H].
  - apply doc_ok_arr in HD. assert (HP : Forall PV l).
    { rewrite Forall_forall in *. auto. }
    rewrite tree_of_arr. split.
    + intros H. inversion H as [| | | | | |? ? q ? st1 st2 st3 r ? E1 HI E2 E3 E4|]; subst.
      destruct (proj1 (items_visit l HP q st1 st')) as (ts & Hts & HF); [eauto 8|].
      rewrite Hts. eexists. split; [reflexivity|]. cbn [feed]. rewrite E1. exact HF.
    + intros (t & Ht & H). destruct (trees_of l) as [ts|] eqn:ET; [|discriminate]. injection Ht as <-.
      cbn [feed] in H. destruct (v_seq I v st) as [[q| |f] st1] eqn:E1; try discriminate.
      destruct (proj2 (items_visit l HP q st1 st')) as (st2 & st3 & r & A & B & C & D); [eauto|].
      eapply vi_seq; eassumption.
  - apply doc_ok_obj in HD. assert (HP : Forall (fun kd => PV (snd kd)) l).
    { rewrite Forall_forall in *. auto. }
    rewrite tree_of_obj. split.
    + intros H. inversion H as [| | | | | | |? ? q ? st1 st2 st3 r ? E1 HI E2 E3 E4]; subst.
      destruct (proj1 (members_visit l HP q st1 st')) as (ts & Hts & HF); [eauto 8|].
      rewrite Hts. eexists. split; [reflexivity|]. cbn [feed]. rewrite E1. exact HF.
    + intros (t & Ht & H). destruct (mtrees_of l) as [ts|] eqn:ET; [|discriminate]. injection Ht as <-.
      cbn [feed] in H. destruct (v_map I v st) as [[q| |f] st1] eqn:E1; try discriminate.
      destruct (proj2 (members_visit l HP q st1 st')) as (st2 & st3 & r & A & B & C & D); [eauto|].
      eapply vi_map; eassumption.
Qed.

(** ** No faults of its own *)
Lemma feed_faultless t : faultless I -> forall v st, is_fault (fst (feed I t v st)) = false.
Proof.
  intros (F1 & F2 & F3 & F4 & F5 & F6 & F7 & F8 & F9 & F10 & F11 & F12 & F13 & F14).
  assert (FD : forall ly st, is_fault (fst (drop_err I ly st)) = false).
  { intros [q|m] st; unfold drop_err; cbn [drop_layer].
    - specialize (F11 q st). destruct (s_drop I q st) as [[| |] ?]; cbn in *; congruence.
    - specialize (F14 m st). destruct (m_drop I m st) as [[| |] ?]; cbn in *; congruence. }
  assert (FF : forall ly c st, is_fault (fst (finish_layer I ly c st)) = false).
  { intros [q|m] [] st; unfold finish_layer; try apply FD; cbn [drop_layer].
    - specialize (F10 q st). destruct (s_finish I q st) as [[| |] s1]; cbn in F10; try discriminate; [|apply FD].
      specialize (F11 q s1). destruct (s_drop I q s1) as [[| |] ?]; cbn in *; congruence.
    - specialize (F13 m st). destruct (m_finish I m st) as [[| |] s1]; cbn in F13; try discriminate; [|apply FD].
      specialize (F14 m s1). destruct (m_drop I m s1) as [[| |] ?]; cbn in *; congruence. }
  induction t as [|ev|l c IH|l c IH] using ptree_ind'; intros v st; cbn [feed]; [reflexivity| | |].
  - destruct ev; first [reflexivity|apply F1|apply F2|apply F3|apply F4|apply F5|apply F6].
  - specialize (F7 v st). destruct (v_seq I v st) as [[q| |f] st1]; cbn in F7; [|reflexivity|discriminate].
    revert st1. induction IH as [|t l Ht IH IHl]; intros st1; cbn [feed_items]; [apply FF|].
    pose proof (F9 q st1) as K. destruct (s_element I q st1) as [[v1| |f] st2]; cbn in K; [|apply FD|discriminate].
    pose proof (Ht v1 st2) as K2. destruct (feed I t v1 st2) as [[u| |f] st3]; cbn in K2; [apply IHl|apply FD|discriminate].
  - specialize (F8 v st). destruct (v_map I v st) as [[q| |f] st1]; cbn in F8; [|reflexivity|discriminate].
    revert st1. induction IH as [|[k t] l Ht IH IHl]; intros st1; cbn [feed_members]; [apply FF|]. cbn [snd] in Ht.
    pose proof (F12 q k st1) as K. destruct (m_key I q k st1) as [[v1| |f] st2]; cbn in K; [|apply FD|discriminate].
    pose proof (Ht v1 st2) as K2. destruct (feed I t v1 st2) as [[u| |f] st3]; cbn in K2; [apply IHl|apply FD|discriminate].
Qed.
End Walk.
