(** The crate's containers in the open world. *)
From Coq Require Import String ZArith List Bool Lia.
From Verif Require Import Base Utf8 F64 Lexer Types Ser SerSpec EscFacts SerFacts OpenSer OpenSerSpec OpenSerFacts.
Import ListNotations.
Open Scope Z_scope.

Section Main.
Context {St X K SQ MP : Type}.
Variable U : user St X K SQ MP.
Variable ryu : f64 -> bytes.
Hypothesis HU : rust_like U.
Notation I := (open_iface U).
Notation val := (cval X K).
Notation writes := (writes U ryu).

Lemma open_returns : returns I.
Proof.
  destruct HU as (HB & HQ & HM & HDQ & HDM & HK). unfold returns. cbn [open_iface i_begin i_seq_next i_map_next i_seq_drop i_map_drop].
  assert (OK : forall (A : Type) (a : A), runs (Ok a)) by (intros A a; left; eauto).
  split; [|split; [|split; [|split]]].
  - fix IH 1. intros c st. destruct c as [x| |b|s|n|n|f|c|[c|]|a b|l|l|fs|name]; try (cbn [c_begin fst]; apply OK).
    + cbn [c_begin]. apply HB.
    + cbn [c_begin]. apply IH.
    + cbn [c_begin]. apply IH.
  - intros [q|[|c l]|a b n] st; cbn [o_seq_next fst]; try apply OK. specialize (HQ q st). destruct (x_seq_next U q st) as [[r q'] st1]. exact HQ.
  - intros [m|[|[k c] l]|fs n] st; cbn [o_map_next fst]; try apply OK.
    + specialize (HM m st). destruct (x_map_next U m st) as [[r m'] st1]. apply HM.
    + specialize (HK k st). destruct HK as [HK _]. destruct (x_key U k st) as [[s| |f] st1]; cbn [fst] in *; destruct HK as [[a E]|E]; try discriminate E; [apply OK|]. inversion E. right. reflexivity.
  - intros [q|l|a b n] st; cbn [o_seq_drop fst]; try apply OK. apply HDQ.
  - intros [m|l|fs n] st; cbn [o_map_drop fst]; try apply OK. apply HDM.
Qed.
Lemma open_valid : strs_valid I.
Proof.
  destruct HU as (HB & HQ & HM & HDQ & HDM & HK). split; cbn [open_iface i_begin i_map_next].
  - fix IH 1. intros c st s st'. destruct c as [x| |b|s0|n|n|f|c|[c|]|a b|l|l|fs|name]; cbn [c_begin]; try discriminate.
    + apply HB.
    + intros E. inversion E. apply text_utf8.
    + apply IH.
    + apply IH.
    + intros E. inversion E. apply text_utf8.
  - intros [m|[|[k0 c] l]|fs n] st k d m' st'; cbn [o_map_next]; try discriminate.
    + destruct (x_map_next U m st) as [[r m1] st1] eqn:E. intros E2. inversion E2; subst. eapply (proj2 (HM m st)), E.
    + destruct (x_key U k0 st) as [[s| |f] st1] eqn:E; intros E2; inversion E2; subst. eapply (proj2 (HK k0 st)), E.
    + intros E. injection E as E1 _ _. destruct (nth_error fs n) as [[nm c]|]; [|discriminate E1]. cbn in E1. inversion E1. apply text_utf8.
Qed.

Lemma writes_done c st r st' : writes c st r st' <-> done I ryu c st r st'.
Proof. reflexivity. Qed.

Lemma writes_det c st r st' r2 st2 : writes c st r st' -> writes c st r2 st2 -> r = r2 /\ st' = st2.
Proof. apply done_det; [apply open_returns|apply open_valid]. Qed.
Lemma writes_usual c st r st' : writes c st r st' -> (exists s, r = Ok s) \/ r = Fault FPanic \/ r = Fault FAbort.
Proof. apply done_usual; [apply open_returns|apply open_valid]. Qed.

Lemma writes_begin c st f st1 c2 st2 : c_begin U c st = (Ok f, st1) -> c_begin U c2 st2 = (Ok f, st1) ->
  forall r st', writes c st r st' <-> writes c2 st2 r st'.
Proof.
  assert (H : forall c st c2 st2, c_begin U c st = (Ok f, st1) -> c_begin U c2 st2 = (Ok f, st1) -> forall r st', writes c st r st' -> writes c2 st2 r st').
  { intros a sa b sb Ea Eb r st' [fuel [E N]]. exists fuel. split; [|exact N]. destruct fuel as [|fuel]; [cbn in E; inversion E; subst; contradiction N; reflexivity|].
    unfold to_string_impl in *. rewrite loop_S in *. cbn [open_iface i_begin] in *. rewrite Ea in E. rewrite Eb. exact E. }
  intros Ea Eb r st'. split; eauto.
Qed.
Lemma writes_same c c2 : (forall st, c_begin U c st = c_begin U c2 st) -> forall st r st', writes c st r st' <-> writes c2 st r st'.
Proof.
  assert (H : forall c c2, (forall st, c_begin U c st = c_begin U c2 st) -> forall st r st', writes c st r st' -> writes c2 st r st').
  { intros a b E0 st r st' [fuel [E N]]. exists fuel. split; [|exact N]. destruct fuel as [|fuel]; [exact E|].
    unfold to_string_impl in *. rewrite loop_S in *. cbn [open_iface i_begin] in *. rewrite <- E0. exact E. }
  intros E st r st'. split; apply H; auto.
Qed.
Lemma writes_panic c st st1 : c_begin U c st = (Fault FPanic, st1) -> forall r st', writes c st r st' <-> r = Fault FPanic /\ st' = st1.
Proof.
  intros E r st'. split.
  - intros [fuel [L N]]. destruct fuel as [|fuel]; [cbn in L; inversion L; subst; contradiction N; reflexivity|].
    unfold to_string_impl in L. rewrite loop_S in L. cbn [open_iface i_begin] in L. rewrite E in L. cbn [son_fault sunwind] in L. inversion L. auto.
  - intros [-> ->]. exists 1%nat. unfold to_string_impl. rewrite loop_S. cbn [open_iface i_begin]. rewrite E. split; [reflexivity|discriminate].
Qed.
Lemma writes_scalar c st f s : c_begin U c st = (Ok f, st) -> (forall out, ser_turn I ryu f [] out st = (Ok (SReturn (out ++ s)), st)) ->
  forall r st', writes c st r st' <-> r = Ok s /\ st' = st.
Proof.
  intros E T r st'. split.
  - intros [fuel [L N]]. destruct fuel as [|fuel]; [cbn in L; inversion L; subst; contradiction N; reflexivity|].
    unfold to_string_impl in L. rewrite loop_S in L. cbn [open_iface i_begin] in L. rewrite E, T in L. inversion L. auto.
  - intros [-> ->]. exists 1%nat. unfold to_string_impl. rewrite loop_S. cbn [open_iface i_begin]. rewrite E, T. split; [reflexivity|discriminate].
Qed.

Notation out_of := (out_of I ryu).
Lemma out_seq q st rs st' : out_of (SLSeq q) st rs st' <-> drained U ryu (o_seq_next U) (o_seq_drop U) q st rs st'.
Proof.
  split.
  - intros H. remember (SLSeq q) as l eqn:El. revert q El.
    assert (LN : forall q st r l' st1, lnext I (SLSeq q) st = (r, l', st1) -> exists q', l' = SLSeq q' /\ o_seq_next U q st = (match r with Ok (Some (_, d)) => Ok (Some d) | Ok None => Ok None | Err => Err | Fault f => Fault f end, q', st1) /\ forall p d, r = Ok (Some (p, d)) -> p = []).
    { intros q0 st0 r l' st1. cbn [lnext open_iface i_seq_next]. destruct (o_seq_next U q0 st0) as [[r0 q'] st2]. intros E. inversion E; subst. exists q'. destruct r0 as [[d|]| |f]; split; [reflexivity| |reflexivity| |reflexivity| |reflexivity|]; (split; [reflexivity|]); intros p0 d0 K0; inversion K0; reflexivity. }
    assert (FA : forall q st f st', falls I (SLSeq q) st f st' -> exists rd, o_seq_drop U q st = (rd, st') /\ f = dropped_by_panic rd).
    { intros q0 st0 f st1 [u st2 E|st2 E]; cbn [sdrop open_iface i_seq_drop] in E; eauto. }
    induction H as [l st l' st1 u st2 E ED|l st l' st1 st2 E ED|l st l' st1 f st2 E HF|l st p d l' st1 s st2 r st3 E HD HO IH|l st p d l' st1 st2 f st3 E HD HF|l st p d l' st1 f st2 E HD NP]; intros q ->; destruct (LN _ _ _ _ _ E) as (q' & -> & E' & EP).
    + destruct u. eapply dr_end; [exact E'|exact ED].
    + eapply dr_end_panic; [exact E'|exact ED].
    + destruct (FA _ _ _ _ HF) as (rd & ED & ->). eapply dr_panic; [exact E'|exact ED].
    + rewrite (EP _ _ eq_refl). eapply dr_item; [exact E'|exact HD|apply IH; reflexivity].
    + destruct (FA _ _ _ _ HF) as (rd & ED & ->). eapply dr_item_panic; [exact E'|exact HD|exact ED].
    + destruct (writes_usual _ _ _ _ HD) as [[s K0]|[K0|K0]]; inversion K0; subst; [contradiction|]. eapply dr_item_abort; [exact E'|exact HD].
  - intros H.
    assert (LN : forall q st r q' st1, o_seq_next U q st = (r, q', st1) -> lnext I (SLSeq q) st = (match r with Ok (Some d) => Ok (Some ([], d)) | Ok None => Ok None | Err => Err | Fault f => Fault f end, SLSeq q', st1)).
    { intros q0 st0 r q' st1 E. cbn [lnext open_iface i_seq_next]. rewrite E. reflexivity. }
    assert (FA : forall q st rd st', o_seq_drop U q st = (rd, st') -> falls I (SLSeq q) st (dropped_by_panic rd) st').
    { intros q0 st0 rd st1 E. pose proof (sdrop_runs I open_returns (SLSeq q0) st0) as HS. cbn [sdrop open_iface i_seq_drop] in HS. rewrite E in HS. destruct HS as [[u K0]|K0]; cbn [fst] in K0; subst rd; econstructor; exact E. }
    induction H as [q st q' st1 st2 E ED|q st q' st1 st2 E ED|q st q' st1 rd st2 E ED|q st c q' st1 s st2 r st3 E HW HO IH|q st c q' st1 st2 rd st3 E HW ED|q st c q' st1 st2 E HW]; apply LN in E.
    + eapply oo_end; [exact E|exact ED].
    + eapply oo_end_panic; [exact E|exact ED].
    + eapply oo_panic; [exact E|apply FA, ED].
    + apply (oo_item I ryu _ _ [] c _ _ s _ _ _ E HW IH).
    + eapply oo_item_panic; [exact E|exact HW|apply FA, ED].
    + eapply oo_item_fault; [exact E|exact HW|discriminate].
Qed.
Lemma out_map m st rs st' : out_of (SLMap m) st rs st' <-> drained_map U ryu (o_map_next U) (o_map_drop U) m st rs st'.
Proof.
  split.
  - intros H. remember (SLMap m) as l eqn:El. revert m El.
    assert (LN : forall m st r l' st1, lnext I (SLMap m) st = (r, l', st1) -> exists m', l' = SLMap m' /\ match r with Ok (Some (p, d)) => exists k, p = quote k ++ [58] /\ o_map_next U m st = (Ok (Some (k, d)), m', st1) | Ok None => o_map_next U m st = (Ok None, m', st1) | Err => o_map_next U m st = (Err, m', st1) | Fault f => o_map_next U m st = (Fault f, m', st1) end).
    { intros m0 st0 r l' st1. cbn [lnext open_iface i_map_next]. destruct (o_map_next U m0 st0) as [[r0 m'] st2]. intros E. inversion E; subst. exists m'. split; [reflexivity|]. destruct r0 as [[[k d]|]| |f]; try reflexivity. exists k. split; reflexivity. }
    assert (FA : forall m st f st', falls I (SLMap m) st f st' -> exists rd, o_map_drop U m st = (rd, st') /\ f = dropped_by_panic rd).
    { intros m0 st0 f st1 [u st2 E|st2 E]; cbn [sdrop open_iface i_map_drop] in E; eauto. }
    induction H as [l st l' st1 u st2 E ED|l st l' st1 st2 E ED|l st l' st1 f st2 E HF|l st p d l' st1 s st2 r st3 E HD HO IH|l st p d l' st1 st2 f st3 E HD HF|l st p d l' st1 f st2 E HD NP]; intros m ->; destruct (LN _ _ _ _ _ E) as (m' & -> & E').
    + destruct u. eapply dm_end; [exact E'|exact ED].
    + eapply dm_end_panic; [exact E'|exact ED].
    + destruct (FA _ _ _ _ HF) as (rd & ED & ->). eapply dm_panic; [exact E'|exact ED].
    + destruct E' as (k & -> & E'). rewrite <- app_assoc. eapply dm_item; [exact E'|exact HD|apply IH; reflexivity].
    + destruct E' as (k & -> & E'). destruct (FA _ _ _ _ HF) as (rd & ED & ->). eapply dm_item_panic; [exact E'|exact HD|exact ED].
    + destruct E' as (k & -> & E'). destruct (writes_usual _ _ _ _ HD) as [[s K0]|[K0|K0]]; inversion K0; subst; [contradiction|]. eapply dm_item_abort; [exact E'|exact HD].
  - intros H.
    assert (LN : forall m st r m' st1, o_map_next U m st = (r, m', st1) -> lnext I (SLMap m) st = (match r with Ok (Some (k, d)) => Ok (Some (quote k ++ [58], d)) | Ok None => Ok None | Err => Err | Fault f => Fault f end, SLMap m', st1)).
    { intros m0 st0 r m' st1 E. cbn [lnext open_iface i_map_next]. rewrite E. reflexivity. }
    assert (FA : forall m st rd st', o_map_drop U m st = (rd, st') -> falls I (SLMap m) st (dropped_by_panic rd) st').
    { intros m0 st0 rd st1 E. pose proof (sdrop_runs I open_returns (SLMap m0) st0) as HS. cbn [sdrop open_iface i_map_drop] in HS. rewrite E in HS. destruct HS as [[u K0]|K0]; cbn [fst] in K0; subst rd; econstructor; exact E. }
    induction H as [m st m' st1 st2 E ED|m st m' st1 st2 E ED|m st m' st1 rd st2 E ED|m st k c m' st1 s st2 r st3 E HW HO IH|m st k c m' st1 st2 rd st3 E HW ED|m st k c m' st1 st2 E HW]; apply LN in E.
    + eapply oo_end; [exact E|exact ED].
    + eapply oo_end_panic; [exact E|exact ED].
    + eapply oo_panic; [exact E|apply FA, ED].
    + replace (quote k ++ 58 :: s) with ((quote k ++ [58]) ++ s) by (rewrite <- app_assoc; reflexivity). apply (oo_item I ryu _ _ _ c _ _ s _ _ _ E HW IH).
    + eapply oo_item_panic; [exact E|exact HW|apply FA, ED].
    + eapply oo_item_fault; [exact E|exact HW|discriminate].
Qed.

Lemma writes_seq c q st st1 r st' : c_begin U c st = (Ok (FSeq q), st1) ->
  (writes c st r st' <-> exists rs, drained U ryu (o_seq_next U) (o_seq_drop U) q st1 rs st' /\ r = in_brackets rs).
Proof.
  intros E. rewrite writes_done, (done_iter I ryu open_returns open_valid c (SLSeq q) st st1 r st' E).
  split; intros [rs [H ->]]; exists rs; (split; [apply out_seq, H|destruct rs; reflexivity]).
Qed.
Lemma writes_map c m st st1 r st' : c_begin U c st = (Ok (FMap m), st1) ->
  (writes c st r st' <-> exists rs, drained_map U ryu (o_map_next U) (o_map_drop U) m st1 rs st' /\ r = in_braces rs).
Proof.
  intros E. rewrite writes_done, (done_iter I ryu open_returns open_valid c (SLMap m) st st1 r st' E).
  split; intros [rs [H ->]]; exists rs; (split; [apply out_map, H|destruct rs; reflexivity]).
Qed.

(** Slices. *)
Lemma drained_slice l : forall st rs st', drained U ryu (o_seq_next U) (o_seq_drop U) (OSlice l) st rs st' <-> each U ryu l st rs st'.
Proof.
  induction l as [|c l IH]; intros st rs st'; split; intros H.
  - inversion H as [? ? ? ? ? E ED|? ? ? ? ? E ED|? ? ? ? ? ? E|? ? ? ? ? ? ? ? ? E|? ? ? ? ? ? ? ? E|? ? ? ? ? ? E]; subst; cbn [o_seq_next] in E; inversion E; subst; cbn [o_seq_drop] in ED; inversion ED; subst. constructor.
  - inversion H; subst. eapply dr_end; reflexivity.
  - inversion H as [? ? ? ? ? E ED|? ? ? ? ? E ED|? ? ? ? ? ? E|? ? ? ? ? s ? r ? E HW HD|? ? ? ? ? ? ? ? E HW ED|? ? ? ? ? ? E HW]; subst; cbn [o_seq_next] in E; inversion E; subst.
    + econstructor; [exact HW|apply IH, HD].
    + cbn [o_seq_drop] in ED. inversion ED; subst. apply ea_fault, HW.
    + apply ea_fault, HW.
  - inversion H as [|? ? ? s ? r ? HW HE|? ? ? f ? HW]; subst.
    + eapply dr_item; [reflexivity|exact HW|apply IH, HE].
    + destruct (writes_usual _ _ _ _ HW) as [[s E]|[E|E]]; inversion E; subst.
      * eapply (dr_item_panic U ryu (o_seq_next U) (o_seq_drop U) _ _ _ _ _ _ (Ok tt)); [reflexivity|exact HW|reflexivity].
      * eapply dr_item_abort; [reflexivity|exact HW].
Qed.
(** Pairs. *)
Lemma drained_tuple a b n : forall st rs st', drained U ryu (o_seq_next U) (o_seq_drop U) (OTuple a b n) st rs st' <-> each U ryu (skipn n [a; b]) st rs st'.
Proof.
  assert (P : forall n l, l = skipn n [a; b] -> forall st rs st', drained U ryu (o_seq_next U) (o_seq_drop U) (OTuple a b n) st rs st' <-> each U ryu l st rs st').
  { intros n0 l. revert n0. induction l as [|c l IH]; intros n0 El st rs st'.
    - assert (EN : forall st, o_seq_next U (OTuple a b n0) st = (Ok None, OTuple a b (S n0), st)). { destruct n0 as [|[|n0]]; [discriminate El|discriminate El|reflexivity]. }
      split; intros H.
      + inversion H as [? ? ? ? ? E ED|? ? ? ? ? E ED|? ? ? ? ? ? E|? ? ? ? ? ? ? ? ? E|? ? ? ? ? ? ? ? E|? ? ? ? ? ? E]; subst; rewrite EN in E; inversion E; subst; cbn [o_seq_drop] in ED; inversion ED; subst. constructor.
      + inversion H; subst. eapply dr_end; [apply EN|reflexivity].
    - assert (EN : forall st, o_seq_next U (OTuple a b n0) st = (Ok (Some c), OTuple a b (S n0), st)). { destruct n0 as [|[|n0]]; cbn in El; [inversion El; reflexivity|inversion El; reflexivity|destruct n0; discriminate El]. }
      assert (EL : l = skipn (S n0) [a; b]). { destruct n0 as [|[|n0]]; cbn in El |- *; [inversion El; reflexivity|inversion El; reflexivity|destruct n0; discriminate El]. }
      split; intros H.
      + inversion H as [? ? ? ? ? E ED|? ? ? ? ? E ED|? ? ? ? ? ? E|? ? ? ? ? s ? r ? E HW HD|? ? ? ? ? ? ? ? E HW ED|? ? ? ? ? ? E HW]; subst; rewrite EN in E; inversion E; subst.
        * eapply ea_cons; [exact HW|apply (IH (S n0) eq_refl), HD].
        * cbn [o_seq_drop] in ED. inversion ED; subst. apply ea_fault, HW.
        * apply ea_fault, HW.
      + inversion H as [|? ? ? s ? r ? HW HE|? ? ? f ? HW]; subst.
        * eapply dr_item; [apply EN|exact HW|apply (IH (S n0) eq_refl), HE].
        * destruct (writes_usual _ _ _ _ HW) as [[s E]|[E|E]]; inversion E; subst.
          -- eapply (dr_item_panic U ryu (o_seq_next U) (o_seq_drop U) _ _ _ _ _ _ (Ok tt)); [apply EN|exact HW|reflexivity].
          -- eapply dr_item_abort; [apply EN|exact HW]. }
  apply P. reflexivity.
Qed.
(** Maps. *)
Lemma drained_entries l : forall st rs st', drained_map U ryu (o_map_next U) (o_map_drop U) (OEntries l) st rs st' <-> each_entry U ryu l st rs st'.
Proof.
  induction l as [|[k c] l IH]; intros st rs st'; split; intros H.
  - inversion H as [? ? ? ? ? E ED|? ? ? ? ? E ED|? ? ? ? ? ? E|? ? ? ? ? ? ? ? ? ? E|? ? ? ? ? ? ? ? ? E|? ? ? ? ? ? ? E]; subst; cbn [o_map_next] in E; inversion E; subst; cbn [o_map_drop] in ED; inversion ED; subst. constructor.
  - inversion H; subst. eapply dm_end; reflexivity.
  - inversion H as [? ? ? ? ? E ED|? ? ? ? ? E ED|? ? ? ? ? ? E ED|? ? ? ? ? ? s ? r ? E HW HD|? ? ? ? ? ? ? ? ? E HW ED|? ? ? ? ? ? ? E HW]; subst; cbn [o_map_next] in E; destruct (x_key U k st) as [[ks| |fk] sk] eqn:EK; inversion E; subst.
    + cbn [o_map_drop] in ED. inversion ED; subst. eapply ee_key, EK.
    + eapply ee_cons; [exact EK|exact HW|apply IH, HD].
    + cbn [o_map_drop] in ED. inversion ED; subst. eapply ee_fault; [exact EK|exact HW].
    + eapply ee_fault; [exact EK|exact HW].
  - assert (EN : forall st ks st1, x_key U k st = (Ok ks, st1) -> o_map_next U (OEntries ((k, c) :: l)) st = (Ok (Some (ks, c)), OEntries l, st1)). { intros st0 ks st1 EK. cbn [o_map_next]. rewrite EK. reflexivity. }
    inversion H as [|? ? ? ? ks ? s ? r ? EK HW HE|? ? ? ? f ? EK|? ? ? ? ks ? f ? EK HW]; subst.
    + eapply dm_item; [apply EN, EK|exact HW|apply IH, HE].
    + pose proof (proj1 (proj2 (proj2 (proj2 (proj2 (proj2 HU)))) k st)) as RK. rewrite EK in RK. destruct RK as [[a E]|E]; cbn [fst] in E; inversion E; subst.
      eapply (dm_panic U ryu (o_map_next U) (o_map_drop U) _ _ (OEntries l) _ (Ok tt)); [cbn [o_map_next]; rewrite EK; reflexivity|reflexivity].
    + destruct (writes_usual _ _ _ _ HW) as [[s E]|[E|E]]; inversion E; subst.
      * eapply (dm_item_panic U ryu (o_map_next U) (o_map_drop U) _ _ _ _ _ _ _ (Ok tt)); [apply EN, EK|exact HW|reflexivity].
      * eapply dm_item_abort; [apply EN, EK|exact HW].
Qed.
(** Structs. *)
Lemma drained_fields fs : forall rest n, rest = skipn n fs -> forall st rs st',
  drained_map U ryu (o_map_next U) (o_map_drop U) (OFields fs n) st rs st' <-> exists rs0, each U ryu (map snd rest) st rs0 st' /\ rs = with_names (map (fun f => text (fst f)) rest) rs0.
Proof.
  assert (NX : forall n f (rest : list (rstr * val)), f :: rest = skipn n fs -> nth_error fs n = Some f /\ rest = skipn (S n) fs).
  { clear. intros n. revert fs. induction n as [|n IH]; intros fs f rest E; [cbn in E; subst fs; split; reflexivity|]. destruct fs as [|g fs]; [discriminate E|]. cbn [skipn] in E. destruct (IH fs f rest E) as [A B]. split; [exact A|exact B]. }
  induction rest as [|[nm c] rest IH]; intros n En st rs st'.
  - assert (EN : forall st, o_map_next U (OFields fs n) st = (Ok None, OFields fs (S n), st)).
    { intros st0. cbn [o_map_next]. replace (nth_error fs n) with (@None (rstr * val)); [reflexivity|]. symmetry. apply nth_error_None. apply f_equal with (f := @length _) in En. rewrite skipn_length in En. cbn in En. lia. }
    split; [intros H|intros (rs0 & H & ->)].
    + inversion H as [? ? ? ? ? E ED|? ? ? ? ? E ED|? ? ? ? ? ? E|? ? ? ? ? ? ? ? ? ? E|? ? ? ? ? ? ? ? ? E|? ? ? ? ? ? ? E]; subst; rewrite EN in E; inversion E; subst; cbn [o_map_drop] in ED; inversion ED; subst. exists (Ok []). split; [constructor|reflexivity].
    + inversion H; subst. eapply dm_end; [apply EN|reflexivity].
  - destruct (NX _ _ _ En) as [EF En']. assert (EN : forall st, o_map_next U (OFields fs n) st = (Ok (Some (text nm, c)), OFields fs (S n), st)). { intros st0. cbn [o_map_next]. rewrite EF. reflexivity. }
    assert (WN : forall s r, and_then (quote (text nm) ++ 58 :: s) (with_names (map (fun f => text (fst f)) rest) r) = with_names (map (fun f => text (fst f)) ((nm, c) :: rest)) (and_then s r)) by (intros s0 [ss| |f]; reflexivity).
    split; [intros H|intros (rs0 & H & ->)].
    + inversion H as [? ? ? ? ? E ED|? ? ? ? ? E ED|? ? ? ? ? ? E|? ? ? ? ? ? s ? r ? E HW HD|? ? ? ? ? ? ? ? ? E HW ED|? ? ? ? ? ? ? E HW]; subst; rewrite EN in E; inversion E; subst.
      * apply (IH _ eq_refl) in HD. destruct HD as (r0 & HE & ->). exists (and_then s r0). split; [econstructor; eassumption|apply WN].
      * cbn [o_map_drop] in ED. inversion ED; subst. exists (Fault FPanic). split; [apply ea_fault, HW|reflexivity].
      * exists (Fault FAbort). split; [apply ea_fault, HW|reflexivity].
    + cbn [map] in H. inversion H as [|? ? ? s ? r ? HW HE|? ? ? f ? HW]; subst.
      * rewrite <- WN. eapply dm_item; [apply EN|exact HW|]. apply (IH _ eq_refl). exists r. split; [exact HE|reflexivity].
      * destruct (writes_usual _ _ _ _ HW) as [[s E]|[E|E]]; inversion E; subst.
        -- eapply (dm_item_panic U ryu (o_map_next U) (o_map_drop U) _ _ _ _ _ _ _ (Ok tt)); [apply EN|exact HW|reflexivity].
        -- eapply dm_item_abort; [apply EN|exact HW].
Qed.
(** User-defined iterators. *)
Lemma drained_user q st rs st' :
  drained U ryu (o_seq_next U) (o_seq_drop U) (OUserSeq q) st rs st' <-> drained U ryu (x_seq_next U) (x_seq_drop U) q st rs st'.
Proof.
  assert (F : forall q st r q' st1, x_seq_next U q st = (r, q', st1) -> o_seq_next U (OUserSeq q) st = (r, OUserSeq q', st1)). { intros q0 st0 r q' st1 E. cbn [o_seq_next]. rewrite E. reflexivity. }
  assert (B : forall q st r q' st1, o_seq_next U (OUserSeq q) st = (r, q', st1) -> exists q0, q' = OUserSeq q0 /\ x_seq_next U q st = (r, q0, st1)).
  { intros q0 st0 r q' st1. cbn [o_seq_next]. destruct (x_seq_next U q0 st0) as [[r1 q1] st2]. intros E. inversion E; subst. eauto. }
  split.
  - intros H. remember (OUserSeq q) as o eqn:Eo. revert q Eo.
    induction H as [o st q' st1 st2 E ED|o st q' st1 st2 E ED|o st q' st1 rd st2 E ED|o st c q' st1 s st2 r st3 E HW HO IH|o st c q' st1 st2 rd st3 E HW ED|o st c q' st1 st2 E HW]; intros q ->; destruct (B _ _ _ _ _ E) as (q0 & -> & E').
    + eapply dr_end; [exact E'|exact ED].
    + eapply dr_end_panic; [exact E'|exact ED].
    + eapply dr_panic; [exact E'|exact ED].
    + eapply dr_item; [exact E'|exact HW|apply IH; reflexivity].
    + eapply dr_item_panic; [exact E'|exact HW|exact ED].
    + eapply dr_item_abort; [exact E'|exact HW].
  - intros H. induction H as [q st q' st1 st2 E ED|q st q' st1 st2 E ED|q st q' st1 rd st2 E ED|q st c q' st1 s st2 r st3 E HW HO IH|q st c q' st1 st2 rd st3 E HW ED|q st c q' st1 st2 E HW]; apply F in E.
    + eapply dr_end; [exact E|exact ED].
    + eapply dr_end_panic; [exact E|exact ED].
    + eapply dr_panic; [exact E|exact ED].
    + eapply dr_item; [exact E|exact HW|exact IH].
    + eapply dr_item_panic; [exact E|exact HW|exact ED].
    + eapply dr_item_abort; [exact E|exact HW].
Qed.
Lemma drained_user_map m st rs st' :
  drained_map U ryu (o_map_next U) (o_map_drop U) (OUserMap m) st rs st' <-> drained_map U ryu (x_map_next U) (x_map_drop U) m st rs st'.
Proof.
  assert (F : forall q st r q' st1, x_map_next U q st = (r, q', st1) -> o_map_next U (OUserMap q) st = (r, OUserMap q', st1)). { intros q0 st0 r q' st1 E. cbn [o_map_next]. rewrite E. reflexivity. }
  assert (B : forall q st r q' st1, o_map_next U (OUserMap q) st = (r, q', st1) -> exists q0, q' = OUserMap q0 /\ x_map_next U q st = (r, q0, st1)).
  { intros q0 st0 r q' st1. cbn [o_map_next]. destruct (x_map_next U q0 st0) as [[r1 q1] st2]. intros E. inversion E; subst. eauto. }
  split.
  - intros H. remember (OUserMap m) as o eqn:Eo. revert m Eo.
    induction H as [o st q' st1 st2 E ED|o st q' st1 st2 E ED|o st q' st1 rd st2 E ED|o st k c q' st1 s st2 r st3 E HW HO IH|o st k c q' st1 st2 rd st3 E HW ED|o st k c q' st1 st2 E HW]; intros q ->; destruct (B _ _ _ _ _ E) as (q0 & -> & E').
    + eapply dm_end; [exact E'|exact ED].
    + eapply dm_end_panic; [exact E'|exact ED].
    + eapply dm_panic; [exact E'|exact ED].
    + eapply dm_item; [exact E'|exact HW|apply IH; reflexivity].
    + eapply dm_item_panic; [exact E'|exact HW|exact ED].
    + eapply dm_item_abort; [exact E'|exact HW].
  - intros H. induction H as [q st q' st1 st2 E ED|q st q' st1 st2 E ED|q st q' st1 rd st2 E ED|q st k c q' st1 s st2 r st3 E HW HO IH|q st k c q' st1 st2 rd st3 E HW ED|q st k c q' st1 st2 E HW]; apply F in E.
    + eapply dm_end; [exact E|exact ED].
    + eapply dm_end_panic; [exact E|exact ED].
    + eapply dm_panic; [exact E|exact ED].
    + eapply dm_item; [exact E|exact HW|exact IH].
    + eapply dm_item_panic; [exact E|exact HW|exact ED].
    + eapply dm_item_abort; [exact E|exact HW].
Qed.
End Main.
