(** Claims about parsing: C01 - C08, C44. *)
From Coq Require Import String ZArith List Bool Lia Reals Lra Floats.SpecFloat.
From Verif Require Import Base Utf8 Utf8Facts F64 Lexer Driver Grammar LexSpec Types Impls Tree TreeFacts DriverMap DriverFacts
  GrammarFacts Unambiguous Denote Reading ReadFacts ReadMain FromStr ParseSpec ParseFacts VisitFacts TokenFacts NumValue DocSpec RunFacts RunText.
Import ListNotations.
Open Scope Z_scope.

(** ** C01 *)
Lemma readable_lits d : doc_ok d -> (readable d <-> Forall lit_readable (lits d)).
Proof.
  induction d as [|b|s|n|l IH|l IH] using doc_ind'; intros HD; cbn [lits].
  - split; [constructor|]. exists JvNull. constructor.
  - split; [constructor|]. exists (JvBool b). constructor.
  - split; [constructor|]. exists (JvStr s). constructor.
  - split.
    + intros [j H]. constructor; [|constructor]. inversion H; subst; unfold lit_readable; eauto.
    + intros H. inversion H as [|? ? K _]; subst. destruct K as [[z K]|[[z K]|[f K]]]; eexists; [apply jr_u|apply jr_i|apply jr_f]; exact K.
  - apply doc_ok_arr in HD. split.
    + intros [j H]. inversion H as [| | | | | |l' js HF|]; subst. clear H. induction HF as [|d j l js Hd HF IHF]; cbn [flat_map]; [constructor|].
      inversion IH; inversion HD; subst. apply Forall_app. split; [|apply IHF; assumption].
      match goal with [H : doc_ok d -> _, H' : doc_ok d |- _] => apply H; [exact H'|] end. exists j. exact Hd.
    + intros H. enough (exists js, Forall2 JReads l js) as [js HF] by (exists (JvArr js); constructor; exact HF).
      induction l as [|d l IHl]; cbn [flat_map] in H; [exists []; constructor|].
      apply Forall_app in H. destruct H as [H1 H2]. inversion IH as [|? ? IH1 IH2]; inversion HD as [|? ? HD1 HD2]; subst.
      destruct (IHl IH2 HD2 H2) as [js HF]. destruct (proj2 (IH1 HD1) H1) as [j Hj]. exists (j :: js). constructor; assumption.
  - apply doc_ok_obj in HD. split.
    + intros [j H]. inversion H as [| | | | | | |l' kvs m HF HM]; subst. clear H HM. induction HF as [|[k d] [k' j] l js [Hk Hd] HF IHF]; cbn [flat_map]; [constructor|].
      inversion IH; inversion HD; subst. apply Forall_app. split; [|apply IHF; assumption]. cbn [snd] in *.
      match goal with [H : doc_ok d -> _, H' : doc_ok d |- _] => apply H; [exact H'|] end. exists j. exact Hd.
    + intros H. enough (exists kvs, Forall2 (fun kd kj => fst kd = fst kj /\ JReads (snd kd) (snd kj)) l kvs) as [kvs HF].
      { eexists (JvObj _). econstructor; [exact HF|]. apply MapFacts.MapOf_bytes. reflexivity. }
      induction l as [|[k d] l IHl]; cbn [flat_map snd] in H; [exists []; constructor|].
      apply Forall_app in H. destruct H as [H1 H2]. inversion IH as [|? ? IH1 IH2]; inversion HD as [|? ? HD1 HD2]; subst.
      destruct (IHl IH2 HD2 H2) as [js HF]. destruct (proj2 (IH1 HD1) H1) as [j Hj]. exists ((k, j) :: js). constructor; [split; [reflexivity|exact Hj]|assumption].
Qed.

(** from_str::<Value>(s) is Ok iff s is a JSON text all of whose number literals can be
    converted; otherwise it is Err. *)
Theorem C01_value_accepts_exactly_json E k oc s :
  text_ok s -> env_ok E = true -> (wrap_depth E TValue < k)%nat ->
  ((exists j, from_str E k oc TValue s = Ok (VJson j)) <->
   exists d, JText d s /\ Forall lit_readable (lits d)) /\
  (~ (exists d, JText d s /\ Forall lit_readable (lits d)) -> from_str E k oc TValue s = Err).
Proof.
  intros Hs HE Hk.
  assert (A : (exists j, from_str E k oc TValue s = Ok (VJson j)) <-> exists d, JText d s /\ Forall lit_readable (lits d)).
  { split.
    - intros [j H]. apply from_str_reads in H; auto. destruct H as (d & Hd & HR). exists d. split; [exact Hd|].
      apply readable_lits; [eapply JText_doc_ok, Hd|]. inversion HR; subst. exists j. assumption.
    - intros (d & Hd & HL). apply readable_lits in HL; [|eapply JText_doc_ok, Hd]. destruct HL as [j Hj]. exists j.
      apply from_str_reads; auto. exists d. split; [exact Hd|constructor; exact Hj]. }
  split; [exact A|]. intros N. pose proof (from_str_total E k oc TValue s Hs Hk) as T.
  destruct (text_val E TValue s) as [v|]; [|exact T]. exfalso. apply N, A.
  pose proof T as T'. apply from_str_reads in T'; auto. destruct T' as (d & _ & HR). inversion HR; subst. eauto.
Qed.

(** Any text that some type accepts, Value accepts: nothing but JSON is ever accepted. *)
Theorem C01_only_json_accepted E k oc T s v :
  text_ok s -> ty_ok T = true -> env_ok E = true -> (wrap_depth E T < k)%nat ->
  from_str E k oc T s = Ok v -> exists d, JText d s.
Proof. intros Hs HT HE Hk H. apply from_str_reads in H; auto. destruct H as (d & Hd & _). eauto. Qed.

(** ** C02 *)
Theorem C02_visitor_sees_the_document {St V SH MH} (I : iface St V SH MH) oc s v st st' :
  text_ok s ->
  (from_str_impl I oc s v st = (Ok tt, st') <-> exists d, JText d s /\ Visit I d v st st').
Proof.
  intros [Hu HL]. pose proof Hu as Hu'. apply str_ok_spec in Hu'.
  assert (HW : from_str_impl I oc s v st = (Ok tt, st') <-> walk_result I s v st = (Ok tt, st')).
  { split; intros H.
    - rewrite <- (from_str_impl_walk' I oc s v st Hu' HL); [exact H|]. rewrite H. reflexivity.
    - rewrite (from_str_impl_walk I oc s v st Hu' HL); [exact H|]. rewrite H. reflexivity. }
  rewrite HW. unfold walk_result. clear HW.
  split.
  - destruct (pv s) as [t o] eqn:EP. destruct (feed I t v st) as [[u| |] st1] eqn:EF; try discriminate.
    destruct o as [r|]; [|discriminate]. destruct (skip_ws r) eqn:ER; [|discriminate]. intros [= <-].
    apply skip_ws_nil in ER. destruct (pv_text_inv _ _ _ (utf8_bytes _ Hu) EP ER) as (d & Hd & Ht).
    exists d. split; [exact Hd|]. apply visit_feed; [eapply JText_doc_ok, Hd|]. exists t. split; [exact Ht|]. destruct u. exact EF.
  - intros (d & Hd & HV). apply visit_feed in HV; [|eapply JText_doc_ok, Hd]. destruct HV as (t & Ht & EF).
    destruct (pv_text _ _ _ Hd Ht) as (r & EP & Hr). rewrite EP, EF. apply skip_ws_nil in Hr. rewrite Hr. reflexivity.
Qed.

(** ** C03 *)
Theorem C03_from_str_total E k oc T s :
  text_ok s -> (wrap_depth E T < k)%nat ->
  (exists v, from_str E k oc T s = Ok v) \/ from_str E k oc T s = Err.
Proof. intros Hs Hk. rewrite from_str_total by assumption. destruct (text_val E T s); eauto. Qed.

(** The parser itself adds no fault to a user-defined visitor that has none. *)
Theorem C03_any_visitor_total {St V SH MH} (I : iface St V SH MH) oc s v st :
  text_ok s -> faultless I -> is_fault (fst (from_str_impl I oc s v st)) = false.
Proof.
  intros [Hu HL] HF. apply str_ok_spec in Hu. rewrite (from_str_impl_eq I oc s v st Hu HL).
  2: { destruct HF as (_ & _ & _ & _ & _ & _ & _ & _ & _ & _ & F11 & _ & _ & F14). intros [q|m] s0 E; [specialize (F11 q s0)|specialize (F14 m s0)]; cbn [drop_layer] in E; rewrite E in *; discriminate. }
  unfold walk_result. destruct (pv s) as [t o]. pose proof (feed_faultless I t HF v st) as K.
  destruct (feed I t v st) as [[u| |f] st1]; cbn [fst is_fault] in *; try assumption; try reflexivity.
  destruct o as [r|]; [destruct (skip_ws r)|]; reflexivity.
Qed.

(** ** C04, C05, C44, C48: the calls *)
Lemma logged_commutes {St V SH MH} (I : iface St V SH MH) : commutes (logged I) I fst.
Proof. unfold commutes, mp. repeat split; intros; cbn; apply surjective_pairing. Qed.
Lemma walk_sim {St V SH MH} (I : iface St V SH MH) s v st : str_ok s = true ->
  exists l, walk_result (logged I) s v (st, []) = (fst (walk_result I s v st), (snd (walk_result I s v st), l)) /\
    (orderly (fst (walk_result I s v st)) = true -> Bracketed l) /\ (method_calls l <= 2 * List.length s)%nat /\ Forall args_ok l.
Proof.
  intros Hu. unfold walk_result. pose proof (pv_weight s) as W. pose proof (pv_legal s Hu) as LG. destruct (pv s) as [t o]. cbn [fst] in *.
  destruct (feed_sim I t v st []) as (l & -> & B & N & A). exists l. cbn [app].
  destruct (feed I t v st) as [[u| |f] st1]; cbn [fst snd orderly] in *; (split; [reflexivity|]); (split; [|split; [lia|apply A, LG]]).
  - intros _. apply B. reflexivity.
  - intros _. apply B. reflexivity.
  - exact B.
Qed.
Definition no_drops {V SH MH} (l : list (call V SH MH)) : list (call V SH MH) := filter (fun c => negb (is_drop c)) l.
Lemma args_no_drops {V SH MH} (l : list (call V SH MH)) : Forall args_ok (no_drops l) <-> Forall args_ok l.
Proof.
  unfold no_drops. induction l as [|c l IH]; cbn [filter]; [reflexivity|]. destruct c; cbn [negb is_drop]; rewrite !Forall_cons_iff, IH; cbn [args_ok]; tauto.
Qed.
Lemma logged_run {St V SH MH} (I : iface St V SH MH) oc s v st : text_ok s ->
  exists l, from_str_impl (logged I) oc s v (st, []) =
      (fst (from_str_impl I oc s v st), (snd (from_str_impl I oc s v st), l)) /\
    (is_fault (fst (from_str_impl I oc s v st)) = false \/ (quiet_drops I /\ orderly (fst (from_str_impl I oc s v st)) = true) -> Bracketed l) /\
    (method_calls l <= 2 * List.length s)%nat /\ Forall args_ok l.
Proof.
  intros [Hu HL]. apply str_ok_spec in Hu.
  pose proof (from_str_impl_map (logged I) I fst (logged_commutes I) oc s v (st, [])) as HM. unfold mp in HM. cbn [fst] in HM. rewrite HM. cbn [fst snd].
  destruct (walk_sim I s v st Hu) as (lw & EW & B & N & A).
  destruct (from_str_impl_agree (logged I) (fun a b => no_drops (snd a) = no_drops (snd b)) (fun _ => eq_refl) (fun _ _ E => eq_sym E) (fun _ _ _ E1 E2 => eq_trans E1 E2)
    ltac:(intros [q|m] [s0 l0]; cbn [drop_layer logged s_drop m_drop log_call snd]; unfold no_drops; rewrite filter_app; cbn [filter is_drop negb]; rewrite app_nil_r; reflexivity)
    oc s v (st, []) Hu HL) as [E|(HQ & F1 & F2 & E)].
  - rewrite E, EW. cbn [fst snd]. exists lw. split; [reflexivity|]. split; [|split; [exact N|exact A]]. intros K. apply B.
    destruct K as [K|[_ K]]; [|exact K]. destruct (fst (walk_result I s v st)); (reflexivity || discriminate).
  - rewrite EW in E. cbn [snd] in E. set (X := from_str_impl (logged I) oc s v (st, [])) in *.
    exists (snd (snd X)). split; [destruct X as [r [a b]]; reflexivity|]. split; [|split].
    + intros [K|[K _]]; [congruence|]. destruct HQ. intros [q|m] [s0 l0]; [apply (K (LSeq q) s0)|apply (K (LMap m) s0)].
    + unfold method_calls. unfold no_drops in E. rewrite E. exact N.
    + apply args_no_drops. rewrite E. apply args_no_drops, A.
Qed.

Theorem C04_linear_number_of_calls {St V SH MH} (I : iface St V SH MH) oc s v st : text_ok s ->
  (method_calls (snd (snd (from_str_impl (logged I) oc s v (st, [])))) <= 2 * List.length s)%nat.
Proof. intros Hs. destruct (logged_run I oc s v st Hs) as (l & -> & _ & N & _). exact N. Qed.

(** Recording the calls does not change what they do. *)
Theorem C04_logging_is_transparent {St V SH MH} (I : iface St V SH MH) oc s v st : text_ok s ->
  fst (from_str_impl (logged I) oc s v (st, [])) = fst (from_str_impl I oc s v st) /\
  fst (snd (from_str_impl (logged I) oc s v (st, []))) = snd (from_str_impl I oc s v st).
Proof. intros Hs. destruct (logged_run I oc s v st Hs) as (l & -> & _). split; reflexivity. Qed.

(** Every argument handed to a visitor is legal: strings and keys are valid UTF-8,
    negative(n) gets i64::MIN <= n <= 0, nonnegative(n) a u64, float a finite number. *)
Theorem C05_arguments_are_legal {St V SH MH} (I : iface St V SH MH) oc s v st : text_ok s ->
  Forall args_ok (snd (snd (from_str_impl (logged I) oc s v (st, [])))).
Proof. intros Hs. destruct (logged_run I oc s v st Hs) as (l & -> & _ & _ & A). exact A. Qed.

(** Every Seq/Map that a visitor hands out is dropped exactly once, after its last use,
    innermost first, whether parsing succeeds or fails. *)
Theorem C44_builders_are_bracketed {St V SH MH} (I : iface St V SH MH) oc s v st : text_ok s ->
  is_fault (fst (from_str_impl I oc s v st)) = false ->
  Bracketed (snd (snd (from_str_impl (logged I) oc s v (st, [])))).
Proof. intros Hs HF. destruct (logged_run I oc s v st Hs) as (l & -> & B & _). exact (B (or_introl HF)). Qed.

(** ** C06 *)
Theorem C06_string_decoding E k oc s t :
  text_ok s -> env_ok E = true -> (wrap_depth E TString < k)%nat ->
  (from_str E k oc TString s = Ok (VStr t) <->
   exists w1 x w2, s = w1 ++ 34 :: x ++ 34 :: w2 /\ Ws w1 /\ Ws w2 /\ StrBody x t).
Proof.
  intros Hs HE Hk. rewrite (from_str_reads E k oc TString s) by auto. split.
  - intros (d & (w1 & x & w2 & -> & H1 & Hx & H2) & HR). inversion HR; subst. inversion Hx as [| | |s' y (b & -> & Hb)| | | | |]; subst.
    exists w1, b, w2. split; [cbn [app]; rewrite <- app_assoc; reflexivity|]. auto.
  - intros (w1 & x & w2 & -> & H1 & H2 & Hx). exists (DStr t). split; [|constructor].
    exists w1, (34 :: x ++ [34]), w2. split; [cbn [app]; rewrite <- app_assoc; reflexivity|]. split; [exact H1|]. split; [|exact H2].
    constructor. exists x. auto.
Qed.

(** ** C07 *)
Theorem C07_whitespace_is_irrelevant E k oc T s1 s2 ts :
  text_ok s1 -> text_ok s2 -> ty_ok T = true -> env_ok E = true -> (wrap_depth E T < k)%nat ->
  Tokens s1 ts -> Tokens s2 ts ->
  from_str E k oc T s1 = from_str E k oc T s2.
Proof.
  intros H1 H2 HT HE Hk T1 T2. rewrite !from_str_total by assumption.
  assert (A : forall v, text_val E T s1 = Some v <-> text_val E T s2 = Some v).
  { intros v. rewrite !text_val_reads by (try assumption; apply H1 || apply H2).
    split; intros (d & Hd & HR); exists d; (split; [|exact HR]); eapply JText_tokens; [| |exact Hd| | |exact Hd]; eassumption. }
  destruct (text_val E T s1) as [v|]; [rewrite (proj1 (A v) eq_refl); reflexivity|].
  destruct (text_val E T s2) as [v|]; [|reflexivity]. destruct (A v) as [_ A2]. discriminate (A2 eq_refl).
Qed.

(** The same for user-defined visitors: success and final state. *)
Theorem C07_whitespace_any_visitor {St V SH MH} (I : iface St V SH MH) oc s1 s2 ts v st st' :
  text_ok s1 -> text_ok s2 -> Tokens s1 ts -> Tokens s2 ts ->
  (from_str_impl I oc s1 v st = (Ok tt, st') <-> from_str_impl I oc s2 v st = (Ok tt, st')).
Proof.
  intros H1 H2 T1 T2. rewrite !C02_visitor_sees_the_document by assumption.
  split; intros (d & Hd & HV); exists d; (split; [|exact HV]); eapply JText_tokens; [| |exact Hd| | |exact Hd]; eassumption.
Qed.

(** Whitespace may be put anywhere between tokens: [Tokens] is closed under it. *)
Lemma tokens_app_l s1 ts1 : Tokens s1 ts1 -> forall s2 ts2, Tokens s2 ts2 ->
  match s2 with c :: _ => ~ word_char c | [] => True end -> Tokens (s1 ++ s2) (ts1 ++ ts2).
Proof.
  induction 1 as [|c s ts Hc H IH|c s ts Hc H IH|b s ts Hb H IH|w s ts Hw HF HN H IH]; intros s2 ts2 H2 HW; cbn [app].
  - exact H2.
  - apply tk_ws; auto.
  - apply tk_punct; auto.
  - rewrite <- app_assoc. cbn [app]. apply tk_str; auto.
  - rewrite <- app_assoc. apply tk_word; auto. destruct s; [exact HW|exact HN].
Qed.
Theorem C07_insert_whitespace s1 ts1 w s2 ts2 :
  Tokens s1 ts1 -> Tokens s2 ts2 -> Ws w -> w <> [] -> Tokens (s1 ++ w ++ s2) (ts1 ++ ts2).
Proof.
  intros H1 H2 Hw HN. apply tokens_app_l; [exact H1|apply tokens_ws; assumption|].
  destruct Hw as [|c w Hc Hw]; [congruence|]. cbn [app]. intros (_ & K & _). auto.
Qed.

(** ** C08 *)
Lemma not_number_num d : not_number d <-> is_num d = false.
Proof. unfold not_number. destruct d; cbn; split; intros; try congruence. destruct (H n eq_refl). Qed.

Theorem C08_trailing_data_rejected E k oc T T' s z v :
  text_ok (s ++ z) -> text_ok s -> ty_ok T = true -> ty_ok T' = true -> env_ok E = true ->
  (wrap_depth E T < k)%nat -> (wrap_depth E T' < k)%nat ->
  from_str E k oc T s = Ok v -> (forall d, JText d s -> not_number d) ->
  ~ Ws z -> from_str E k oc T' (s ++ z) = Err.
Proof.
  intros H1 H2 HT HT' HE Hk Hk' HO HN HZ. destruct (C03_from_str_total E k oc T' (s ++ z) H1 Hk') as [[v' K]|K]; [|exact K].
  apply from_str_reads in HO, K; auto. destruct HO as (d & Hd & _), K as (d' & Hd' & _).
  exfalso. apply HZ. eapply JText_prefix; [exact Hd|exact Hd'|]. apply not_number_num, HN, Hd.
Qed.

Theorem C08_truncation_rejected E k oc T T' p z v :
  text_ok (p ++ z) -> text_ok p -> ty_ok T = true -> ty_ok T' = true -> env_ok E = true ->
  (wrap_depth E T < k)%nat -> (wrap_depth E T' < k)%nat ->
  from_str E k oc T (p ++ z) = Ok v -> (forall d, JText d (p ++ z) -> not_number d) ->
  ~ Ws z -> from_str E k oc T' p = Err.
Proof.
  intros H1 H2 HT HT' HE Hk Hk' HO HN HZ. destruct (C03_from_str_total E k oc T' p H2 Hk') as [[v' K]|K]; [|exact K].
  apply from_str_reads in HO, K; auto. destruct HO as (d & Hd & _), K as (d' & Hd' & _).
  exfalso. destruct (is_num d') eqn:EN.
  - pose proof (HN d Hd) as ND. destruct Hd as (w1 & x & w2 & E1 & Hw1 & Hx & Hw2), Hd' as (w1' & x' & w2' & E2 & Hw1' & Hx' & Hw2').
    subst p. repeat rewrite <- app_assoc in E1.
    assert (EQ : x' ++ w2' ++ z = x ++ w2) by (eapply value_cancel; [exact Hw1'|exact Hx'|exact Hw1|exact Hx|exact E1]).
    apply VText_head in Hx, Hx'. destruct Hx as (c & y & -> & Hc), Hx' as (c' & y' & -> & Hc').
    cbn [app] in EQ. injection EQ as <- _.
    destruct d' as [| | |n'| |]; try discriminate. destruct d as [| [|] | |n| |]; try lia. apply (ND n). reflexivity.
  - apply HZ. eapply JText_prefix; [exact Hd'|exact Hd|exact EN].
Qed.

(** ** The hypotheses are met: concrete cases *)
Lemma text_ok_by s : str_ok s = true -> (Z.of_nat (List.length s) <=? i32_MAX) = true -> text_ok s.
Proof. intros H1 H2. split; [apply str_ok_spec, H1|apply runs_of_length, Z.leb_le, H2]. Qed.
Ltac text_ok := apply text_ok_by; reflexivity.

Definition ex_text : bytes := bs " {""a"" : [1, -2, 2.5], ""a\n"":{""b"":null} ,""c"":""\u00e9\ud83d\ude00""}".
Example ex_C01 : exists d, JText d ex_text /\ Forall lit_readable (lits d).
Proof.
  apply (C01_value_accepts_exactly_json [] 1 true ex_text); [text_ok|reflexivity|cbn; lia|].
  eexists. vm_compute. reflexivity.
Qed.
Example ex_C01_reject :
  from_str [] 1 true TValue (bs "[1,]") = Err /\ from_str [] 1 true TValue (bs "01") = Err /\
  from_str [] 1 true TValue (bs "1e400") = Err /\ from_str [] 1 true TValue (bs """\ud800""") = Err /\
  from_str [] 1 true TValue (bs "{""a"":1 ""b"":2}") = Err /\ from_str [] 1 true TValue (bs "nul") = Err /\
  from_str [] 1 true TValue [34; 9; 34] = Err /\ from_str [] 1 true TValue (bs "-") = Err.
Proof. vm_compute. repeat split. Qed.

(** A user-defined visitor: sums the nonnegative integers it is shown, counts the keys,
    and refuses null. *)
Definition sum_iface : iface (Z * Z) unit nat nat := {|
  v_null := fun _ st => (Err, st); v_bool := fun _ _ st => (Ok tt, st); v_str := fun _ _ st => (Ok tt, st);
  v_neg := fun _ _ st => (Ok tt, st); v_nonneg := fun _ n st => (Ok tt, (fst st + n, snd st));
  v_float := fun _ _ st => (Ok tt, st); v_seq := fun _ st => (Ok O, st); v_map := fun _ st => (Ok O, st);
  s_element := fun _ st => (Ok tt, st); s_finish := fun _ st => (Ok tt, st); s_drop := fun _ st => (Ok tt, st);
  m_key := fun _ k st => (Ok tt, (fst st, snd st + 1)); m_finish := fun _ st => (Ok tt, st); m_drop := fun _ st => (Ok tt, st)
|}.
Example ex_C02 : exists d, JText d (bs "{""x"":[10,20,{""y"":12}]}") /\ Visit sum_iface d tt (0, 0) (42, 2).
Proof. apply (C02_visitor_sees_the_document sum_iface true); [text_ok|]. vm_compute. reflexivity. Qed.
Example ex_C03 : faultless sum_iface.
Proof. repeat split; intros ? **; intros ?; reflexivity. Qed.
Example ex_C04 : method_calls (snd (snd (from_str_impl (logged sum_iface) true (bs "{""x"":[10,20,null]}") tt ((0, 0), [])))) = 9%nat.
Proof. vm_compute. reflexivity. Qed.
(** The parse of the last example fails (null is refused) and still drops both builders. *)
Example ex_C44 :
  fst (from_str_impl sum_iface true (bs "{""x"":[10,20,null]}") tt (0, 0)) = Err /\
  Bracketed (snd (snd (from_str_impl (logged sum_iface) true (bs "{""x"":[10,20,null]}") tt ((0, 0), [])))).
Proof.
  split; [vm_compute; reflexivity|]. apply C44_builders_are_bracketed; [text_ok|]. vm_compute. reflexivity.
Qed.
Example ex_C06 : from_str [] 1 true TString (bs " ""a\u00E9\ud83d\uDe00\n""") = Ok (VStr [97; 195; 169; 240; 159; 152; 128; 10]).
Proof. vm_compute. reflexivity. Qed.
Ltac tok_word w := apply (tk_word w); [discriminate|repeat constructor; unfold punct, ws_char; lia
  |let K1 := fresh in let K2 := fresh in intros (K1 & K2 & _); unfold punct, ws_char in *; lia|].
Ltac tok_step :=
  first [apply tk_nil | apply tk_ws; [unfold ws_char; lia|] | apply tk_punct; [unfold punct; lia|]
        | match goal with |- Tokens _ (?w :: _) => tok_word w end].
Example ex_C07 : from_str [] 1 true (TVec (TInt false 8)) (bs "[1,22 ,3 ]") = from_str [] 1 true (TVec (TInt false 8)) (bs " [1 ,22,  3]").
Proof.
  apply (C07_whitespace_is_irrelevant [] 1 true _ _ _ [[91]; [49]; [44]; [50; 50]; [44]; [51]; [93]]); try text_ok; try reflexivity; try (cbn; lia).
  - match goal with |- Tokens ?s _ => let s' := eval vm_compute in s in change (Tokens s' [[91]; [49]; [44]; [50; 50]; [44]; [51]; [93]]) end.
    repeat tok_step.
  - match goal with |- Tokens ?s _ => let s' := eval vm_compute in s in change (Tokens s' [[91]; [49]; [44]; [50; 50]; [44]; [51]; [93]]) end.
    repeat tok_step.
Qed.

(** A text that starts with a quote, bracket or brace is not a bare number. *)
Lemma head_not_number c s d : c = 34 \/ c = 91 \/ c = 123 -> JText d (c :: s) -> not_number d.
Proof.
  intros Hc (w1 & x & w2 & E & Hw & Hx & _) n ->. apply VText_head in Hx. destruct Hx as (c' & y & -> & Hc').
  destruct Hw as [|c2 w Hc2 Hw]; cbn [app] in E; injection E as <- _; [lia|]. unfold ws_char in Hc2. lia.
Qed.
Example ex_C08 : from_str [] 1 true (TVec (TInt false 8)) (bs "[1,22") = Err /\ from_str [] 1 true TValue (bs "[1,22],") = Err.
Proof.
  split.
  - apply (C08_truncation_rejected [] 1 true TValue _ (bs "[1,22") (bs "] ") (VJson (JvArr [JvNum (NU64 1); JvNum (NU64 22)])));
      try text_ok; try reflexivity; try (cbn; lia).
    + intros d Hd. cbn [bs app] in Hd. eapply head_not_number; [|exact Hd]. cbn. lia.
    + intros H. inversion H as [|? ? K _]; subst. unfold ws_char in K. cbn in K. lia.
  - apply (C08_trailing_data_rejected [] 1 true (TVec (TInt false 8)) _ (bs "[1,22]") (bs ",") (VSeq [VInt 1; VInt 22]));
      try text_ok; try reflexivity; try (cbn; lia).
    + intros d Hd. cbn [bs app] in Hd. eapply head_not_number; [|exact Hd]. cbn. lia.
    + intros H. inversion H as [|? ? K _]; subst. unfold ws_char in K. cbn in K. lia.
Qed.
