(** Facts about sizes and nesting. *)
From Coq Require Import String ZArith List Bool Lia Floats.SpecFloat.
From Verif Require Import Base Utf8 Utf8Facts F64 Lexer Driver Grammar LexSpec LexFacts RunFacts RunText LexNumFacts Types Tree TreeFacts DriverFacts
  GrammarFacts Unambiguous Reading ReadFacts FromStr MapFacts TypedFacts RoundTrip ParseSpec ParseFacts VisitFacts SerSpec SizeSpec.
Import ListNotations.
Open Scope Z_scope.

(** ** Peaks *)
Section Peak.
Context {V SH MH : Type}.
Notation call := (call V SH MH).
Fixpoint peak (l : list call) : Z :=
  match l with [] => 0 | c :: l' => Z.max 0 (alive_change c + peak l') end.
Lemma alive_app (a b : list call) : alive (a ++ b) = alive a + alive b.
Proof. induction a as [|c a IH]; cbn [alive app]; lia. Qed.
Lemma peak_nonneg (l : list call) : 0 <= peak l.
Proof. destruct l; cbn [peak]; lia. Qed.
Lemma alive_peak (l : list call) : alive l <= peak l.
Proof. induction l as [|c l IH]; cbn [alive peak]; lia. Qed.
Lemma peak_app (a b : list call) : peak (a ++ b) = Z.max (peak a) (alive a + peak b).
Proof.
  induction a as [|c a IH]; cbn [alive peak app]; [pose proof (peak_nonneg b); lia|]. rewrite IH. lia.
Qed.
Lemma peak_prefix (l : list call) n : peak l <= n <-> forall p q, l = p ++ q -> alive p <= n.
Proof.
  split.
  - intros H p q ->. rewrite peak_app in H. pose proof (alive_peak p). lia.
  - revert n. induction l as [|c l IH]; intros n H; cbn [peak].
    + pose proof (H [] [] eq_refl) as H0. cbn [alive] in H0. exact H0.
    + apply Z.max_lub; [exact (H [] (c :: l) eq_refl)|]. enough (peak l <= n - alive_change c) by lia. apply IH. intros p q ->.
      pose proof (H (c :: p) q eq_refl) as H0. cbn [alive] in H0. lia.
Qed.
Lemma peak_drop (l : list call) c : is_drop c = true -> peak (l ++ [c]) = peak l.
Proof.
  intros H. rewrite peak_app. assert (peak [c] = 0) as -> by (destruct c; try discriminate H; reflexivity). pose proof (alive_peak l). lia.
Qed.
End Peak.

Fixpoint tdepth (t : ptree) : nat :=
  match t with
  | PSeq l _ => S (list_max (map tdepth l))
  | PMap l _ => S (list_max (map (fun kt => tdepth (snd kt)) l))
  | _ => O
  end.

Section Feed.
Context {St V SH MH : Type}.
Variable I : iface St V SH MH.
Notation call := (call V SH MH).
Notation LI := (logged I).

(** The log grows by a list that peaks at most at N and, if the outcome is no fault, changes
    the number of builders by K. *)
Definition grows {A} (N K : Z) (x : res A * (St * list call)) (log : list call) : Prop :=
  exists l, snd (snd x) = log ++ l /\ peak l <= N /\ (is_fault (fst x) = false -> alive l = K).

Lemma grows_pre {A} N K N' K' (x : res A * (St * list call)) log pre :
  grows N K x (log ++ pre) -> peak pre <= N' -> alive pre + N <= N' -> K' = alive pre + K -> grows N' K' x log.
Proof.
  intros (l & E & P & F) H1 H2 ->. exists (pre ++ l). rewrite app_assoc. split; [exact E|]. split; [rewrite peak_app; lia|].
  intros HF. rewrite alive_app. specialize (F HF). lia.
Qed.
Lemma drop_grows ly st log N : 0 <= N -> grows N (-1) (drop_err LI ly (st, log)) log.
Proof.
  intros HN. unfold drop_err. destruct ly as [q|m]; cbn [drop_layer logged s_drop m_drop]; unfold log_call; cbn [fst snd].
  - exists [CSeqDrop q]. destruct (s_drop I q st) as [[u| |f] st1]; cbn; (split; [reflexivity|split; [lia|lia]]).
  - exists [CMapDrop m]. destruct (m_drop I m st) as [[u| |f] st1]; cbn; (split; [reflexivity|split; [lia|lia]]).
Qed.
Lemma fault_grows f ly st log N K : 0 <= N -> grows N K (on_fault LI f [ly] (st, log) : res unit * _) log.
Proof.
  intros HN. destruct f; cbn [on_fault]; try (exists []; rewrite app_nil_r; cbn; split; [reflexivity|split; [lia|discriminate]]).
  cbn [unwind]. destruct ly as [q|m]; cbn [drop_layer logged s_drop m_drop]; unfold log_call; cbn [fst snd].
  - exists [CSeqDrop q]. destruct (s_drop I q st) as [[u| |[]] st1]; cbn; (split; [reflexivity|split; [lia|discriminate]]).
  - exists [CMapDrop m]. destruct (m_drop I m st) as [[u| |[]] st1]; cbn; (split; [reflexivity|split; [lia|discriminate]]).
Qed.
Lemma finish_grows ly c st log N : 0 <= N -> grows N (-1) (finish_layer LI ly c (st, log)) log.
Proof.
  intros HN. unfold finish_layer. destruct c; [|apply drop_grows, HN].
  destruct ly as [q|m]; cbn [drop_layer logged s_finish m_finish s_drop m_drop]; unfold log_call at 1; cbn [fst snd].
  - destruct (s_finish I q st) as [[u| |f] st1]; cbn [fst snd].
    + unfold log_call. cbn [fst snd]. exists [CSeqFinish q; CSeqDrop q].
      destruct (s_drop I q st1) as [[w| |f] st2]; cbn; rewrite <- app_assoc; (split; [reflexivity|split; lia]).
    + eapply grows_pre; [apply drop_grows, HN|cbn; lia|cbn; lia|reflexivity].
    + eapply grows_pre; [apply (fault_grows _ _ _ _ N (-1)), HN|cbn; lia|cbn; lia|reflexivity].
  - destruct (m_finish I m st) as [[u| |f] st1]; cbn [fst snd].
    + unfold log_call. cbn [fst snd]. exists [CMapFinish m; CMapDrop m].
      destruct (m_drop I m st1) as [[w| |f] st2]; cbn; rewrite <- app_assoc; (split; [reflexivity|split; lia]).
    + eapply grows_pre; [apply drop_grows, HN|cbn; lia|cbn; lia|reflexivity].
    + eapply grows_pre; [apply (fault_grows _ _ _ _ N (-1)), HN|cbn; lia|cbn; lia|reflexivity].
Qed.

Definition fgrows (N : Z) (t : ptree) : Prop := forall v st log, grows N 0 (feed LI t v (st, log)) log.

Lemma items_grow N l c : 0 <= N -> Forall (fgrows N) l -> forall q st log, grows N (-1) (feed_items LI (feed LI) q l c (st, log)) log.
Proof.
  intros HN HF. induction HF as [|t l Ht HF IH]; intros q st log; cbn [feed_items]; [apply finish_grows, HN|].
  cbn [logged s_element]. unfold log_call. cbn [fst snd]. destruct (s_element I q st) as [[v| |f] st1]; cbn [fst snd].
  - destruct (Ht v st1 (log ++ [CElement q])) as (l1 & E1 & P1 & F1). fold LI.
    destruct (feed LI t v (st1, log ++ [CElement q])) as [r [st2 log2]]. cbn [fst snd] in *. subst log2.
    assert (PC : peak (CElement q :: l1 : list call) <= N) by (cbn [peak alive_change]; lia).
    replace ((log ++ [CElement q]) ++ l1) with (log ++ CElement q :: l1) by (rewrite <- app_assoc; reflexivity).
    destruct r as [u| |f].
    + specialize (F1 eq_refl). eapply grows_pre; [apply IH|exact PC| |]; cbn [alive alive_change]; lia.
    + specialize (F1 eq_refl). eapply grows_pre; [apply drop_grows, HN|exact PC| |]; cbn [alive alive_change]; lia.
    + destruct (fault_grows f (LSeq q) st2 (log ++ CElement q :: l1) 0 0 (Z.le_refl 0)) as (l2 & E2 & P2 & F2).
      exists ((CElement q :: l1) ++ l2). split; [rewrite E2, app_assoc; reflexivity|]. split; [rewrite peak_app; pose proof (alive_peak (CElement q :: l1 : list call)); lia|].
      intros HH. exfalso. clear - HH. destruct f; try discriminate HH. cbn [on_fault unwind] in HH. destruct (drop_layer LI (LSeq q) _) as [[| |[]] ?]; discriminate HH.
  - eapply grows_pre; [apply drop_grows, HN|cbn; lia|cbn; lia|reflexivity].
  - eapply grows_pre; [apply (fault_grows _ _ _ _ N (-1)), HN|cbn; lia|cbn; lia|reflexivity].
Qed.
Lemma members_grow N l c : 0 <= N -> Forall (fun kt => fgrows N (snd kt)) l -> forall m st log, grows N (-1) (feed_members LI (feed LI) m l c (st, log)) log.
Proof.
  intros HN HF. induction HF as [|[k t] l Ht HF IH]; intros m st log; cbn [feed_members]; [apply finish_grows, HN|]. cbn [snd] in Ht.
  cbn [logged m_key]. unfold log_call. cbn [fst snd]. destruct (m_key I m k st) as [[v| |f] st1]; cbn [fst snd].
  - destruct (Ht v st1 (log ++ [CKey m k])) as (l1 & E1 & P1 & F1). fold LI.
    destruct (feed LI t v (st1, log ++ [CKey m k])) as [r [st2 log2]]. cbn [fst snd] in *. subst log2.
    assert (PC : peak (CKey m k :: l1 : list call) <= N) by (cbn [peak alive_change]; lia).
    replace ((log ++ [CKey m k]) ++ l1) with (log ++ CKey m k :: l1) by (rewrite <- app_assoc; reflexivity).
    destruct r as [u| |f].
    + specialize (F1 eq_refl). eapply grows_pre; [apply IH|exact PC| |]; cbn [alive alive_change]; lia.
    + specialize (F1 eq_refl). eapply grows_pre; [apply drop_grows, HN|exact PC| |]; cbn [alive alive_change]; lia.
    + destruct (fault_grows f (LMap m) st2 (log ++ CKey m k :: l1) 0 0 (Z.le_refl 0)) as (l2 & E2 & P2 & F2).
      exists ((CKey m k :: l1) ++ l2). split; [rewrite E2, app_assoc; reflexivity|]. split; [rewrite peak_app; pose proof (alive_peak (CKey m k :: l1 : list call)); lia|].
      intros HH. exfalso. clear - HH. destruct f; try discriminate HH. cbn [on_fault unwind] in HH. destruct (drop_layer LI (LMap m) _) as [[| |[]] ?]; discriminate HH.
  - eapply grows_pre; [apply drop_grows, HN|cbn; lia|cbn; lia|reflexivity].
  - eapply grows_pre; [apply (fault_grows _ _ _ _ N (-1)), HN|cbn; lia|cbn; lia|reflexivity].
Qed.

Lemma max_in {A} (f : A -> nat) l x : In x l -> (f x <= list_max (map f l))%nat.
Proof. induction l as [|y l IH]; cbn [In map list_max fold_right]; [contradiction|]. intros [->|H]; [lia|]. apply IH in H. unfold list_max in H. lia. Qed.
Lemma grows_mono N N' t : N <= N' -> fgrows N t -> fgrows N' t.
Proof. intros H HF v st log. destruct (HF v st log) as (l & E & P & F). exists l. split; [exact E|split; [lia|exact F]]. Qed.

Lemma feed_grows t : fgrows (Z.of_nat (tdepth t)) t.
Proof.
  induction t as [|ev|l c IH|l c IH] using ptree_ind'; intros v st log; cbn [feed].
  - exists []. rewrite app_nil_r. cbn. split; [reflexivity|split; lia].
  - destruct ev; cbn [logged v_null v_bool v_str v_neg v_nonneg v_float]; unfold log_call; cbn [fst snd tdepth];
      try (match goal with |- grows _ _ (_, (_, _ ++ [?c])) _ => exists [c] end; cbn; split; [reflexivity|split; lia]);
      exists []; rewrite app_nil_r; cbn; split; [reflexivity|split; lia|reflexivity|split; lia].
  - cbn [logged v_seq]. unfold log_call. cbn [fst snd]. destruct (v_seq I v st) as [[q| |f] st1]; cbn [fst snd opened].
    + fold LI. assert (HF : Forall (fgrows (Z.of_nat (list_max (map tdepth l)))) l).
      { rewrite Forall_forall in *. intros t Ht. eapply grows_mono; [|apply IH, Ht]. pose proof (max_in tdepth l t Ht). lia. }
      eapply grows_pre; [apply (items_grow _ l c (Zle_0_nat _) HF)|cbn; lia| |reflexivity]. cbn [tdepth alive alive_change]. lia.
    + exists [CSeq v None]. cbn. split; [reflexivity|split; lia].
    + exists [CSeq v None]. cbn. split; [reflexivity|split; lia].
  - cbn [logged v_map]. unfold log_call. cbn [fst snd]. destruct (v_map I v st) as [[q| |f] st1]; cbn [fst snd opened].
    + fold LI. assert (HF : Forall (fun kt => fgrows (Z.of_nat (list_max (map (fun kt => tdepth (snd kt)) l))) (snd kt)) l).
      { rewrite Forall_forall in *. intros t Ht. eapply grows_mono; [|apply IH, Ht]. pose proof (max_in (fun kt : bytes * ptree => tdepth (snd kt)) l t Ht). cbv beta in H. lia. }
      eapply grows_pre; [apply (members_grow _ l c (Zle_0_nat _) HF)|cbn; lia| |reflexivity]. cbn [tdepth alive alive_change]. lia.
    + exists [CMap v None]. cbn. split; [reflexivity|split; lia].
    + exists [CMap v None]. cbn. split; [reflexivity|split; lia].
Qed.

Lemma run_peak oc s v st : text_ok s ->
  peak (snd (snd (from_str_impl LI oc s v (st, [])))) <= Z.of_nat (tdepth (fst (pv s))).
Proof.
  intros [Hu HL]. apply str_ok_spec in Hu.
  assert (W : peak (snd (snd (walk_result LI s v (st, [])))) <= Z.of_nat (tdepth (fst (pv s)))).
  { unfold walk_result. destruct (pv s) as [t o]. cbn [fst]. destruct (feed_grows t v st []) as (l & E & P & _). cbn [app] in E.
    destruct (feed LI t v (st, [])) as [[u| |f] [st1 l1]]; cbn [fst snd] in *; subst l1; exact P. }
  destruct (from_str_impl_agree LI (fun a b => peak (snd a) = peak (snd b)) (fun _ => eq_refl) (fun _ _ E => eq_sym E) (fun _ _ _ E1 E2 => eq_trans E1 E2)
    ltac:(intros [q|m] [s0 l0]; cbn [drop_layer logged s_drop m_drop log_call snd]; rewrite peak_drop by reflexivity; reflexivity)
    oc s v (st, []) Hu HL) as [E|(_ & _ & _ & E)]; rewrite E; exact W.
Qed.
End Feed.

(** ** Nesting of brackets *)
Fixpoint npeak (s : bytes) : Z :=
  match s with [] => 0 | c :: s' => Z.max 0 (bracket c + npeak s') end.
Definition nest (s : bytes) : Z := npeak (blank QOut s).
Lemma surplus_app a b : surplus (a ++ b) = surplus a + surplus b.
Proof. induction a as [|c a IH]; cbn [surplus app]; lia. Qed.
Lemma npeak_nonneg l : 0 <= npeak l.
Proof. destruct l; cbn [npeak]; lia. Qed.
Lemma surplus_npeak l : surplus l <= npeak l.
Proof. induction l as [|c l IH]; cbn [surplus npeak]; lia. Qed.
Lemma npeak_app a b : npeak (a ++ b) = Z.max (npeak a) (surplus a + npeak b).
Proof. induction a as [|c a IH]; cbn [surplus npeak app]; [pose proof (npeak_nonneg b); lia|]. rewrite IH. lia. Qed.
Lemma npeak_prefix s : forall m n, npeak (blank m s) <= n <-> forall p q, s = p ++ q -> surplus (blank m p) <= n.
Proof.
  intros m n. split.
  - intros H p q ->. rewrite blank_app, npeak_app in H. pose proof (surplus_npeak (blank m p)). lia.
  - revert m n. induction s as [|c s IH]; intros m n H; cbn [blank npeak].
    + exact (H [] [] eq_refl).
    + apply Z.max_lub; [exact (H [] (c :: s) eq_refl)|]. set (x := match m with QOut => c | _ => 34 end) in *.
      enough (npeak (blank (qnext m c) s) <= n - bracket x) by lia. apply IH. intros p q ->.
      pose proof (H (c :: p) q eq_refl) as H0. cbn [blank surplus] in H0. fold x in H0. lia.
Qed.
Lemma nest_within s n : nest s <= n <-> nested_within n s.
Proof. apply npeak_prefix. Qed.

(** Bytes that are neither a bracket nor a quote. *)
Definition dull (c : Z) : Prop := bracket c = 0 /\ c <> 34.
Lemma dull_plain w : Forall dull w -> Forall (fun c => c <> 34) w.
Proof. apply Forall_impl. intros c [_ H]. exact H. Qed.
Lemma surplus_dull w : Forall (fun c => bracket c = 0) w -> surplus w = 0 /\ npeak w = 0.
Proof. induction 1 as [|c w H _ [I1 I2]]; [split; reflexivity|]. cbn [surplus npeak]. lia. Qed.

(** x is a part of a text outside string literals that opens and closes its brackets, nested n deep. *)
Definition part (x : bytes) (n : Z) : Prop := balanced x /\ surplus (blank QOut x) = 0 /\ nest x = n.
Lemma part_app x y n m : part x n -> part y m -> part (x ++ y) (Z.max n m).
Proof.
  intros (B1 & S1 & N1) (B2 & S2 & N2). split; [apply balanced_app; assumption|]. unfold nest in *. rewrite blank_app. unfold balanced in B1. rewrite B1.
  rewrite surplus_app, npeak_app. lia.
Qed.
Lemma nest_skip x n y : part x n -> nest (x ++ y) = Z.max n (nest y).
Proof. intros (B1 & S1 & N1). unfold nest in *. rewrite blank_app. unfold balanced in B1. rewrite B1, npeak_app. lia. Qed.
Lemma part_dull w : Forall dull w -> part w 0.
Proof.
  intros H. unfold part, nest. pose proof (blank_plain w [] (dull_plain _ H)) as E. rewrite app_nil_r in E. cbn [blank] in E. rewrite app_nil_r in E. rewrite E.
  split; [apply balanced_plain, dull_plain, H|]. apply surplus_dull. eapply Forall_impl; [|exact H]. intros c [X _]. exact X.
Qed.
Lemma ws_dull w : Ws w -> Forall dull w.
Proof. apply Forall_impl. intros c H. unfold ws_char, dull, bracket in *. split; [|lia]. destruct H as [->|[->|[->| ->]]]; reflexivity. Qed.
Lemma part_ws w : Ws w -> part w 0.
Proof. intros H. apply part_dull, ws_dull, H. Qed.
Lemma part_cons c y n : dull c -> 0 <= n -> part y n -> part (c :: y) n.
Proof. intros H Hn HP. change (c :: y) with ([c] ++ y). rewrite <- (Z.max_r 0 n) by exact Hn. apply part_app; [apply part_dull; constructor; [exact H|constructor]|exact HP]. Qed.
Lemma part_nonneg x n : part x n -> 0 <= n.
Proof. intros (_ & _ & <-). apply npeak_nonneg. Qed.
Lemma part_brackets a b t n : bracket a = 1 -> bracket b = -1 -> part t n -> part (a :: t ++ [b]) (1 + n).
Proof.
  intros Ha Hb (B & S & N). assert (a <> 34 /\ b <> 34) as [A1 A2] by (split; intros ->; discriminate).
  split; [|].
  - apply balanced_cons; [exact A1|]. apply balanced_app; [exact B|]. apply balanced_plain. constructor; [exact A2|constructor].
  - unfold nest in *. cbn [blank]. assert (E : qnext QOut a = QOut) by (cbn [qnext]; rewrite (proj2 (Z.eqb_neq a 34) A1); reflexivity). rewrite E, blank_app. unfold balanced in B. rewrite B. cbn [blank surplus npeak].
    rewrite surplus_app, npeak_app. cbn [surplus npeak]. pose proof (npeak_nonneg (blank QOut t)). lia.
Qed.
Lemma hex4_blank h n m : Hex4 h n -> m = QIn -> Forall (fun c => bracket c = 0) (blank m h).
Proof.
  intros [a b c d va vb vc vd A B C D] ->. apply hex_digit_in in A, B, C, D.
  repeat (cbn [blank qnext]; rewrite ?(proj2 (Z.eqb_neq _ 34) (proj1 A)), ?(proj2 (Z.eqb_neq _ 92) (proj2 A)), ?(proj2 (Z.eqb_neq _ 34) (proj1 B)), ?(proj2 (Z.eqb_neq _ 92) (proj2 B)),
    ?(proj2 (Z.eqb_neq _ 34) (proj1 C)), ?(proj2 (Z.eqb_neq _ 92) (proj2 C)), ?(proj2 (Z.eqb_neq _ 34) (proj1 D)), ?(proj2 (Z.eqb_neq _ 92) (proj2 D))). repeat constructor.
Qed.
Lemma str_body_blank t s : StrBody t s -> Forall (fun c => bracket c = 0) (blank QIn t).
Proof.
  induction 1 as [|c t s H1 H2 H3 H IH|e c t s HE H IH|h n t s H4 N1 N2 H IH|h1 n1 h2 n2 t s A N1 B N2 H IH].
  - constructor.
  - cbn [blank qnext]. rewrite (proj2 (Z.eqb_neq c 34) H2), (proj2 (Z.eqb_neq c 92) H3). constructor; [reflexivity|exact IH].
  - cbn [blank qnext Z.eqb Pos.eqb]. constructor; [reflexivity|]. constructor; [reflexivity|exact IH].
  - cbn [blank qnext Z.eqb Pos.eqb]. constructor; [reflexivity|]. constructor; [reflexivity|]. rewrite blank_app. apply Forall_app. split; [eapply hex4_blank; [eassumption|reflexivity]|].
    rewrite (hex4_in _ _ H4). exact IH.
  - cbn [blank qnext Z.eqb Pos.eqb]. constructor; [reflexivity|]. constructor; [reflexivity|]. rewrite blank_app. apply Forall_app. split; [eapply hex4_blank; [eassumption|reflexivity]|].
    rewrite (hex4_in _ _ A). cbn [blank qnext Z.eqb Pos.eqb]. constructor; [reflexivity|]. constructor; [reflexivity|]. rewrite blank_app. apply Forall_app. split; [eapply hex4_blank; [eassumption|reflexivity]|].
    rewrite (hex4_in _ _ B). exact IH.
Qed.
Lemma part_str t s : StrText t s -> part t 0.
Proof.
  intros HS. pose proof (str_balanced _ _ HS) as HB. destruct HS as (b & -> & H). split; [exact HB|]. unfold nest. apply surplus_dull.
  cbn [blank qnext Z.eqb Pos.eqb]. constructor; [reflexivity|]. rewrite blank_app. apply Forall_app. split; [apply str_body_blank in H; exact H|].
  apply str_body_in in H. rewrite H. constructor; [reflexivity|constructor].
Qed.
Lemma dtext_dull ds : Forall digit ds -> Forall dull (dtext ds).
Proof.
  unfold dtext. induction 1 as [|d ds H _ IH]; cbn [map]; constructor; [|exact IH]. unfold digit, dull, bracket in *.
  split; [|lia]. repeat (match goal with |- context [?x =? ?y] => destruct (Z.eqb_spec x y); [lia|] end). reflexivity.
Qed.
Lemma num_dull n t : NumText n t -> Forall dull t.
Proof.
  assert (DL : forall c, In c [45; 43; 46; 101; 69] -> dull c) by (intros c [<-|[<-|[<-|[<-|[<-|[]]]]]]; (split; [reflexivity|lia])).
  intros [neg i f ft e et H1 H2 H3]. apply Forall_app. split; [destruct neg; repeat constructor; lia|].
  apply Forall_app. split; [apply dtext_dull, IntDigits_digit, H1|]. apply Forall_app. split.
  - destruct H2 as [|d ds H]; [constructor|]. constructor; [apply DL; cbn; auto 9|apply dtext_dull, H].
  - destruct H3 as [|e0 sg st d ds He HS H]; [constructor|]. constructor; [apply DL; destruct He as [->| ->]; cbn; auto 9|]. apply Forall_app. split; [|apply dtext_dull, H].
    destruct HS; repeat constructor; lia.
Qed.
Lemma words_dull b : In b [bs "null"; bs "true"; bs "false"] -> Forall dull b.
Proof. intros [<-|[<-|[<-|[]]]]; vm_compute; repeat constructor; discriminate. Qed.

Definition dh_list (l : list doc) : Z := Z.of_nat (list_max (map dheight l)).
Definition dh_members (l : list (bytes * doc)) : Z := Z.of_nat (list_max (map (fun kd => dheight (snd kd)) l)).
Lemma text_part :
  (forall d x, VText d x -> part x (Z.of_nat (dheight d))) /\ (forall l x, EText l x -> part x (dh_list l)) /\ (forall l x, MText l x -> part x (dh_members l)).
Proof.
  apply Text_mutind.
  - apply part_dull, words_dull. cbn; auto.
  - apply part_dull, words_dull. cbn; auto.
  - apply part_dull, words_dull. cbn; auto.
  - intros s t H. eapply part_str, H.
  - intros n t H. eapply part_dull, num_dull, H.
  - intros w H. apply (part_brackets 91 93 w 0); [reflexivity|reflexivity|apply part_ws, H].
  - intros l t _ IH. cbn [dheight]. replace (Z.of_nat (S (list_max (map dheight l)))) with (1 + dh_list l) by (unfold dh_list; lia). apply part_brackets; [reflexivity|reflexivity|exact IH].
  - intros w H. apply (part_brackets 123 125 w 0); [reflexivity|reflexivity|apply part_ws, H].
  - intros l t _ IH. cbn [dheight]. replace (Z.of_nat (S (list_max (map (fun kd => dheight (snd kd)) l)))) with (1 + dh_members l) by (unfold dh_members; lia). apply part_brackets; [reflexivity|reflexivity|exact IH].
  - intros d w1 t w2 H1 _ IH H2. replace (dh_list [d]) with (Z.max 0 (Z.max (Z.of_nat (dheight d)) 0)) by (unfold dh_list; cbn [map list_max fold_right]; lia).
    apply part_app; [apply part_ws, H1|]. apply part_app; [exact IH|apply part_ws, H2].
  - intros d w1 t w2 l ts H1 _ IH H2 _ IHl. pose proof (part_nonneg _ _ IHl) as HN. replace (dh_list (d :: l)) with (Z.max 0 (Z.max (Z.of_nat (dheight d)) (Z.max 0 (dh_list l)))) by (unfold dh_list, list_max; cbn [map fold_right]; lia).
    apply part_app; [apply part_ws, H1|]. apply part_app; [exact IH|]. apply part_app; [apply part_ws, H2|]. apply part_cons; [split; [reflexivity|lia]|exact HN|exact IHl].
  - intros k d w1 kt w2 w3 t w4 H1 HK H2 H3 _ IH H4. replace (dh_members [(k, d)]) with (Z.max 0 (Z.max 0 (Z.max 0 (Z.max 0 (Z.max (Z.of_nat (dheight d)) 0))))) by (unfold dh_members; cbn [map list_max fold_right snd]; lia).
    apply part_app; [apply part_ws, H1|]. apply part_app; [eapply part_str, HK|]. apply part_app; [apply part_ws, H2|]. apply part_cons; [split; [reflexivity|lia]|lia|].
    apply part_app; [apply part_ws, H3|]. apply part_app; [exact IH|apply part_ws, H4].
  - intros k d w1 kt w2 w3 t w4 l ts H1 HK H2 H3 _ IH H4 _ IHl. pose proof (part_nonneg _ _ IHl) as HN.
    replace (dh_members ((k, d) :: l)) with (Z.max 0 (Z.max 0 (Z.max 0 (Z.max 0 (Z.max (Z.of_nat (dheight d)) (Z.max 0 (dh_members l))))))) by (unfold dh_members, list_max in *; cbn [map fold_right snd]; lia).
    apply part_app; [apply part_ws, H1|]. apply part_app; [eapply part_str, HK|]. apply part_app; [apply part_ws, H2|]. apply part_cons; [split; [reflexivity|lia]|lia|].
    apply part_app; [apply part_ws, H3|]. apply part_app; [exact IH|]. apply part_app; [apply part_ws, H4|]. apply part_cons; [split; [reflexivity|lia]|exact HN|exact IHl].
Qed.
Lemma text_nest d s : JText d s -> nest s = Z.of_nat (dheight d).
Proof.
  intros (w1 & t & w2 & -> & H1 & HV & H2). destruct (part_app _ _ _ _ (part_ws _ H1) (part_app _ _ _ _ (proj1 text_part _ _ HV) (part_ws _ H2))) as (_ & _ & ->). lia.
Qed.

Lemma parse_nest n :
  (forall s t o, Forall byte_le s -> pval n s = (t, o) -> Z.of_nat (tdepth t) <= nest s) /\
  (forall first s l c o, Forall byte_le s -> pitems n first s = (l, c, o) -> Z.of_nat (list_max (map tdepth l)) <= nest s) /\
  (forall first s l c o, Forall byte_le s -> pmembers n first s = (l, c, o) -> Z.of_nat (list_max (map (fun kt => tdepth (snd kt)) l)) <= nest s).
Proof.
  assert (N0 : forall s, 0 <= nest s) by (intros; apply npeak_nonneg).
  assert (NXT : forall first s s1, Forall byte_le s -> p_next first s = NItem s1 -> nest s = nest s1 /\ Forall byte_le s1).
  { intros first s s1 HB. unfold p_next. destruct (skip_ws_split s) as (w & Ew & Hw). rewrite Ew in HB |- *. apply Forall_app in HB. destruct HB as [_ HB].
    rewrite (nest_skip w 0) by (apply part_ws, Hw). rewrite Z.max_r by apply N0. rewrite (skip_ws_app w _ Hw). replace (skip_ws (skip_ws s)) with (skip_ws s) by (rewrite Ew at 1; apply skip_ws_app, Hw).
    destruct (skip_ws s) as [|c r].
    - destruct first; [|discriminate]. intros [= <-]. split; [reflexivity|exact HB].
    - destruct ((c =? 44) && negb first) eqn:E.
      + intros [= <-]. apply andb_true_iff in E. rewrite Z.eqb_eq in E. destruct E as [-> _]. change (44 :: r) with ([44] ++ r).
        rewrite (nest_skip [44] 0) by (apply part_dull; constructor; [split; [reflexivity|lia]|constructor]). rewrite Z.max_r by apply N0.
        apply Forall_cons_iff in HB. split; [reflexivity|apply HB].
      + destruct ((c =? 93) || (c =? 125)); [discriminate|]. destruct first; [|discriminate]. intros [= <-]. split; [reflexivity|exact HB]. }
  assert (OPN : forall c s, bracket c = 1 -> 1 + nest s <= nest (c :: s)).
  { intros c s H. unfold nest. cbn [blank npeak]. assert (qnext QOut c = QOut) as ->; [|lia]. cbn [qnext]. destruct (Z.eqb_spec c 34) as [->|]; [discriminate H|reflexivity]. }
  induction n as [|n (IHv & IHi & IHm)].
  { split; [|split]; cbn [pval pitems pmembers]; intros; match goal with HX : (_, _) = _ |- _ => inversion HX; subst end; exact (N0 _). }
  split; [|split].
  - intros s t o HB. cbn [pval]. destruct (tok s) as [[ev s1]| |f] eqn:E; [|intros [= <- <-]; exact (N0 _)|intros [= <- <-]; exact (N0 _)].
    apply tok_sound in E; [|exact HB]. destruct E as (w & x & -> & Hw & Hx).
    apply Forall_app in HB. destruct HB as [_ HB]. apply Forall_app in HB. destruct HB as [_ HB].
    destruct ev; try (intros [= <- <-]; exact (N0 _)).
    + subst x. destruct (pitems n true s1) as [[l c] o1] eqn:EI. intros [= <- <-]. apply IHi in EI; [|exact HB].
      rewrite (nest_skip w 0) by (apply part_ws, Hw). rewrite Z.max_r by apply N0. cbn [app]. pose proof (OPN 91 s1 eq_refl). cbn [tdepth]. lia.
    + subst x. destruct (pmembers n true s1) as [[l c] o1] eqn:EI. intros [= <- <-]. apply IHm in EI; [|exact HB].
      rewrite (nest_skip w 0) by (apply part_ws, Hw). rewrite Z.max_r by apply N0. cbn [app]. pose proof (OPN 123 s1 eq_refl). cbn [tdepth]. lia.
  - intros first s l c o HB. cbn [pitems].
    destruct (p_next first s) as [s1|x t|] eqn:E; [| |intros [= <- <- <-]; exact (N0 _)].
    + apply NXT in E; [|exact HB]. destruct E as [-> HB1]. destruct (pval n s1) as [t [r1|]] eqn:E1.
      * destruct (pitems n false r1) as [[l' c'] o'] eqn:E2. intros [= <- <- <-]. pose proof E1 as E3.
        apply IHv in E1; [|exact HB1]. apply (proj1 (parse_sound n)) in E3; [|exact HB1]. destruct E3 as (w & x & d & -> & Hw & Hx & _).
        apply Forall_app in HB1. destruct HB1 as [_ HB1]. apply Forall_app in HB1. destruct HB1 as [_ HB1]. apply IHi in E2; [|exact HB1].
        rewrite (nest_skip w 0) in * by (apply part_ws, Hw). rewrite (nest_skip x _ r1 (proj1 text_part _ _ Hx)) in *. cbn [map list_max fold_right]. unfold list_max in E2. lia.
      * intros [= <- <- <-]. apply IHv in E1; [|exact HB1]. cbn [map list_max fold_right]. lia.
    + destruct (x =? 93); intros [= <- <- <-]; exact (N0 _).
  - intros first s l c o HB. rewrite pmembers_S.
    destruct (p_next first s) as [s1|x t|] eqn:E; [| |intros [= <- <- <-]; exact (N0 _)].
    + apply NXT in E; [|exact HB]. destruct E as [-> HB1]. unfold p_key. destruct (skip_ws_split s1) as (wk & Ek & Hwk).
      destruct (skip_ws s1) as [|ck s2]; [intros [= <- <- <-]; exact (N0 _)|].
      destruct (Z.eqb_spec ck 34); [|intros [= <- <- <-]; exact (N0 _)]. subst ck s1.
      apply Forall_app in HB1. destruct HB1 as [_ HB1]. apply Forall_cons_iff in HB1. destruct HB1 as [_ HB1].
      destruct (p_string s2) as [[k s3]|] eqn:EP; [|intros [= <- <- <-]; exact (N0 _)].
      apply p_string_sound in EP; [|exact HB1]. destruct EP as (b & -> & Hb).
      apply Forall_app in HB1. destruct HB1 as [_ HB1]. apply Forall_cons_iff in HB1. destruct HB1 as [_ HB1].
      destruct (skip_ws_split s3) as (wc & Ec & Hwc).
      destruct (skip_ws s3) as [|cc s4]; [intros [= <- <- <-]; exact (N0 _)|].
      destruct (Z.eqb_spec cc 58); [|intros [= <- <- <-]; exact (N0 _)]. subst cc s3.
      apply Forall_app in HB1. destruct HB1 as [_ HB1]. apply Forall_cons_iff in HB1. destruct HB1 as [_ HB1].
      assert (EN : nest (wk ++ 34 :: b ++ 34 :: wc ++ 58 :: s4) = nest s4).
      { assert (HK : StrText (34 :: b ++ [34]) k) by (exists b; auto).
        replace (wk ++ 34 :: b ++ 34 :: wc ++ 58 :: s4) with ((wk ++ (34 :: b ++ [34]) ++ wc ++ [58]) ++ s4) by (repeat (rewrite <- app_assoc; cbn [app]); reflexivity).
        rewrite (nest_skip _ (Z.max 0 (Z.max 0 (Z.max 0 0)))); [rewrite Z.max_r; [reflexivity|apply N0]|].
        apply part_app; [apply part_ws, Hwk|]. apply part_app; [eapply part_str, HK|]. apply part_app; [apply part_ws, Hwc|]. apply part_dull. constructor; [split; [reflexivity|lia]|constructor]. }
      destruct (pval n s4) as [t [r1|]] eqn:E1.
      * destruct (pmembers n false r1) as [[l' c'] o'] eqn:E2. intros [= <- <- <-]. pose proof E1 as E3. rewrite EN. clear EN.
        apply IHv in E1; [|exact HB1]. apply (proj1 (parse_sound n)) in E3; [|exact HB1]. destruct E3 as (w & x & d & -> & Hw & Hx & _).
        apply Forall_app in HB1. destruct HB1 as [_ HB1]. apply Forall_app in HB1. destruct HB1 as [_ HB1]. apply IHm in E2; [|exact HB1].
        rewrite (nest_skip w 0) in * by (apply part_ws, Hw). rewrite (nest_skip x _ r1 (proj1 text_part _ _ Hx)) in *. cbn [map list_max fold_right snd]. unfold list_max in E2. lia.
      * intros [= <- <- <-]. rewrite EN. apply IHv in E1; [|exact HB1]. cbn [map list_max fold_right snd]. lia.
    + destruct (x =? 125); intros [= <- <- <-]; exact (N0 _).
Qed.
Lemma pv_nest s : str_ok s = true -> Z.of_nat (tdepth (fst (pv s))) <= nest s.
Proof.
  intros Hu. unfold pv. destruct (pval _ s) as [t o] eqn:E. apply (proj1 (parse_nest _)) in E; [exact E|].
  apply utf8_bytes, str_ok_spec, Hu.
Qed.

(** ** Sizes *)
Fixpoint dsize (d : doc) : nat :=
  match d with
  | DNull | DBool _ | DNum _ => 1
  | DStr s => 1 + List.length s
  | DArr l => 1 + list_sum (map dsize l)
  | DObj l => 1 + list_sum (map (fun kd => (List.length (fst kd) + dsize (snd kd))%nat) l)
  end%nat.
Definition ds_list (l : list doc) : nat := list_sum (map dsize l).
Definition ds_members (l : list (bytes * doc)) : nat := list_sum (map (fun kd => (List.length (fst kd) + dsize (snd kd))%nat) l).
Lemma enc_len c : (1 <= List.length (utf8_enc c) <= 4)%nat.
Proof. unfold utf8_enc. repeat (match goal with |- context [if ?b then _ else _] => destruct b end); cbn; lia. Qed.
Lemma body_len t s : StrBody t s -> (List.length s <= List.length t)%nat.
Proof.
  induction 1 as [|c t s H1 H2 H3 H IH|e c t s HE H IH|h n t s H4 N1 N2 H IH|h1 n1 h2 n2 t s A N1 B N2 H IH]; cbn [List.length]; try lia.
  - rewrite !app_length. pose proof (enc_len n). destruct H4. cbn [List.length]. lia.
  - rewrite !app_length. cbn [List.length]. rewrite app_length. match goal with |- context [utf8_enc ?c] => pose proof (enc_len c) end. destruct A, B. cbn [List.length]. lia.
Qed.
Lemma str_len t s : StrText t s -> (List.length s + 2 <= List.length t)%nat.
Proof. intros (b & -> & H). apply body_len in H. cbn [List.length]. rewrite app_length. cbn [List.length]. lia. Qed.
Lemma num_len n t : NumText n t -> (1 <= List.length t)%nat.
Proof. intros [neg i f ft e et H1 H2 H3]. rewrite !app_length. unfold dtext. rewrite map_length. destruct H1; cbn [List.length]; lia. Qed.
Lemma text_len :
  (forall d x, VText d x -> (dsize d <= List.length x)%nat) /\ (forall l x, EText l x -> (ds_list l <= List.length x)%nat) /\ (forall l x, MText l x -> (ds_members l <= List.length x)%nat).
Proof.
  apply Text_mutind; intros; unfold ds_list, ds_members in *; cbn [dsize map list_sum fold_right fst snd] in *; rewrite ?app_length; cbn [List.length]; rewrite ?app_length; cbn [List.length];
    try (change (List.length (bs "null")) with 4%nat); try (change (List.length (bs "true")) with 4%nat); try (change (List.length (bs "false")) with 5%nat);
    repeat match goal with H : StrText _ _ |- _ => apply str_len in H | H : NumText _ _ |- _ => apply num_len in H end; rewrite ?app_length in *; cbn [List.length] in *;
    rewrite ?app_length in *; cbn [List.length] in *; rewrite ?app_length in *; cbn [List.length] in *; unfold list_sum in *; try lia.
Qed.
Lemma jtext_len d s : JText d s -> (dsize d <= List.length s)%nat.
Proof. intros (w1 & t & w2 & -> & _ & HV & _). apply (proj1 text_len) in HV. rewrite !app_length. lia. Qed.

Lemma sum_app l m : list_sum (l ++ m) = (list_sum l + list_sum m)%nat.
Proof. apply list_sum_app. Qed.
Lemma sub_total {A} (f : A -> nat) (m : list A) : NoDup m -> forall l, incl m l -> (list_sum (map f m) <= list_sum (map f l))%nat.
Proof.
  induction 1 as [|x m HN _ IH]; intros l HI; [cbn; lia|]. destruct (in_split x l (HI x (or_introl eq_refl))) as (l1 & l2 & ->).
  assert (incl m (l1 ++ l2)) as HI'.
  { intros y Hy. pose proof (HI y (or_intror Hy)) as HH. apply in_app_iff in HH. apply in_app_iff. destruct HH as [HH|[<-|HH]]; [left; exact HH|contradiction|right; exact HH]. }
  apply IH in HI'. rewrite map_app, sum_app in *. cbn [map list_sum fold_right]. unfold list_sum in *. cbn [fold_right]. lia.
Qed.
Lemma nodup_fst {A B} (m : list (A * B)) : NoDup (map fst m) -> NoDup m.
Proof. apply NoDup_map_inv. Qed.
Lemma sum_forall2 {A B} (R : A -> B -> Prop) (f : A -> nat) (g : B -> nat) l m : Forall2 R l m -> (forall a b, In a l -> R a b -> (g b <= f a)%nat) ->
  (list_sum (map g m) <= list_sum (map f l))%nat.
Proof.
  induction 1 as [|a b l m H _ IH]; intros HH; [cbn; lia|]. cbn [map list_sum fold_right]. pose proof (HH a b (or_introl eq_refl) H).
  assert (forall a b, In a l -> R a b -> (g b <= f a)%nat) as H1 by (intros; apply HH; [right; assumption|assumption]). apply IH in H1. unfold list_sum in *. lia.
Qed.
Lemma bytes_map_total {A} (f : bytes * A -> nat) kvs m : MapOf bytes_cmp kvs m -> (list_sum (map f m) <= list_sum (map f kvs))%nat.
Proof.
  intros [HS HM]. apply sub_total.
  - apply nodup_fst. eapply (sorted_nodup bytes_cmp (fun _ => True)); [intros a _; apply bytes_cmp_refl|intros a b c _ _ _; apply bytes_cmp_trans|apply Forall_forall; auto|exact HS].
  - intros [k v] H. apply HM in H. apply last_in, H.
Qed.
Lemma key_map_total {A} K (f : val * A -> nat) kvs m : Forall (fun kv => key_kind K (fst kv)) kvs -> MapOf key_cmp kvs m -> (list_sum (map f m) <= list_sum (map f kvs))%nat.
Proof.
  intros HK HMM. pose proof HMM as [HS HM]. assert (HI : incl m kvs) by (intros [k v] H; apply HM in H; apply last_in, H). apply sub_total; [|exact HI].
  apply nodup_fst. eapply (sorted_nodup key_cmp (key_kind K)); [apply key_cmp_refl|apply key_cmp_trans| |exact HS].
  rewrite Forall_forall in *. intros x Hx. apply HK, HI, Hx.
Qed.
Lemma jreads_size d : forall j, JReads d j -> (jsize j <= dsize d)%nat.
Proof.
  induction d as [|b|s|n|l IH|l IH] using doc_ind'; intros j HJ; inversion HJ; subst; cbn [jsize dsize]; try lia.
  - apply le_n_S. eapply sum_forall2; [eassumption|]. rewrite Forall_forall in IH. intros a b Ha HR. apply (IH a Ha), HR.
  - apply le_n_S. etransitivity; [eapply bytes_map_total; eassumption|]. eapply sum_forall2; [eassumption|]. rewrite Forall_forall in IH.
    intros a b Ha [HE HR]. apply (IH a Ha) in HR. rewrite HE. lia.
Qed.
Lemma key_reads K k v : KeyReads K k v -> key_kind K v /\ (ksize v <= List.length k)%nat.
Proof. intros []; cbn; (split; [exact Logic.I|lia]). Qed.

Section Reads.
Variable E : env.
Lemma struct_total (fs : list (bytes * ty)) (l : list (bytes * doc)) vs (g : bytes * doc -> nat) :
  List.length vs = List.length fs ->
  (forall i n T v, nth_error fs i = Some (n, T) -> nth_error vs i = Some v ->
       (FieldAt fs n i T /\ exists d, In (n, d) l /\ (vsize v <= g (n, d))%nat) \/ vsize v = O) ->
  (list_sum (map vsize vs) <= list_sum (map g l))%nat.
Proof.
  intros HL HV.
  assert (S : forall n, (n <= List.length vs)%nat -> exists m, NoDup (map fst m) /\ incl m l /\ (list_sum (map vsize (firstn n vs)) <= list_sum (map g m))%nat /\
     forall k, In k (map fst m) -> exists i T, (i < n)%nat /\ nth_error fs i = Some (k, T)).
  { induction n as [|n IH]; intros Hn; [exists []; split; [constructor|split; [intros x []|split; [cbn; lia|intros k []]]]|].
    destruct IH as (m & M1 & M2 & M3 & M4); [lia|].
    destruct (nth_error vs n) as [v|] eqn:EV; [|apply nth_error_None in EV; lia].
    destruct (nth_error fs n) as [[k T]|] eqn:EF; [|apply nth_error_None in EF; lia].
    assert (FN : firstn (Datatypes.S n) vs = firstn n vs ++ [v]).
    { clear - EV. revert n EV. induction vs as [|a vs IH]; intros [|n] EV; try discriminate EV; cbn [nth_error firstn app] in *; [injection EV as ->; reflexivity|]. f_equal. apply IH, EV. }
    rewrite FN, map_app, sum_app. cbn [map list_sum fold_right].
    destruct (HV n k T v EF EV) as [[FA (d & Hd & Hs)]|H0].
    - exists ((k, d) :: m). split; [|split; [|split]].
      + cbn [map fst]. constructor; [|exact M1]. intros HI. destruct (M4 k HI) as (i & T' & Hi & EI). destruct FA as [_ FA]. exact (FA i T' Hi EI).
      + intros x [<-|Hx]; [exact Hd|apply M2, Hx].
      + cbn [map list_sum fold_right]. unfold list_sum in *. lia.
      + cbn [map fst]. intros k' [<-|Hk]; [exists n, T; split; [lia|exact EF]|]. destruct (M4 k' Hk) as (i & T' & Hi & EI). exists i, T'. split; [lia|exact EI].
    - exists m. split; [exact M1|]. split; [exact M2|]. split; [lia|]. intros k' Hk. destruct (M4 k' Hk) as (i & T' & Hi & EI). exists i, T'. split; [lia|exact EI]. }
  destruct (S (List.length vs) (le_n _)) as (m & M1 & M2 & M3 & _). rewrite firstn_all in M3. etransitivity; [exact M3|]. apply sub_total; [apply nodup_fst, M1|exact M2].
Qed.
Lemma reads_size d : forall T v, Reads E T d v -> (vsize v <= dsize d)%nat.
Proof.
  induction d as [|b|s|n|l IH|l IH] using doc_ind'; intros T v HR;
    (match type of HR with Reads _ _ ?d _ => remember d as dd eqn:ED in HR end;
     revert ED; induction HR; intros ED; try discriminate ED; try (apply IHHR, ED); rewrite <- ?ED; cbn [vsize]; try (cbn [dsize]; lia);
     try (match goal with H : JReads _ _ |- _ => apply jreads_size in H; exact H end)).
  - (* an array of other values *) injection ED as <-. cbn [dsize map list_sum fold_right]. rewrite !Forall_cons_iff in IH. destruct IH as (X1 & X2 & _).
    apply X1 in HR1. apply X2 in HR2. lia.
  - injection ED as <-. cbn [dsize]. apply le_n_S. eapply sum_forall2; [eassumption|]. rewrite Forall_forall in IH. intros a b Ha HR. eapply (IH a Ha), HR.
  - injection ED as <-. cbn [dsize]. apply le_n_S. eapply sum_forall2; [eassumption|]. rewrite Forall_forall in IH. intros a b Ha HR. eapply (IH a Ha), HR.
  - (* maps *) injection ED as <-. cbn [dsize]. apply le_n_S. etransitivity.
    + eapply (key_map_total K); [|eassumption]. clear - H. induction H as [|a b l m [HK _] _ IH]; constructor; [apply key_reads in HK; apply HK|exact IH].
    + eapply sum_forall2; [eassumption|]. rewrite Forall_forall in IH. intros a b Ha [HK HR]. apply key_reads in HK. apply (IH a Ha) in HR. lia.
  - (* structs *) injection ED as <-. cbn [dsize]. apply le_n_S. apply (struct_total fs); [assumption|]. intros i n T v EF EV. rewrite Forall_forall in IH.
    match goal with H : forall i n T v, _ -> _ -> _ \/ _ |- _ => destruct (H i n T v EF EV) as [(FA & d & HB & HR)|(_ & _ & ->)] end; [left|right; reflexivity].
    split; [exact FA|]. exists d. apply last_in in HB. split; [exact HB|]. apply (IH _ HB) in HR. cbn [fst snd] in *. lia.
Qed.
End Reads.
