(** Facts about the walk: logging, number of calls, brackets, the success relation. *)
From Coq Require Import String ZArith List Bool Lia Floats.SpecFloat.
From Verif Require Import Base Utf8 Utf8Facts F64 Lexer Driver Grammar LexSpec LexFacts RunFacts LexNumFacts Types Tree TreeFacts DriverFacts
  GrammarFacts Unambiguous Reading ReadFacts FromStr ParseSpec.
Import ListNotations.
Open Scope Z_scope.

(** ** Weight of a tree: the number of calls its walk makes *)
Fixpoint weight (t : ptree) : nat :=
  match t with
  | PBad => 0
  | PLeaf _ => 1
  | PSeq l c => 1 + fold_right (fun t n => 1 + weight t + n)%nat (if c then 1 else 0)%nat l
  | PMap l c => 1 + fold_right (fun kt n => 1 + weight (snd kt) + n)%nat (if c then 1 else 0)%nat l
  end.
Definition wl (l : list ptree) (c : bool) : nat := fold_right (fun t n => 1 + weight t + n)%nat (if c then 1 else 0)%nat l.
Definition wm (l : list (bytes * ptree)) (c : bool) : nat :=
  fold_right (fun kt n => 1 + weight (snd kt) + n)%nat (if c then 1 else 0)%nat l.

Definition rlen (o : option bytes) : nat := match o with Some r => List.length r | None => O end.

Lemma p_next_len first s : match p_next first s with
  | NItem r => (List.length r + (if first then 0 else 1) <= List.length s)%nat
  | NClose _ r => (List.length r < List.length s)%nat
  | NBroken => True end.
Proof.
  pose proof (p_next_item first s). pose proof (p_next_close first s).
  unfold p_next in *. pose proof (skip_ws_consumes s) as W. apply consumes0_len in W.
  destruct (skip_ws s) as [|c r]; [destruct first; cbn [List.length] in *; auto; lia|].
  cbn [List.length] in W.
  destruct ((c =? 44) && negb first) eqn:E1; [destruct first; [rewrite andb_false_r in E1; discriminate|lia]|].
  destruct ((c =? 93) || (c =? 125)); [lia|]. destruct first; [cbn [List.length]; lia|exact I].
Qed.

Lemma parse_weight n :
  (forall s t o, pval n s = (t, o) -> (weight t + 2 * rlen o <= 2 * List.length s)%nat) /\
  (forall first s l c o, pitems n first s = (l, c, o) ->
     (wl l c + 2 * rlen o <= 2 * List.length s + (if first then 1 else 0))%nat) /\
  (forall first s l c o, pmembers n first s = (l, c, o) ->
     (wm l c + 2 * rlen o <= 2 * List.length s + (if first then 1 else 0))%nat).
Proof.
  induction n as [|n (IHv & IHi & IHm)].
  { split; [|split]; cbn [pval pitems pmembers]; intros; match goal with H : (_, _) = _ |- _ => inversion H; subst end;
      cbn [weight rlen wl wm fold_right]; lia. }
  split; [|split].
  - intros s t o. cbn [pval]. destruct (tok s) as [[ev s1]| |f] eqn:E;
      [|intros [= <- <-]; cbn [weight rlen]; lia|intros [= <- <-]; cbn [weight rlen]; lia].
    apply tok_consumes, consumes_len in E.
    destruct ev; try (intros [= <- <-]; cbn [weight rlen]; lia).
    + destruct (pitems n true s1) as [[l c] o1] eqn:E1. intros [= <- <-]. apply IHi in E1.
      change (weight (PSeq l c)) with (1 + wl l c)%nat. lia.
    + destruct (pmembers n true s1) as [[l c] o1] eqn:E1. intros [= <- <-]. apply IHm in E1.
      change (weight (PMap l c)) with (1 + wm l c)%nat. lia.
  - intros first s l c o. cbn [pitems]. pose proof (p_next_len first s) as HL.
    destruct (p_next first s) as [s1|x t|]; [| |intros [= <- <- <-]; cbn [wl fold_right rlen]; lia].
    + destruct (pval n s1) as [t [r1|]] eqn:E1.
      * destruct (pitems n false r1) as [[l' c'] o'] eqn:E2. intros [= <- <- <-].
        apply IHv in E1. apply IHi in E2. cbn [rlen] in *.
        change (wl (t :: l') c') with (1 + weight t + wl l' c')%nat. destruct first; lia.
      * intros [= <- <- <-]. apply IHv in E1. cbn [rlen wl fold_right] in *. destruct first; lia.
    + destruct (x =? 93); intros [= <- <- <-]; cbn [wl fold_right rlen]; lia.
  - intros first s l c o. rewrite pmembers_S. pose proof (p_next_len first s) as HL.
    destruct (p_next first s) as [s1|x t|]; [| |intros [= <- <- <-]; cbn [wm fold_right rlen]; lia].
    + assert (HK : forall k o4, p_key s1 = Some (k, o4) -> (1 <= List.length s1)%nat).
      { intros k o4. unfold p_key. destruct s1; [discriminate|cbn [List.length]; lia]. }
      destruct (p_key s1) as [[k [s4|]]|] eqn:EK.
      * apply p_key_consumes, consumes_len in EK.
        destruct (pval n s4) as [t [r1|]] eqn:E1.
        -- destruct (pmembers n false r1) as [[l' c'] o'] eqn:E2. intros [= <- <- <-].
           apply IHv in E1. apply IHm in E2. cbn [rlen] in *.
           change (wm ((k, t) :: l') c') with (1 + weight t + wm l' c')%nat. destruct first; lia.
        -- intros [= <- <- <-]. apply IHv in E1. cbn [rlen wm fold_right snd] in *. destruct first; lia.
      * intros [= <- <- <-]. specialize (HK _ _ eq_refl). cbn [rlen wm fold_right snd weight]. destruct first; lia.
      * intros [= <- <- <-]. cbn [rlen wm fold_right]. destruct first; lia.
    + destruct (x =? 125); intros [= <- <- <-]; cbn [wm fold_right rlen]; lia.
Qed.

Lemma pv_weight s : (weight (fst (pv s)) <= 2 * List.length s)%nat.
Proof.
  unfold pv. destruct (pval _ s) as [t o] eqn:E. apply (proj1 (parse_weight _)) in E. cbn [fst]. lia.
Qed.

(** ** The strings, integers and floats of a tree are legal *)
Definition ev_legal (ev : event) : Prop :=
  match ev with
  | EStr s => str_ok s = true
  | ENeg n => i64_MIN <= n <= 0
  | ENonneg n => 0 <= n <= u64_MAX
  | EFloat f => f_is_finite f = true
  | _ => True
  end.
Fixpoint tree_legal (t : ptree) : Prop :=
  match t with
  | PBad => True
  | PLeaf ev => ev_legal ev
  | PSeq l _ => fold_right (fun t P => tree_legal t /\ P) True l
  | PMap l _ => fold_right (fun kt P => (str_ok (fst kt) = true /\ tree_legal (snd kt)) /\ P) True l
  end.
Lemma fold_and {A} (P : A -> Prop) l : fold_right (fun t Q => P t /\ Q) True l <-> Forall P l.
Proof. induction l; cbn [fold_right]; [split; constructor|]. rewrite IHl, Forall_cons_iff. tauto. Qed.

Section Logged.
Context {St V SH MH : Type}.
Variable I : iface St V SH MH.
Notation call := (call V SH MH).
Notation LI := (logged I).

Lemma bracketed_app (a b : list call) : Bracketed a -> Bracketed b -> Bracketed (a ++ b).
Proof.
  intros H. induction H as [|c l Hc Hl IH|v q l1 l2 H1 IH1 H2 IH2|v m l1 l2 H1 IH1 H2 IH2]; intros Hb; cbn [app].
  - exact Hb.
  - apply br_other; auto.
  - rewrite <- app_assoc. cbn [app]. apply br_seq; auto.
  - rewrite <- app_assoc. cbn [app]. apply br_map; auto.
Qed.
Lemma bracketed_one c : match c with CSeqDrop _ | CMapDrop _ | CSeq _ (Some _) | CMap _ (Some _) => False | _ => True end ->
  Bracketed [c : call].
Proof. intros H. apply br_other; [exact H|constructor]. Qed.
Lemma mc_app (a b : list call) : method_calls (a ++ b) = (method_calls a + method_calls b)%nat.
Proof. unfold method_calls. rewrite filter_app, app_length. reflexivity. Qed.

(** Outcome of a logged computation, compared with the plain one. *)
Definition sim {A} (N : nat) (L : Prop) (x : res A * (St * list call)) (y : res A * St) (log : list call)
    (B : list call -> Prop) : Prop :=
  exists l, x = (fst y, (snd y, log ++ l)) /\
    (orderly (fst y) = true -> B l) /\ (method_calls l <= N)%nat /\ (L -> Forall args_ok l).

Definition closes (ly : layer SH MH) (l : list call) : Prop :=
  match ly with
  | LSeq q => exists l1, Bracketed l1 /\ l = l1 ++ [CSeqDrop q]
  | LMap m => exists l1, Bracketed l1 /\ l = l1 ++ [CMapDrop m]
  end.
Lemma closes_app ly a b : Bracketed a -> closes ly b -> closes ly (a ++ b).
Proof.
  intros Ha. destruct ly; intros (l1 & H1 & ->); exists (a ++ l1); (split; [apply bracketed_app; assumption|apply app_assoc]).
Qed.

Lemma drop_sim ly st log (L : Prop) : sim 0 L (drop_err LI ly (st, log)) (drop_err I ly st) log (closes ly).
Proof.
  unfold drop_err. destruct ly as [q|m]; cbn [drop_layer logged s_drop m_drop]; unfold log_call; cbn [fst snd].
  - destruct (s_drop I q st) as [[u| |f] st1]; cbn [fst snd];
      (exists [CSeqDrop q]; split; [reflexivity|split; [|split; [cbn; lia|repeat constructor]]]);
      (intros _; exists []; split; [constructor|reflexivity]).
  - destruct (m_drop I m st) as [[u| |f] st1]; cbn [fst snd];
      (exists [CMapDrop m]; split; [reflexivity|split; [|split; [cbn; lia|repeat constructor]]]);
      (intros _; exists []; split; [constructor|reflexivity]).
Qed.

Lemma panic_dec f : f = FPanic \/ f <> FPanic.
Proof. destruct f; (left; reflexivity) || (right; discriminate). Qed.
Lemma on_fault_other {S V' SH' MH' A} (J : iface S V' SH' MH') f ls st : f <> FPanic -> @on_fault _ _ _ _ J A f ls st = (Fault f, st).
Proof. destruct f; try reflexivity. now intros []. Qed.
Lemma unwind_sim ly st log (L : Prop) f : sim 0 L (on_fault LI f [ly] (st, log) : res unit * _) (on_fault I f [ly] st) log (closes ly).
Proof.
  destruct f; cbn [on_fault]; try (exists []; rewrite app_nil_r; split; [reflexivity|split; [discriminate|split; [cbn; lia|constructor]]]).
  cbn [unwind]. destruct ly as [q|m]; cbn [drop_layer logged s_drop m_drop]; unfold log_call; cbn [fst snd].
  - destruct (s_drop I q st) as [[u| |[]] st1]; cbn [fst snd];
      (exists [CSeqDrop q]; split; [reflexivity|split; [|split; [cbn; lia|repeat constructor]]]);
      (intros _; exists []; split; [constructor|reflexivity]).
  - destruct (m_drop I m st) as [[u| |[]] st1]; cbn [fst snd];
      (exists [CMapDrop m]; split; [reflexivity|split; [|split; [cbn; lia|repeat constructor]]]);
      (intros _; exists []; split; [constructor|reflexivity]).
Qed.

Lemma sim_log {A} N (L : Prop) (x : res A * (St * list call)) y log pre (B B' : list call -> Prop) M :
  sim N L x y (log ++ pre) B -> (forall l, B l -> B' (pre ++ l)) -> (method_calls pre + N <= M)%nat ->
  (L -> Forall args_ok pre) -> sim M L x y log B'.
Proof.
  intros (l & -> & H1 & H2 & H3) HB HN HL. exists (pre ++ l). rewrite app_assoc. split; [reflexivity|].
  split; [auto|]. split; [rewrite mc_app; lia|]. intros HH. apply Forall_app. auto.
Qed.

Lemma finish_sim ly c st log (L : Prop) :
  sim (if c : bool then 1 else 0) L (finish_layer LI ly c (st, log)) (finish_layer I ly c st) log (closes ly).
Proof.
  unfold finish_layer. destruct c; [|apply drop_sim].
  destruct ly as [q|m]; cbn [drop_layer logged s_finish m_finish s_drop m_drop]; unfold log_call at 1; cbn [fst snd].
  - destruct (s_finish I q st) as [[u| |f] st1]; cbn [fst snd].
    + unfold log_call. cbn [fst snd]. rewrite <- app_assoc. cbn [app].
      assert (closes (LSeq q) [CSeqFinish q; CSeqDrop q]) as HC.
      { exists [CSeqFinish q]. split; [apply bracketed_one; exact Logic.I|reflexivity]. }
      destruct (s_drop I q st1) as [[w| |f] st2]; cbn [fst snd];
        (exists [CSeqFinish q; CSeqDrop q]; split; [reflexivity|split; [|split; [cbn; lia|repeat constructor]]]);
        intros _; exact HC.
    + eapply sim_log; [apply drop_sim| | |].
      * intros l Hl. apply closes_app; [apply bracketed_one; exact Logic.I|exact Hl].
      * cbn. lia.
      * repeat constructor.
    + eapply sim_log; [apply unwind_sim| | |].
      * intros l Hl. apply closes_app; [apply bracketed_one; exact Logic.I|exact Hl].
      * cbn. lia.
      * repeat constructor.
  - destruct (m_finish I m st) as [[u| |f] st1]; cbn [fst snd].
    + unfold log_call. cbn [fst snd]. rewrite <- app_assoc. cbn [app].
      assert (closes (LMap m) [CMapFinish m; CMapDrop m]) as HC.
      { exists [CMapFinish m]. split; [apply bracketed_one; exact Logic.I|reflexivity]. }
      destruct (m_drop I m st1) as [[w| |f] st2]; cbn [fst snd];
        (exists [CMapFinish m; CMapDrop m]; split; [reflexivity|split; [|split; [cbn; lia|repeat constructor]]]);
        intros _; exact HC.
    + eapply sim_log; [apply drop_sim| | |].
      * intros l Hl. apply closes_app; [apply bracketed_one; exact Logic.I|exact Hl].
      * cbn. lia.
      * repeat constructor.
    + eapply sim_log; [apply unwind_sim| | |].
      * intros l Hl. apply closes_app; [apply bracketed_one; exact Logic.I|exact Hl].
      * cbn. lia.
      * repeat constructor.
Qed.

Definition fsim (t : ptree) : Prop := forall v st log,
  sim (weight t) (tree_legal t) (feed LI t v (st, log)) (feed I t v st) log Bracketed.

Lemma items_sim l c : Forall fsim l -> forall q st log,
  sim (wl l c) (Forall tree_legal l) (feed_items LI (feed LI) q l c (st, log)) (feed_items I (feed I) q l c st) log (closes (LSeq q)).
Proof.
  intros HF. induction HF as [|t l Ht HF IH]; intros q st log; cbn [feed_items]; [apply finish_sim|].
  change (wl (t :: l) c) with (S (weight t + wl l c))%nat.
  cbn [logged s_element]. unfold log_call. cbn [fst snd]. destruct (s_element I q st) as [[v| |f] st1]; cbn [fst snd].
  - destruct (Ht v st1 (log ++ [CElement q])) as (l1 & E1 & B1 & N1 & L1).
    fold LI. rewrite E1. destruct (feed I t v st1) as [[u| |f] st2]; cbn [fst snd].
    + destruct (IH q st2 ((log ++ [CElement q]) ++ l1)) as (l2 & E2 & B2 & N2 & L2). fold LI. rewrite E2.
      exists (CElement q :: l1 ++ l2). split; [repeat rewrite <- app_assoc; reflexivity|].
      split; [|split].
      * intros HQ. change (CElement q :: l1 ++ l2) with ([CElement q] ++ (l1 ++ l2)).
        apply closes_app; [apply bracketed_one; exact Logic.I|]. apply closes_app; auto.
      * change (CElement q :: l1 ++ l2) with ([CElement q] ++ (l1 ++ l2)). rewrite !mc_app. cbn. lia.
      * intros HL. inversion HL; subst. constructor; [exact Logic.I|]. apply Forall_app; auto.
    + eapply sim_log with (pre := CElement q :: l1); [replace (log ++ CElement q :: l1) with ((log ++ [CElement q]) ++ l1) by (rewrite <- app_assoc; reflexivity); apply drop_sim| | |].
      * intros l2 H2. change (CElement q :: l1) with ([CElement q] ++ l1).
        apply closes_app; [apply bracketed_app; [apply bracketed_one; exact Logic.I|auto]|exact H2].
      * change (CElement q :: l1) with ([CElement q] ++ l1). rewrite mc_app. cbn. lia.
      * intros HL. inversion HL; subst. constructor; [exact Logic.I|auto].
    + destruct (panic_dec f) as [->|Hf].
      2: { rewrite !on_fault_other by exact Hf. exists (CElement q :: l1). split; [rewrite <- app_assoc; reflexivity|]. split; [cbn [fst]; destruct f; (discriminate || now destruct Hf)|].
        split; [change (CElement q :: l1) with ([CElement q] ++ l1); rewrite mc_app; cbn; lia|].
        intros HL. inversion HL; subst. constructor; [exact Logic.I|auto]. }
      eapply sim_log with (pre := CElement q :: l1); [replace (log ++ CElement q :: l1) with ((log ++ [CElement q]) ++ l1) by (rewrite <- app_assoc; reflexivity); apply unwind_sim| | |].
      * intros l2 H2. change (CElement q :: l1) with ([CElement q] ++ l1).
        apply closes_app; [apply bracketed_app; [apply bracketed_one; exact Logic.I|auto]|exact H2].
      * change (CElement q :: l1) with ([CElement q] ++ l1). rewrite mc_app. cbn. lia.
      * intros HL. inversion HL; subst. constructor; [exact Logic.I|auto].
  - eapply sim_log; [apply drop_sim| | |].
    * intros l2 H2. apply closes_app; [apply bracketed_one; exact Logic.I|exact H2].
    * cbn. lia.
    * repeat constructor.
  - eapply sim_log; [apply unwind_sim| | |].
    * intros l2 H2. apply closes_app; [apply bracketed_one; exact Logic.I|exact H2].
    * cbn. lia.
    * repeat constructor.
Qed.

Lemma members_sim l c : Forall (fun kt => fsim (snd kt)) l -> forall m st log,
  sim (wm l c) (Forall (fun kt => str_ok (fst kt) = true /\ tree_legal (snd kt)) l)
    (feed_members LI (feed LI) m l c (st, log)) (feed_members I (feed I) m l c st) log (closes (LMap m)).
Proof.
  intros HF. induction HF as [|[k t] l Ht HF IH]; intros m st log; cbn [feed_members]; [apply finish_sim|].
  change (wm ((k, t) :: l) c) with (S (weight t + wm l c))%nat.
  cbn [logged m_key]. unfold log_call. cbn [fst snd]. destruct (m_key I m k st) as [[v| |f] st1]; cbn [fst snd].
  - destruct (Ht v st1 (log ++ [CKey m k])) as (l1 & E1 & B1 & N1 & L1). cbn [snd] in *.
    fold LI. rewrite E1. destruct (feed I t v st1) as [[u| |f] st2]; cbn [fst snd].
    + destruct (IH m st2 ((log ++ [CKey m k]) ++ l1)) as (l2 & E2 & B2 & N2 & L2). fold LI. rewrite E2.
      exists (CKey m k :: l1 ++ l2). split; [repeat rewrite <- app_assoc; reflexivity|].
      split; [|split].
      * intros HQ. change (CKey m k :: l1 ++ l2) with ([CKey m k] ++ (l1 ++ l2)).
        apply closes_app; [apply bracketed_one; exact Logic.I|]. apply closes_app; auto.
      * change (CKey m k :: l1 ++ l2) with ([CKey m k] ++ (l1 ++ l2)). rewrite !mc_app. cbn. lia.
      * intros HL. inversion HL as [|? ? [HK HT] HL']; subst. constructor; [apply str_ok_spec, HK|]. apply Forall_app; auto.
    + eapply sim_log with (pre := CKey m k :: l1); [replace (log ++ CKey m k :: l1) with ((log ++ [CKey m k]) ++ l1) by (rewrite <- app_assoc; reflexivity); apply drop_sim| | |].
      * intros l2 H2. change (CKey m k :: l1) with ([CKey m k] ++ l1).
        apply closes_app; [apply bracketed_app; [apply bracketed_one; exact Logic.I|auto]|exact H2].
      * change (CKey m k :: l1) with ([CKey m k] ++ l1). rewrite mc_app. cbn. lia.
      * intros HL. inversion HL as [|? ? [HK HT] HL']; subst. constructor; [apply str_ok_spec, HK|auto].
    + destruct (panic_dec f) as [->|Hf].
      2: { rewrite !on_fault_other by exact Hf. exists (CKey m k :: l1). split; [rewrite <- app_assoc; reflexivity|]. split; [cbn [fst]; destruct f; (discriminate || now destruct Hf)|].
        split; [change (CKey m k :: l1) with ([CKey m k] ++ l1); rewrite mc_app; cbn; lia|].
        intros HL. inversion HL as [|? ? [HK HT] HL']; subst. constructor; [apply str_ok_spec, HK|auto]. }
      eapply sim_log with (pre := CKey m k :: l1); [replace (log ++ CKey m k :: l1) with ((log ++ [CKey m k]) ++ l1) by (rewrite <- app_assoc; reflexivity); apply unwind_sim| | |].
      * intros l2 H2. change (CKey m k :: l1) with ([CKey m k] ++ l1).
        apply closes_app; [apply bracketed_app; [apply bracketed_one; exact Logic.I|auto]|exact H2].
      * change (CKey m k :: l1) with ([CKey m k] ++ l1). rewrite mc_app. cbn. lia.
      * intros HL. inversion HL as [|? ? [HK HT] HL']; subst. constructor; [apply str_ok_spec, HK|auto].
  - eapply sim_log; [apply drop_sim| | |].
    * intros l2 H2. apply closes_app; [apply bracketed_one; exact Logic.I|exact H2].
    * cbn. lia.
    * intros HL. inversion HL as [|? ? [HK HT] HL']; subst. constructor; [apply str_ok_spec, HK|constructor].
  - eapply sim_log; [apply unwind_sim| | |].
    * intros l2 H2. apply closes_app; [apply bracketed_one; exact Logic.I|exact H2].
    * cbn. lia.
    * intros HL. inversion HL as [|? ? [HK HT] HL']; subst. constructor; [apply str_ok_spec, HK|constructor].
Qed.

Theorem feed_sim t : fsim t.
Proof.
  induction t as [|ev|l c IH|l c IH] using ptree_ind'; intros v st log; cbn [feed].
  - exists []. rewrite app_nil_r. split; [reflexivity|]. split; [constructor|]. split; [cbn; lia|constructor].
  - destruct ev; cbn [logged v_null v_bool v_str v_neg v_nonneg v_float]; unfold log_call; cbn [fst snd weight tree_legal ev_legal];
      try (match goal with |- sim _ _ (_, (_, _ ++ [?c])) _ _ _ => exists [c] end;
           split; [reflexivity|split; [intros _; apply bracketed_one; exact Logic.I|split; [cbn; lia|]]];
           intros HL; constructor; [|constructor]; cbn [args_ok]; try exact Logic.I; try apply str_ok_spec; exact HL).
    + exists []. rewrite app_nil_r. split; [reflexivity|]. split; [constructor|]. split; [cbn; lia|constructor].
    + exists []. rewrite app_nil_r. split; [reflexivity|]. split; [constructor|]. split; [cbn; lia|constructor].
  - cbn [logged v_seq]. unfold log_call. cbn [fst snd].
    change (weight (PSeq l c)) with (S (wl l c)). cbn [tree_legal].
    destruct (v_seq I v st) as [[q| |f] st1]; cbn [fst snd opened].
    + fold LI. destruct (items_sim l c IH q st1 (log ++ [CSeq v (Some q)])) as (l1 & E1 & B1 & N1 & L1).
      rewrite E1. exists (CSeq v (Some q) :: l1). split; [rewrite <- app_assoc; reflexivity|].
      split; [|split].
      * intros HQ. destruct (B1 HQ) as (l2 & H2 & ->). apply br_seq; [exact H2|constructor].
      * change (CSeq v (Some q) :: l1) with ([CSeq v (Some q)] ++ l1). rewrite mc_app. cbn. lia.
      * rewrite fold_and. intros HL. constructor; [exact Logic.I|auto].
    + exists [CSeq v None]. split; [reflexivity|]. split; [intros _; apply bracketed_one; exact Logic.I|].
      split; [cbn; lia|repeat constructor].
    + exists [CSeq v None]. split; [reflexivity|]. split; [intros _; apply bracketed_one; exact Logic.I|]. split; [cbn; lia|repeat constructor].
  - cbn [logged v_map]. unfold log_call. cbn [fst snd].
    change (weight (PMap l c)) with (S (wm l c)). cbn [tree_legal].
    destruct (v_map I v st) as [[q| |f] st1]; cbn [fst snd opened].
    + fold LI. destruct (members_sim l c IH q st1 (log ++ [CMap v (Some q)])) as (l1 & E1 & B1 & N1 & L1).
      rewrite E1. exists (CMap v (Some q) :: l1). split; [rewrite <- app_assoc; reflexivity|].
      split; [|split].
      * intros HQ. destruct (B1 HQ) as (l2 & H2 & ->). apply br_map; [exact H2|constructor].
      * change (CMap v (Some q) :: l1) with ([CMap v (Some q)] ++ l1). rewrite mc_app. cbn. lia.
      * rewrite (fold_and (fun kt => str_ok (fst kt) = true /\ tree_legal (snd kt))).
        intros HL. constructor; [exact Logic.I|auto].
    + exists [CMap v None]. split; [reflexivity|]. split; [intros _; apply bracketed_one; exact Logic.I|].
      split; [cbn; lia|repeat constructor].
    + exists [CMap v None]. split; [reflexivity|]. split; [intros _; apply bracketed_one; exact Logic.I|]. split; [cbn; lia|repeat constructor].
Qed.
End Logged.
