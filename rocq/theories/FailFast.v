(** The first failing or panicking call decides the result, and only drops follow it. *)
From Coq Require Import ZArith List Bool Lia.
From Verif Require Import Base Utf8 F64 Lexer Driver Grammar LexSpec Utf8Facts LexFacts RunFacts LexNumFacts Tree TreeFacts DriverFacts ParseSpec PanicSpec.
Import ListNotations.
Open Scope Z_scope.

Section FailFast.
Context {St V SH MH : Type}.
Variable I : iface St V SH MH.
Notation TI := (traced I).
Notation call := (call V SH MH).
Notation log := (list (call * outcome)).
Notation lay := (layer SH MH).
Variable oc : bool.
Variable inp : bytes.

Lemma run_app (a b : log) : forall s, run_status s (a ++ b) = match run_status s a with Some s' => run_status s' b | None => None end.
Proof. induction a as [|e a IH]; intros s; [reflexivity|]. cbn [app run_status]. destruct (step s e); [apply IH|reflexivity]. Qed.
Lemma status_snoc (a : log) s e : status_of a = Some s -> status_of (a ++ [e]) = step s e.
Proof. intros H. unfold status_of in *. rewrite run_app, H. cbn [run_status]. destruct (step s e); reflexivity. Qed.

Definition ended {A} (x : res A * (St * log)) : Prop :=
  exists s, status_of (snd (snd x)) = Some s /\ calls_for s (fst x).
Definition alive (s : option status) : Prop := s = Some Running \/ s = Some Failing.
Definition post {A} (P : A -> Prop) (x : res A * (St * log)) : Prop :=
  match fst x with Ok a => status_of (snd (snd x)) = Some Running /\ P a | _ => ended x end.

Definition dcall (l : lay) : call := match l with LSeq q => CSeqDrop q | LMap m => CMapDrop m end.
Lemma drop_traced l st lg : drop_layer TI l (st, lg) =
  (fst (drop_layer I l st), (snd (drop_layer I l st), lg ++ [(dcall l, outcome_of (fst (drop_layer I l st)))])).
Proof. destruct l; reflexivity. Qed.
Lemma dcall_drop l : is_drop (dcall l) = true.
Proof. destruct l; reflexivity. Qed.
Ltac dstep H l := rewrite (status_snoc _ _ _ H); unfold step; cbn [fst snd]; rewrite ?dcall_drop; cbn [outcome_of].

Lemma unwind_end {A} ls : forall st lg, status_of lg = Some Panicking -> ended (@unwind _ _ _ _ TI A ls (st, lg)).
Proof.
  induction ls as [|l ls IH]; intros st lg H; cbn [unwind].
  - exists Panicking. split; [exact H|reflexivity].
  - rewrite drop_traced. destruct (drop_layer I l st) as [[u| |f] st1]; cbn [fst snd].
    + apply IH. dstep H l. reflexivity.
    + apply IH. dstep H l. reflexivity.
    + destruct f; (eexists; split; [cbn [snd]; dstep H l; reflexivity|reflexivity]).
Qed.
Definition fault_status (f : fault) : status := match f with FPanic => Panicking | f => Dead f end.
Lemma on_fault_end {A} f ls st lg : status_of lg = Some (fault_status f) -> ended (@on_fault _ _ _ _ TI A f ls (st, lg)).
Proof. intros H. destruct f; cbn [on_fault]; try (eexists; split; [exact H|reflexivity]). apply unwind_end, H. Qed.
Lemma drop_fault lg l f : alive (status_of lg) -> status_of (lg ++ [(dcall l, OFault f)]) = Some (fault_status f).
Proof. intros [H|H]; dstep H l; destruct f; reflexivity. Qed.
Lemma drop_fine {A} lg l (r : res A) : is_fault r = false -> alive (status_of lg) -> alive (status_of (lg ++ [(dcall l, outcome_of r)])).
Proof. intros E [H|H]; dstep H l; destruct r; try discriminate; [left|left|right|right]; reflexivity. Qed.
Lemma fail_end {A} ls : forall st lg, alive (status_of lg) -> ended (@fail _ _ _ _ TI A ls (st, lg)).
Proof.
  induction ls as [|l ls IH]; intros st lg H; cbn [fail].
  - destruct H as [H|H]; (eexists; split; [exact H|reflexivity]).
  - rewrite drop_traced. destruct (drop_layer I l st) as [[u| |f] st1]; cbn [fst snd].
    + apply IH. exact (drop_fine lg l (Ok u) eq_refl H).
    + apply IH. exact (drop_fine lg l (@Err unit) eq_refl H).
    + apply on_fault_end, drop_fault, H.
Qed.
Lemma fail_in_end {A} l ls st lg : alive (status_of lg) -> ended (@fail_in _ _ _ _ TI A l ls (st, lg)).
Proof.
  intros H. unfold fail_in. rewrite drop_traced. destruct (drop_layer I l st) as [[u| |f] st1]; cbn [fst snd].
  - apply fail_end. exact (drop_fine lg l (Ok u) eq_refl H).
  - apply fail_end. exact (drop_fine lg l (@Err unit) eq_refl H).
  - apply on_fault_end, drop_fault, H.
Qed.
Lemma unwind_not_ok {A} ls : forall st (a : A), fst (@unwind _ _ _ _ TI A ls st) <> Ok a.
Proof.
  induction ls as [|l ls IH]; intros st a; cbn [unwind]; [discriminate|].
  destruct (drop_layer TI l st) as [[u| |[]] st1]; try apply IH; discriminate.
Qed.
Lemma on_fault_bad {A} f ls st (a : A) : fst (@on_fault _ _ _ _ TI A f ls st) <> Ok a.
Proof. destruct f; cbn [on_fault]; try discriminate. apply unwind_not_ok. Qed.
Lemma fail_bad {A} ls : forall st (a : A), fst (@fail _ _ _ _ TI A ls st) <> Ok a.
Proof.
  induction ls as [|l ls IH]; intros st a; cbn [fail]; [discriminate|].
  destruct (drop_layer TI l st) as [[u| |f] st1]; try apply IH. apply on_fault_bad.
Qed.
Lemma fail_in_bad {A} l ls st (a : A) : fst (@fail_in _ _ _ _ TI A l ls st) <> Ok a.
Proof. unfold fail_in. destruct (drop_layer TI l st) as [[u| |f] st1]; first [apply fail_bad|apply on_fault_bad]. Qed.
Lemma post_exit {A} (P : A -> Prop) x : (forall a, fst x <> Ok a) -> ended x -> post P x.
Proof. intros H D. unfold post. destruct (fst x) eqn:E; auto. destruct (H a eq_refl). Qed.
Lemma post_fail {A} (P : A -> Prop) ls st lg : alive (status_of lg) -> post P (fail TI ls (st, lg)).
Proof. intros H. apply post_exit; [apply fail_bad|apply fail_end, H]. Qed.
Lemma post_fail_in {A} (P : A -> Prop) l ls st lg : alive (status_of lg) -> post P (fail_in TI l ls (st, lg)).
Proof. intros H. apply post_exit; [apply fail_in_bad|apply fail_in_end, H]. Qed.
Lemma post_fault {A} (P : A -> Prop) f ls st lg : status_of lg = Some (fault_status f) -> post P (on_fault TI f ls (st, lg)).
Proof. intros H. apply post_exit; [apply on_fault_bad|apply on_fault_end, H]. Qed.

(** After a method call. *)
Definition after (s : option status) {A} (r : res A) : Prop :=
  match r with Ok _ => s = Some Running | Err => s = Some Failing | Fault f => s = Some (fault_status f) end.
Lemma method_after {A} (lg : log) c (r : res A) : is_drop c = false -> status_of lg = Some Running -> after (status_of (lg ++ [(c, outcome_of r)])) r.
Proof. intros E H. rewrite (status_snoc _ _ _ H). unfold step. cbn [fst snd]. rewrite E. destruct r as [a| |[]]; reflexivity. Qed.

(** ** The lexer never faults at a position reached *)
Definition At (n : nat) (d : lex) : Prop :=
  exists s b, d = lx inp s b /\ Sfx inp s /\ str_ok s = true /\ digit_runs i32_MAX s /\ (List.length s <= n)%nat.
Lemma at_ws n d : At n d -> exists o d1, parse_whitespace inp d = Ok (o, d1) /\ At n d1 /\
  (forall c, o = Some c -> In c [44; 58; 93; 125] -> exists m, n = S m /\ At m (bump d1)).
Proof.
  intros (s & b & -> & Hs & Hok & HR & HL). rewrite parse_whitespace_eq by exact Hs.
  pose proof (skip_ws_consumes s) as W. pose proof (consumes0_Sfx _ _ _ W Hs) as Hs1. pose proof (consumes0_ok _ _ W Hok) as Hok1.
  apply consumes0_len in W. pose proof (passes_runs _ _ _ (skip_ws_passes s) HR) as HR1.
  destruct (skip_ws s) as [|c r]; (do 2 eexists; split; [reflexivity|]); cbn [List.length] in *.
  - split; [exists [], b; cbn [List.length]; repeat (split; [assumption || reflexivity|]); lia|discriminate].
  - split; [exists (c :: r), b; cbn [List.length]; repeat (split; [assumption || reflexivity|]); lia|].
    intros c' [= <-] Hc. destruct n as [|m]; [lia|]. exists m. split; [reflexivity|]. rewrite bump_cons by exact Hs1.
    assert (C : inr 0 127 c = true /\ c <> 34) by (destruct Hc as [<-|[<-|[<-|[<-|[]]]]]; split; (reflexivity || lia)).
    exists r, b. split; [reflexivity|]. split; [eapply Sfx_tl, Hs1|]. rewrite str_ok_ascii in Hok1 by apply C. split; [exact Hok1|].
    split; [eapply runs_tl; [apply C|exact HR1]|lia].
Qed.
(** A key: whitespace, the opening quote, the string. *)
Lemma at_key n d : At n d -> exists o d1, parse_whitespace inp d = Ok (o, d1) /\
  (o = Some 34 -> match parse_str oc inp (bump d1) with Ok (k, d2) => At n d2 | Err => True | Fault _ => False end).
Proof.
  intros (s & b & -> & Hs & Hok & HR & HL). rewrite parse_whitespace_eq by exact Hs.
  pose proof (skip_ws_consumes s) as W. pose proof (consumes0_Sfx _ _ _ W Hs) as Hs1. pose proof (consumes0_ok _ _ W Hok) as Hok1.
  apply consumes0_len in W. pose proof (passes_runs _ _ _ (skip_ws_passes s) HR) as HR1.
  destruct (skip_ws s) as [|c r]; (do 2 eexists; split; [reflexivity|]); [discriminate|]. intros [= ->].
  rewrite bump_cons by exact Hs1. pose proof (Sfx_tl _ _ _ Hs1) as Hs2. rewrite str_ok_ascii in Hok1 by reflexivity.
  pose proof (parse_str_eq oc inp r b Hs2 Hok1) as PS. destruct (p_string r) as [[k s3]|] eqn:EP; [|rewrite PS; exact Logic.I].
  destruct PS as (b' & -> & _). pose proof (passes_runs _ _ _ (p_string_passes _ _ _ EP) HR1) as HR3. apply p_string_consumes in EP.
  pose proof (consumes_Sfx _ _ _ EP Hs2) as Hs3. pose proof (consumes_ok _ _ EP Hok1) as Hok3. apply consumes_len in EP. cbn [List.length] in W.
  exists s3, b'. split; [reflexivity|]. repeat (split; [assumption|]). lia.
Qed.
Lemma at_event n d : At n d ->
  match event_next oc inp d with Ok (ev, d1) => exists m, n = S m /\ At m d1 | Err => True | Fault _ => False end.
Proof.
  intros (s & b & -> & Hs & Hok & HR & HL). pose proof (event_next_eq oc inp s b Hs Hok HR) as EN.
  destruct (tok s) as [[ev r]| |f] eqn:ET; [|rewrite EN; exact Logic.I|destruct EN]. destruct EN as (b' & -> & _).
  pose proof (passes_runs _ _ _ (tok_passes _ _ _ ET) HR) as HRr. apply tok_consumes in ET.
  pose proof (consumes_Sfx _ _ _ ET Hs) as Hr. pose proof (consumes_ok _ _ ET Hok) as Hokr. apply consumes_len in ET.
  destruct n as [|m]; [lia|]. exists m. split; [reflexivity|]. exists r, b'. split; [reflexivity|]. repeat (split; [assumption|]). lia.
Qed.
Lemma at_le n m d : (n <= m)%nat -> At n d -> At m d.
Proof. intros H (s & b & A & B & C & D & E). exists s, b. repeat (split; [assumption|]). lia. Qed.

(** ** The loops *)
Lemma close_traced c l st lg : status_of lg = Some Running -> exists lg',
  close_layer TI c l (st, lg) = (fst (close_layer I c l st), (snd (close_layer I c l st), lg')) /\
  (after (status_of lg') (fst (close_layer I c l st)) \/ (status_of lg' = Some Running /\ fst (close_layer I c l st) = Err)).
Proof.
  intros H. destruct l as [q|m]; cbn [close_layer].
  - destruct (c =? 93); [|exists lg; split; [reflexivity|right; auto]]. eexists. split; [reflexivity|left]. apply method_after; auto.
  - destruct (c =? 125); [|exists lg; split; [reflexivity|right; auto]]. eexists. split; [reflexivity|left]. apply method_after; auto.
Qed.
Lemma ended_err {A B} sl : ended (@Err A, sl) -> ended (@Err B, sl).
Proof. intros (s & H & C). exists s. split; [exact H|]. destruct s; cbn [calls_for fst] in *; (reflexivity || discriminate). Qed.
Lemma ended_fault {A B} f sl : ended (@Fault A f, sl) -> ended (@Fault B f, sl).
Proof. intros (s & H & C). exists s. split; [exact H|]. destruct s; cbn [calls_for fst is_fault] in *; congruence. Qed.
Definition PI (n : nat) (o : @inner_out V SH MH) : Prop := match o with IBreak d _ _ _ => At n d | IOuter d => At n d end.
Lemma inner_end fuel : forall n d ac v l stack st lg, (n < fuel)%nat -> At n d -> status_of lg = Some Running ->
  post (PI n) (inner TI inp fuel d ac v l stack (st, lg)).
Proof.
  induction fuel as [|fuel IH]; intros n d ac v l stack st lg HF HA H; [lia|]. cbn [inner].
  destruct (at_ws n d HA) as (o & d1 & -> & A1 & AB).
  destruct (((match o with Some c => c | None => 0 end) =? 44) && ac) eqn:E1.
  { apply andb_true_iff in E1. destruct E1 as [E1 _]. apply Z.eqb_eq in E1. destruct o as [c|]; [|discriminate]. subst c.
    destruct (AB 44 eq_refl ltac:(cbn; tauto)) as (m & -> & Am). split; [exact H|]. cbn [PI fst]. eapply at_le; [|exact Am]. lia. }
  destruct (_ || _) eqn:E2.
  { destruct o as [c|]; [|discriminate]. rewrite orb_true_iff, !Z.eqb_eq in E2. destruct (AB c eq_refl ltac:(cbn; intuition)) as (m & -> & Am).
    destruct (close_traced c l st lg H) as (lg' & -> & HC). destruct (close_layer I c l st) as [[u| |f] st1]; cbn [fst snd after] in *.
    - assert (status_of lg' = Some Running) as H' by (destruct HC as [HC|[_ HC]]; [exact HC|discriminate]).
      rewrite drop_traced. destruct (drop_layer I l st1) as [[w| |f] st2]; cbn [fst snd].
      3: apply post_fault, drop_fault; left; exact H'.
      1, 2: assert (status_of (lg' ++ [(dcall l, OOk)]) = Some Running /\ status_of (lg' ++ [(dcall l, OErr)]) = Some Running) as [K1 K2]
        by (split; dstep H' l; reflexivity); cbn [outcome_of].
      + destruct stack as [|[v' l'] stack']; [split; [exact K1|cbn [PI]; eapply at_le; [|exact Am]; lia]|].
        specialize (IH m (bump d1) true v' l' stack' st2 _ ltac:(lia) Am K1). unfold post in *. destruct (inner _ _ _ _ _ _ _ _ _) as [[o'| |f] sl]; cbn [fst snd] in *; try exact IH.
        split; [apply IH|]. destruct IH as [_ IH]. destruct o'; (eapply at_le; [|exact IH]; lia).
      + destruct stack as [|[v' l'] stack']; [split; [exact K2|cbn [PI]; eapply at_le; [|exact Am]; lia]|].
        specialize (IH m (bump d1) true v' l' stack' st2 _ ltac:(lia) Am K2). unfold post in *. destruct (inner _ _ _ _ _ _ _ _ _) as [[o'| |f] sl]; cbn [fst snd] in *; try exact IH.
        split; [apply IH|]. destruct IH as [_ IH]. destruct o'; (eapply at_le; [|exact IH]; lia).
    - apply post_fail_in. destruct HC as [HC|[HC _]]; [right|left]; exact HC.
    - apply post_fault. destruct HC as [HC|[_ HC]]; [exact HC|discriminate]. }
  destruct ac; [apply post_fail_in; left; exact H|]. split; [exact H|exact A1].
Qed.
Definition PO (n : nat) (o : lex * V * list (V * lay)) : Prop := At n (fst (fst o)).
Lemma open_end n d v l stack st lg : At n d -> status_of lg = Some Running -> post (PO n) (open_item TI oc inp d v l stack (st, lg)).
Proof.
  intros HA H. destruct l as [q|m]; cbn [open_item].
  - cbn [traced s_element]. unfold trace_call at 1. cbn [fst snd]. fold TI.
    pose proof (method_after lg (CElement q) (fst (s_element I q st)) eq_refl H) as K.
    destruct (s_element I q st) as [[w| |f] st1]; cbn [fst snd after] in *; [split; [exact K|exact HA]|apply post_fail_in; right; exact K|apply post_fault, K].
  - destruct (at_key n d HA) as (o & d1 & -> & HK). destruct o as [c|]; [|apply post_fail_in; left; exact H].
    destruct (Z.eqb_spec c 34) as [->|]; [|apply post_fail_in; left; exact H]. specialize (HK eq_refl).
    destruct (parse_str oc inp (bump d1)) as [[k d2]| |f]; [|apply post_fail_in; left; exact H|destruct HK].
    cbn [traced m_key]. unfold trace_call at 1. cbn [fst snd]. fold TI.
    pose proof (method_after lg (CKey m k) (fst (m_key I m k st)) eq_refl H) as K.
    destruct (m_key I m k st) as [[w| |f] st1]; cbn [fst snd after] in *; [|apply post_fail_in; right; exact K|apply post_fault, K].
    destruct (at_ws n d2 HK) as (o2 & d3 & -> & A3 & AB). destruct o2 as [c|]; [|apply post_fail_in; left; exact K].
    destruct (Z.eqb_spec c 58) as [->|]; [|apply post_fail_in; left; exact K].
    destruct (AB 58 eq_refl ltac:(cbn; tauto)) as (m' & -> & Am). split; [exact K|]. cbn [PO fst]. eapply at_le; [|exact Am]. lia.
Qed.
Definition PT (n : nat) (o : @turn_out V SH MH) : Prop := match o with TNext d _ _ => At n d | TEnd d => At n d end.
Lemma after_end n d ac v l stack st lg : (n <= len inp)%nat -> At n d -> status_of lg = Some Running -> post (PT n) (after_value TI oc inp d ac v l stack (st, lg)).
Proof.
  intros HN HA H. unfold after_value. pose proof (inner_end (S (len inp)) n d ac v l stack st lg ltac:(lia) HA H) as K.
  unfold post in K. destruct (inner _ _ _ _ _ _ _ _ _) as [[[d1 v1 l1 stack1|d1]| |f] [st1 lg1]]; cbn [fst snd PI] in K; [|exact K|eapply ended_err, K|eapply ended_fault, K].
  destruct K as [K1 K2]. pose proof (open_end n d1 v1 l1 stack1 st1 lg1 K2 K1) as K.
  unfold post in K. destruct (open_item _ _ _ _ _ _ _ _) as [[[[d2 v2] stack2]| |f] [st2 lg2]]; cbn [fst snd] in K; [exact K|eapply ended_err, K|eapply ended_fault, K].
Qed.
Lemma dispatch_traced v ev st lg : status_of lg = Some Running -> exists lg',
  dispatch TI v ev (st, lg) = (fst (dispatch I v ev st), (snd (dispatch I v ev st), lg')) /\ after (status_of lg') (fst (dispatch I v ev st)).
Proof.
  intros H. destruct ev; cbn [dispatch traced v_null v_bool v_str v_neg v_nonneg v_float v_seq v_map]; unfold trace_call; cbn [fst snd];
    (eexists; split; [reflexivity|]).
  all: match goal with |- after (status_of (_ ++ [(?c, _)])) (bind (fst ?x) _) => pose proof (method_after lg c (fst x) eq_refl H) as K; destruct (fst x) end; exact K.
Qed.
Lemma turn_end n d v stack st lg : (n <= len inp)%nat -> At n d -> status_of lg = Some Running ->
  post (fun o => exists m, n = S m /\ PT m o) (turn TI oc inp d v stack (st, lg)).
Proof.
  intros HN HA H. unfold turn. pose proof (at_event n d HA) as HE. destruct (event_next oc inp d) as [[ev d1]| |f]; [|apply post_fail; left; exact H|destruct HE].
  destruct HE as (m & -> & Am). destruct (dispatch_traced v ev st lg H) as (lg' & -> & K). destruct (dispatch I v ev st) as [[[l|]| |f] st1]; cbn [fst snd after] in *.
  - pose proof (after_end m d1 false v l stack st1 lg' ltac:(lia) Am K) as P. unfold post in *. destruct (fst _); [|exact P..]. destruct P; eauto.
  - destruct stack as [|[v' l'] stack']; [split; [exact K|exists m; auto]|].
    pose proof (after_end m d1 true v' l' stack' st1 lg' ltac:(lia) Am K) as P. unfold post in *. destruct (fst _); [|exact P..]. destruct P; eauto.
  - apply post_fail. right. exact K.
  - apply post_fault, K.
Qed.
Lemma loop_end fuel : forall n d v stack st lg, (n < fuel)%nat -> (n <= len inp)%nat -> At n d -> status_of lg = Some Running ->
  ended (outer_loop TI oc inp fuel d v stack (st, lg)).
Proof.
  induction fuel as [|fuel IH]; intros n d v stack st lg HF HN HA H; [lia|]. cbn [outer_loop].
  pose proof (turn_end n d v stack st lg HN HA H) as K. unfold post in K. destruct (turn _ _ _ _ _ _ _) as [[[d1 v1 stack1|d1]| |f] [st1 lg1]]; cbn [fst snd PT] in K; [| |eapply ended_err, K|eapply ended_fault, K].
  - destruct K as (K & m & -> & Am). apply (IH m); auto; lia.
  - destruct K as (K & m & -> & Am). exists Running. split; [exact K|]. cbn [calls_for fst]. destruct Am as (s & b & -> & Hs & _).
    rewrite end_of_doc_eq by exact Hs. destruct (skip_ws s); reflexivity.
Qed.
Theorem fails_fast v st : str_ok inp = true -> digit_runs i32_MAX inp -> ended (from_str_impl TI oc inp v (st, [])).
Proof.
  intros Hok HR. unfold from_str_impl. apply (loop_end (S (len inp)) (len inp)); [lia|lia| |reflexivity].
  exists inp, []. split; [unfold lx, posof; rewrite Nat.sub_diag; reflexivity|]. split; [exists []; reflexivity|]. split; [exact Hok|]. split; [exact HR|unfold len; lia].
Qed.
End FailFast.
