(** Borrow rules: proofs. *)
From Coq Require Import ZArith List Bool Lia Sorted.
From Verif Require Import Base Utf8 F64 Lexer Driver Ser ParseSpec PanicSpec BorrowSpec.
Import ListNotations.
Open Scope nat_scope.

Lemma borrows_app a b : forall s, borrows s (a ++ b) = match borrows s a with Some s' => borrows s' b | None => None end.
Proof. induction a as [|e a IH]; intros s; [reflexivity|]. cbn [app borrows]. destruct (borrow_step s e); [apply IH|reflexivity]. Qed.

(** The open builders, innermost first, and the loans that go with them. *)
Inductive Sh : list nat -> list loan -> Prop :=
| Sh0 : Sh [] [Place 0]
| ShB b p ls X : Sh ls (Place p :: X) -> Sh (b :: ls) (Builder b :: Place p :: X)
| ShP b p ls X : Sh (b :: ls) (Builder b :: X) -> Sh (b :: ls) (Place p :: Builder b :: X).
Lemma sh_top b ls X : Sh (b :: ls) X -> exists p Y, expire X = Builder b :: Place p :: Y /\ Sh ls (Place p :: Y) /\ Sh (b :: ls) (Builder b :: Place p :: Y).
Proof.
  intros H. inversion H as [|b' p ls' X' H1|b' p ls' X' H1]; subst; cbn [expire].
  - exists p, X'. auto.
  - inversion H1 as [|b' p' ls' X'' H2|]; subst. exists p', X''. auto.
Qed.

(** The log so far keeps the rules; these builders are open; handles are numbered consecutively. *)
Definition fresh {St} (s : bst St) : Prop := exists m, snd (fst s) = S m /\ flat_map handed (snd s) = seq 1 m.
Definition log_ok {St} (s : bst St) (ls : list nat) (X : list loan) : Prop := borrows [Place 0] (snd s) = Some X /\ Sh ls X /\ fresh s.
Definition stopped {St} (s : bst St) : Prop := (exists X, borrows [Place 0] (snd s) = Some X) /\ fresh s.
Lemma ok_stopped {St} (s : bst St) ls X : log_ok s ls X -> stopped s.
Proof. intros [H [_ F]]. split; [exists X; exact H|exact F]. Qed.
Lemma fresh_same {St} (st st1 : St) (n : nat) (l : list bev) e : fresh (st, n, l) -> handed e = [] -> fresh (st1, n, l ++ [e]).
Proof. intros (m & E & F) H. exists m. split; [exact E|]. cbn [snd] in *. rewrite flat_map_app, F. cbn [flat_map]. rewrite H. apply app_nil_r. Qed.
Lemma fresh_next {St} (st st1 : St) (n : nat) (l : list bev) e : fresh (st, n, l) -> handed e = [n] -> fresh (st1, S n, l ++ [e]).
Proof.
  intros (m & E & F) H. cbn [fst snd] in *. subst n. exists (S m). split; [reflexivity|]. cbn [snd]. rewrite flat_map_app, F. cbn [flat_map]. rewrite H.
  rewrite seq_S. reflexivity.
Qed.
Lemma snoc {St} (st st1 : St) (n n1 : nat) (l : list bev) X e : borrows [Place 0] (snd (st, n, l)) = Some X -> borrows [Place 0] (snd (st1, n1, l ++ [e])) = borrow_step X e.
Proof. cbn [snd]. intros H. rewrite borrows_app, H. cbn [borrows]. destruct (borrow_step X e); reflexivity. Qed.
Lemma ok_use {St} (st st1 : St) (n : nat) (l : list bev) ls p X : log_ok (st, n, l) ls (Place p :: X) -> log_ok (st1, n, l ++ [BUse p]) ls (Place p :: X).
Proof.
  intros (H & S & F). split; [|split; [exact S|apply (fresh_same st); auto]].
  rewrite (snoc _ st1 _ n _ _ _ H). cbn [borrow_step]. rewrite Nat.eqb_refl. reflexivity.
Qed.
Lemma ok_open {St} (st st1 : St) (n : nat) (l : list bev) ls p X : log_ok (st, n, l) ls (Place p :: X) ->
  log_ok (st1, S n, l ++ [BOpen p n]) (n :: ls) (Builder n :: Place p :: X).
Proof.
  intros (H & S & F). split; [|split; [constructor; exact S|apply (fresh_next st); auto]].
  rewrite (snoc _ st1 _ (Datatypes.S n) _ _ _ H). cbn [borrow_step]. rewrite Nat.eqb_refl. reflexivity.
Qed.
Lemma ok_ask {St} (st st1 : St) (n : nat) (l : list bev) ls X b (o : bool) : log_ok (st, n, l) (b :: ls) X ->
  exists Y, log_ok (st1, if o then S n else n, l ++ [BAsk b (if o then Some n else None)]) (b :: ls) (if o then Place n :: Y else Y).
Proof.
  intros (H & S & F). apply sh_top in S as (p & Y & E & S1 & S2). exists (Builder b :: Place p :: Y). split; [|split].
  - rewrite (snoc _ st1 _ (if o then Datatypes.S n else n) _ _ _ H). cbn [borrow_step]. rewrite E, Nat.eqb_refl. destruct o; reflexivity.
  - destruct o; [constructor|]; exact S2.
  - destruct o; [apply (fresh_next st)|apply (fresh_same st)]; auto.
Qed.
Lemma ok_drop {St} (st st1 : St) (n : nat) (l : list bev) ls X b : log_ok (st, n, l) (b :: ls) X ->
  exists p Y, log_ok (st1, n, l ++ [BDrop b]) ls (Place p :: Y).
Proof.
  intros (H & S & F). apply sh_top in S as (p & Y & E & S1 & S2). exists p, Y. split; [|split; [exact S1|apply (fresh_same st); auto]].
  rewrite (snoc _ st1 _ n _ _ _ H). cbn [borrow_step]. rewrite E, Nat.eqb_refl. reflexivity.
Qed.

Definition st_of {St} (s : bst St) : St := fst (fst s).
Definition erase {A B} (e : A -> B) (r : res A) : res B := match r with Ok a => Ok (e a) | Err => Err | Fault f => Fault f end.

(** ** Deserialization *)
Section De.
Context {St V SH MH : Type}.
Variable I : iface St V SH MH.
Hypothesis HQ : drops_do_not_panic I.
Notation NI := (borrowing_de I).
Notation lay := (layer (nat * SH) (nat * MH)).
Definition lid (l : lay) : nat := match l with LSeq q => fst q | LMap m => fst m end.
Definition bare (l : lay) : layer SH MH := match l with LSeq q => LSeq (snd q) | LMap m => LMap (snd m) end.
Definition ids (ls : list lay) : list nat := map lid ls.

(** A run over numbered handles does what the plain one does, and keeps the rules. *)
Definition sim {A B} (e : A -> B) (P : A -> bst St -> Prop) (x : res A * bst St) (y : res B * St) : Prop :=
  y = (erase e (fst x), st_of (snd x)) /\
  match fst x with
  | Ok a => P a (snd x)
  | Err | Fault FPanic => log_ok (snd x) [] [Place 0]
  | Fault _ => stopped (snd x)
  end.

Lemma drop_num (l : lay) st n lg : drop_layer NI l (st, n, lg) =
  (fst (drop_layer I (bare l) st), (snd (drop_layer I (bare l) st), n, lg ++ [BDrop (lid l)])).
Proof.
  destruct l as [q|m]; cbn [drop_layer borrowing_de s_drop m_drop bare lid]; unfold record.
  - destruct (s_drop I (snd q) st); reflexivity.
  - destruct (m_drop I (snd m) st); reflexivity.
Qed.
Lemma drop_quiet (l : layer SH MH) st : fst (drop_layer I l st) <> Fault FPanic.
Proof. destruct l as [q|m]; [apply (proj1 HQ)|apply (proj2 HQ)]. Qed.

Lemma sh_nil X : Sh [] X -> X = [Place 0].
Proof. intros H. inversion H. reflexivity. Qed.
Lemma unwind_sim {A B} (e : A -> B) P ls : forall s X, log_ok s (ids ls) X ->
  sim e P (unwind NI ls s) (unwind I (map bare ls) (st_of s)).
Proof.
  induction ls as [|l ls IH]; intros [[st n] lg] X H; cbn [unwind map ids] in *.
  - split; [reflexivity|]. cbn [fst snd]. destruct H as (H1 & H2 & H3). pose proof (sh_nil _ H2) as ->. repeat split; assumption.
  - rewrite drop_num. cbn [st_of fst]. pose proof (drop_quiet (bare l) st) as Q. destruct (drop_layer I (bare l) st) as [r st1]. cbn [fst snd] in *.
    destruct (ok_drop st st1 n lg _ _ _ H) as (p & Y & K).
    destruct r as [u| |f]; [apply (IH _ _ K)|apply (IH _ _ K)|].
    destruct f; try congruence; (split; [reflexivity|]; cbn [fst snd]; exact (ok_stopped _ _ _ K)).
Qed.
Lemma fault_sim {A B} (e : A -> B) P f ls s X : log_ok s (ids ls) X -> sim e P (on_fault NI f ls s) (on_fault I f (map bare ls) (st_of s)).
Proof.
  intros H. destruct f; try (split; [reflexivity|]; cbn [fst snd on_fault]; exact (ok_stopped _ _ _ H)). cbn [on_fault]. eapply unwind_sim, H.
Qed.
Lemma fail_sim {A B} (e : A -> B) P ls : forall s X, log_ok s (ids ls) X ->
  sim e P (fail NI ls s) (fail I (map bare ls) (st_of s)).
Proof.
  induction ls as [|l ls IH]; intros [[st n] lg] X H; cbn [fail map ids] in *.
  - split; [reflexivity|]. cbn [fst snd]. destruct H as (H1 & H2 & H3). pose proof (sh_nil _ H2) as ->. repeat split; assumption.
  - rewrite drop_num. cbn [st_of fst]. pose proof (drop_quiet (bare l) st) as Q. destruct (drop_layer I (bare l) st) as [r st1]. cbn [fst snd] in *.
    destruct (ok_drop st st1 n lg _ _ _ H) as (p & Y & K).
    destruct r as [u| |f]; [apply (IH _ _ K)|apply (IH _ _ K)|].
    destruct f; try congruence; (split; [reflexivity|]; cbn [fst snd on_fault]; exact (ok_stopped _ _ _ K)).
Qed.
Lemma fail_in_sim {A B} (e : A -> B) P l ls s X : log_ok s (lid l :: ids ls) X ->
  sim e P (fail_in NI l ls s) (fail_in I (bare l) (map bare ls) (st_of s)).
Proof.
  destruct s as [[st n] lg]. intros H. unfold fail_in. rewrite drop_num. cbn [st_of fst]. pose proof (drop_quiet (bare l) st) as Q.
  destruct (drop_layer I (bare l) st) as [r st1]. cbn [fst snd] in *. destruct (ok_drop st st1 n lg _ _ _ H) as (p & Y & K).
  destruct r as [u| |f]; [eapply fail_sim, K|eapply fail_sim, K|].
  destruct f; try congruence; (split; [reflexivity|]; cbn [fst snd on_fault]; exact (ok_stopped _ _ _ K)).
Qed.

Variable oc : bool.
Variable inp : bytes.
Definition bframe (f : (nat * V) * lay) : V * layer SH MH := (snd (fst f), bare (snd f)).
Lemma snd_bframe stack : map snd (map bframe stack) = map bare (map snd stack).
Proof. rewrite !map_map. reflexivity. Qed.

(** dispatch: the top of the loans is the visitor. *)
Lemma dispatch_sim v ev st n lg ls X : log_ok (st, n, lg) ls (Place (fst v) :: X) ->
  exists r s1, dispatch NI v ev (st, n, lg) = (r, s1) /\
    dispatch I (snd v) ev st = (erase (option_map bare) r, st_of s1) /\
    match r with Ok (Some l) => exists Y, log_ok s1 (lid l :: ls) Y | _ => exists Y, log_ok s1 ls Y end.
Proof.
  intros H.
  assert (KU : forall st1, exists Y, log_ok (st1, n, lg ++ [BUse (fst v)]) ls Y) by (intros; eexists; eapply (ok_use st), H).
  assert (KO : forall st1, exists Y, log_ok (st1, S n, lg ++ [BOpen (fst v) n]) (n :: ls) Y) by (intros; eexists; eapply (ok_open st), H).
  destruct ev as [|b|t|z|z|f| |]; cbn [dispatch borrowing_de v_null v_bool v_neg v_nonneg v_float v_str v_seq v_map]; unfold record, hand_out, opens;
    [destruct (v_null I (snd v) st) as [r st1]|destruct (v_bool I (snd v) b st) as [r st1]|destruct (v_str I (snd v) t st) as [r st1]|destruct (v_neg I (snd v) z st) as [r st1]
    |destruct (v_nonneg I (snd v) z st) as [r st1]|destruct (v_float I (snd v) f st) as [r st1]
    |destruct (v_seq I (snd v) st) as [r st1]|destruct (v_map I (snd v) st) as [r st1]];
    destruct r as [u| |e]; cbn [fst snd bind erase option_map];
    (do 2 eexists; split; [reflexivity|split; [reflexivity|]]); first [apply KU|apply KO].
Qed.

Definition Pinner (x : @inner_out (nat * V) (nat * SH) (nat * MH)) (s : bst St) : Prop :=
  match x with IBreak _ v l stack => exists X, log_ok s (lid l :: ids (map snd stack)) X | IOuter _ => log_ok s [] [Place 0] end.
Definition einner (x : @inner_out (nat * V) (nat * SH) (nat * MH)) : @inner_out V SH MH :=
  match x with IBreak d v l stack => IBreak d (snd v) (bare l) (map bframe stack) | IOuter d => IOuter d end.

Lemma close_num c l st n lg ls X : log_ok (st, n, lg) (lid l :: ls) X ->
  exists s1, close_layer NI c l (st, n, lg) = (fst (close_layer I c (bare l) st), s1) /\ st_of s1 = snd (close_layer I c (bare l) st) /\
    exists Y, log_ok s1 (lid l :: ls) Y.
Proof.
  intros H. destruct l as [q|m]; cbn [close_layer bare lid] in *.
  - destruct (c =? 93)%Z; [|eexists; split; [reflexivity|split; [reflexivity|exists X; exact H]]].
    cbn [borrowing_de s_finish]. unfold record. destruct (s_finish I (snd q) st) as [r st1]. eexists. split; [reflexivity|]. split; [reflexivity|].
    destruct (ok_ask st st1 n lg ls X (fst q) false H) as (Y & K). exists Y. exact K.
  - destruct (c =? 125)%Z; [|eexists; split; [reflexivity|split; [reflexivity|exists X; exact H]]].
    cbn [borrowing_de m_finish]. unfold record. destruct (m_finish I (snd m) st) as [r st1]. eexists. split; [reflexivity|]. split; [reflexivity|].
    destruct (ok_ask st st1 n lg ls X (fst m) false H) as (Y & K). exists Y. exact K.
Qed.

Lemma inner_sim fuel : forall d ac v l stack s X, log_ok s (lid l :: ids (map snd stack)) X ->
  sim einner Pinner (inner NI inp fuel d ac v l stack s) (inner I inp fuel d ac (snd v) (bare l) (map bframe stack) (st_of s)).
Proof.
  induction fuel as [|fuel IH]; intros d ac v l stack [[st n] lg] X H; cbn [inner].
  - split; [reflexivity|]. cbn [fst snd]. exact (ok_stopped _ _ _ H).
  - rewrite snd_bframe. destruct (parse_whitespace inp d) as [[o d1]| |f].
    + set (c := match o with Some c => c | None => 0%Z end).
      destruct ((c =? 44)%Z && ac); [split; [reflexivity|exists X; exact H]|].
      destruct ((c =? 93)%Z || (c =? 125)%Z).
      * destruct (close_num c l st n lg _ _ H) as ([[st1 n1] lg1] & E & E2 & Y & K). rewrite E. cbn [st_of fst].
        cbn [st_of fst] in E2.
        destruct (close_layer I c (bare l) st) as [r st1']. cbn [fst snd] in *. subst st1'. destruct r as [u| |f].
        -- rewrite drop_num. pose proof (drop_quiet (bare l) st1) as Q. destruct (drop_layer I (bare l) st1) as [r2 st2]. cbn [fst snd] in *.
           destruct (ok_drop st1 st2 n1 lg1 _ _ _ K) as (p & Z & K2).
           assert (G : sim einner Pinner
             (match stack with [] => (Ok (IOuter (bump d1)), (st2, n1, lg1 ++ [BDrop (lid l)])) | (v', l') :: stack' => inner NI inp fuel (bump d1) true v' l' stack' (st2, n1, lg1 ++ [BDrop (lid l)]) end)
             (match map bframe stack with [] => (Ok (IOuter (bump d1)), st2) | (v', l') :: stack' => inner I inp fuel (bump d1) true v' l' stack' st2 end)).
           { destruct stack as [|[v' l'] stack']; cbn [map].
             - split; [reflexivity|]. cbn [fst snd Pinner]. destruct K2 as (K2 & K3 & K4). pose proof (sh_nil _ K3) as E3. rewrite E3 in K2, K3. repeat split; assumption.
             - cbn [bframe fst snd]. apply (IH _ _ _ _ _ _ _ K2). }
           destruct r2 as [u2| |f]; [exact G|exact G|]. eapply fault_sim, K2.
        -- eapply (fail_in_sim einner Pinner), K.
        -- eapply (fault_sim einner Pinner f (l :: map snd stack) (st1, n1, lg1)), K.
      * destruct ac; [eapply (fail_in_sim einner Pinner _ _ (st, n, lg)), H|]. split; [reflexivity|exists X; exact H].
    + eapply (fail_in_sim einner Pinner _ _ (st, n, lg)), H.
    + eapply (fault_sim einner Pinner f (l :: map snd stack) (st, n, lg)), H.
Qed.

Definition Pitem (x : lex * (nat * V) * list ((nat * V) * lay)) (s : bst St) : Prop :=
  exists X, log_ok s (ids (map snd (snd x))) (Place (fst (snd (fst x))) :: X).
Definition eitem (x : lex * (nat * V) * list ((nat * V) * lay)) : lex * V * list (V * layer SH MH) :=
  (fst (fst x), snd (snd (fst x)), map bframe (snd x)).
Lemma item_sim d v l stack s X : log_ok s (lid l :: ids (map snd stack)) X ->
  sim eitem Pitem (open_item NI oc inp d v l stack s) (open_item I oc inp d (snd v) (bare l) (map bframe stack) (st_of s)).
Proof.
  destruct s as [[st n] lg]. intros H. unfold open_item. rewrite snd_bframe. destruct l as [q|m]; cbn [bare lid] in *; cbn [st_of fst].
  - cbn [borrowing_de s_element]. unfold hand_out. destruct (s_element I (snd q) st) as [[v1| |f] st1].
    + destruct (ok_ask st st1 n lg _ X (fst q) true H) as (Y & K). split; [reflexivity|]. exists Y. exact K.
    + destruct (ok_ask st st1 n lg _ X (fst q) false H) as (Y & K). eapply (fail_in_sim eitem Pitem (LSeq q)), K.
    + destruct (ok_ask st st1 n lg _ X (fst q) false H) as (Y & K). eapply (fault_sim eitem Pitem f (LSeq q :: map snd stack) (st1, n, _)), K.
  - assert (KF : forall st1 n1 lg1 Y, log_ok (st1, n1, lg1) (fst m :: ids (map snd stack)) Y ->
      sim eitem Pitem (fail_in NI (LMap m) (map snd stack) (st1, n1, lg1)) (fail_in I (LMap (snd m)) (map bare (map snd stack)) st1))
      by (intros st1 n1 lg1 Y K; exact (fail_in_sim eitem Pitem (LMap m) (map snd stack) (st1, n1, lg1) Y K)).
    assert (KP : forall f st1 n1 lg1 Y, log_ok (st1, n1, lg1) (fst m :: ids (map snd stack)) Y ->
      sim eitem Pitem (on_fault NI f (LMap m :: map snd stack) (st1, n1, lg1)) (on_fault I f (LMap (snd m) :: map bare (map snd stack)) st1))
      by (intros f st1 n1 lg1 Y K; exact (fault_sim eitem Pitem f (LMap m :: map snd stack) (st1, n1, lg1) Y K)).
    destruct (parse_whitespace inp d) as [[o d1]| |f]; [|exact (KF _ _ _ _ H)|exact (KP _ _ _ _ _ H)].
    destruct (match o with Some c => (c =? 34)%Z | None => false end); [|exact (KF _ _ _ _ H)].
    destruct (parse_str oc inp (bump d1)) as [[key d2]| |f]; [|exact (KF _ _ _ _ H)|exact (KP _ _ _ _ _ H)].
    cbn [borrowing_de m_key]. unfold hand_out. destruct (m_key I (snd m) key st) as [[v1| |f] st1].
    + destruct (ok_ask st st1 n lg _ X (fst m) true H) as (Y & K).
      destruct (parse_whitespace inp d2) as [[o2 d3]| |f]; [|exact (KF _ _ _ _ K)|exact (KP _ _ _ _ _ K)].
      destruct (match o2 with Some c => (c =? 58)%Z | None => false end); [|exact (KF _ _ _ _ K)].
      split; [reflexivity|]. exists Y. exact K.
    + destruct (ok_ask st st1 n lg _ X (fst m) false H) as (Y & K). exact (KF _ _ _ _ K).
    + destruct (ok_ask st st1 n lg _ X (fst m) false H) as (Y & K). exact (KP _ _ _ _ _ K).
Qed.

Definition Pturn (x : @turn_out (nat * V) (nat * SH) (nat * MH)) (s : bst St) : Prop :=
  match x with TNext _ v stack => exists X, log_ok s (ids (map snd stack)) (Place (fst v) :: X) | TEnd _ => log_ok s [] [Place 0] end.
Definition eturn (x : @turn_out (nat * V) (nat * SH) (nat * MH)) : @turn_out V SH MH :=
  match x with TNext d v stack => TNext d (snd v) (map bframe stack) | TEnd d => TEnd d end.
Lemma after_sim d ac v l stack s X : log_ok s (lid l :: ids (map snd stack)) X ->
  sim eturn Pturn (after_value NI oc inp d ac v l stack s) (after_value I oc inp d ac (snd v) (bare l) (map bframe stack) (st_of s)).
Proof.
  intros H. unfold after_value. destruct (inner_sim (S (len inp)) d ac v l stack s X H) as [E P].
  destruct (inner NI inp (S (len inp)) d ac v l stack s) as [[[d1 v1 l1 stack1|d1]| |f] s1]; cbn [fst snd erase einner Pinner] in E, P; rewrite E.
  - destruct P as [Y P]. destruct (item_sim d1 v1 l1 stack1 s1 Y P) as [E2 P2].
    destruct (open_item NI oc inp d1 v1 l1 stack1 s1) as [[[[d2 v2] stack2]| |f] s2]; cbn [fst snd erase eitem Pitem] in E2, P2; rewrite E2; (split; [reflexivity|exact P2]).
  - split; [reflexivity|exact P].
  - split; [reflexivity|exact P].
  - split; [reflexivity|exact P].
Qed.
Lemma turn_sim d v stack s X : log_ok s (ids (map snd stack)) (Place (fst v) :: X) ->
  sim eturn Pturn (turn NI oc inp d v stack s) (turn I oc inp d (snd v) (map bframe stack) (st_of s)).
Proof.
  destruct s as [[st n] lg]. intros H. unfold turn. rewrite snd_bframe. cbn [st_of fst].
  destruct (event_next oc inp d) as [[ev d1]| |f].
  - destruct (dispatch_sim v ev st n lg _ _ H) as (r & s1 & E & E2 & K). rewrite E, E2. destruct r as [[l|]| |f]; cbn [erase option_map]; destruct K as [Y K].
    + eapply after_sim, K.
    + destruct stack as [|[v' l'] stack']; cbn [map]; [|exact (after_sim d1 true v' l' stack' s1 Y K)].
      split; [reflexivity|]. cbn [fst snd Pturn]. destruct K as (K1 & K2 & K3). pose proof (sh_nil _ K2) as E3. rewrite E3 in K1, K2. repeat split; assumption.
    + eapply fail_sim, K.
    + eapply fault_sim, K.
  - eapply (fail_sim eturn Pturn _ (st, n, lg)), H.
  - eapply (fault_sim eturn Pturn _ _ (st, n, lg)), H.
Qed.
Lemma eod_fault d : match end_of_doc inp d with Fault FPanic => True | _ => True end.
Proof. destruct (end_of_doc inp d) as [| |[]]; exact Logic.I. Qed.
Lemma loop_sim fuel : forall d v stack s X, log_ok s (ids (map snd stack)) (Place (fst v) :: X) ->
  sim (fun u : unit => u) (fun _ s => log_ok s [] [Place 0]) (outer_loop NI oc inp fuel d v stack s) (outer_loop I oc inp fuel d (snd v) (map bframe stack) (st_of s)).
Proof.
  induction fuel as [|fuel IH]; intros d v stack s X H; cbn [outer_loop].
  - split; [reflexivity|]. exact (ok_stopped _ _ _ H).
  - destruct (turn_sim d v stack s X H) as [E P].
    destruct (turn NI oc inp d v stack s) as [[[d1 v1 stack1|d1]| |f] s1]; cbn [fst snd erase eturn Pturn] in E, P; rewrite E.
    + destruct P as [Y P]. exact (IH _ _ _ _ _ P).
    + split; [destruct (end_of_doc inp d1); reflexivity|]. cbn [fst snd]. destruct (end_of_doc inp d1) as [u| |[]]; try exact P; exact (ok_stopped _ _ _ P).
    + split; [reflexivity|exact P].
    + split; [reflexivity|exact P].
Qed.
Theorem de_run v st : sim (fun u : unit => u) (fun _ s => log_ok s [] [Place 0]) (from_str_impl NI oc inp (0, v) (st, 1, [])) (from_str_impl I oc inp v st).
Proof. apply (loop_sim (S (len inp)) (mklex 0 []) (0, v) [] (st, 1, []) []). split; [reflexivity|split; [constructor|exists 0; split; reflexivity]]. Qed.
End De.

(** ** Serialization *)
Section Ser.
Context {St D SQ MP : Type}.
Variable I : siface St D SQ MP.
Variable ryu : f64 -> bytes.
Notation NI := (borrowing_ser I).
Notation lay := (@slayer (nat * SQ) (nat * MP)).
Definition slid (l : lay) : nat := match l with SLSeq q => fst q | SLMap m => fst m end.
Definition sbare (l : lay) : @slayer SQ MP := match l with SLSeq q => SLSeq (snd q) | SLMap m => SLMap (snd m) end.
Definition sids (ls : list lay) : list nat := map slid ls.

Definition ssim {A B} (e : A -> B) (P : A -> bst St -> Prop) (x : res A * bst St) (y : res B * St) : Prop :=
  y = (erase e (fst x), st_of (snd x)) /\
  match fst x with
  | Ok a => P a (snd x)
  | Fault FPanic => log_ok (snd x) [] [Place 0]
  | Err | Fault _ => stopped (snd x)
  end.
Lemma sdrop_num (l : lay) st n lg : sdrop NI l (st, n, lg) =
  (fst (sdrop I (sbare l) st), (snd (sdrop I (sbare l) st), n, lg ++ [BDrop (slid l)])).
Proof.
  destruct l as [q|m]; cbn [sdrop borrowing_ser i_seq_drop i_map_drop sbare slid]; unfold record.
  - destruct (i_seq_drop I (snd q) st); reflexivity.
  - destruct (i_map_drop I (snd m) st); reflexivity.
Qed.
Lemma sunwind_sim {A B} (e : A -> B) P ls : forall s X, log_ok s (sids ls) X ->
  ssim e P (sunwind NI ls s) (sunwind I (map sbare ls) (st_of s)).
Proof.
  induction ls as [|l ls IH]; intros [[st n] lg] X H; cbn [sunwind map sids] in *.
  - split; [reflexivity|]. cbn [fst snd]. destruct H as (H1 & H2 & H3). pose proof (sh_nil _ H2) as ->. repeat split; assumption.
  - rewrite sdrop_num. cbn [st_of fst]. destruct (sdrop I (sbare l) st) as [r st1]. cbn [fst snd] in *.
    destruct (ok_drop st st1 n lg _ _ _ H) as (p & Y & K).
    destruct r as [u| |f]; [apply (IH _ _ K)|apply (IH _ _ K)|].
    destruct f; (split; [reflexivity|]; cbn [fst snd]; exact (ok_stopped _ _ _ K)).
Qed.
Lemma sfault_sim {A B} (e : A -> B) P f ls s X : log_ok s (sids ls) X -> ssim e P (son_fault NI f ls s) (son_fault I f (map sbare ls) (st_of s)).
Proof.
  intros H. destruct f; try (split; [reflexivity|]; cbn [fst snd son_fault]; exact (ok_stopped _ _ _ H)). cbn [son_fault]. eapply sunwind_sim, H.
Qed.

Definition estep (x : @sstep (nat * D) (nat * SQ) (nat * MP)) : @sstep D SQ MP :=
  match x with SReturn o => SReturn o | SBegin d ls o => SBegin (snd d) (map sbare ls) o end.
Definition Pstep (x : @sstep (nat * D) (nat * SQ) (nat * MP)) (s : bst St) : Prop :=
  match x with SReturn _ => log_ok s [] [Place 0] | SBegin d ls _ => exists X, log_ok s (sids ls) (Place (fst d) :: X) end.

(** The drop of an exhausted iterator. *)
Lemma dropped_sim (l : lay) ls st n lg X (k' : bst St -> res (@sstep (nat * D) (nat * SQ) (nat * MP)) * bst St) (k : St -> res (@sstep D SQ MP) * St) :
  log_ok (st, n, lg) (slid l :: sids ls) X ->
  (forall s Y, log_ok s (sids ls) Y -> ssim estep Pstep (k' s) (k (st_of s))) ->
  ssim estep Pstep (match sdrop NI l (st, n, lg) with (Fault f, s) => son_fault NI f ls s | (_, s) => k' s end)
    (match sdrop I (sbare l) st with (Fault f, s) => son_fault I f (map sbare ls) s | (_, s) => k s end).
Proof.
  intros H HK. rewrite sdrop_num. destruct (sdrop I (sbare l) st) as [r st1]. cbn [fst snd].
  destruct (ok_drop st st1 n lg _ _ _ H) as (p & Y & K).
  destruct r as [u| |f]; [exact (HK _ _ K)|exact (HK _ _ K)|exact (sfault_sim estep Pstep f ls _ _ K)].
Qed.
Lemma seq_sim q ls st n lg X o1 o2 : log_ok (st, n, lg) (fst q :: sids ls) X ->
  (forall s Y, log_ok s (sids ls) Y -> ssim estep Pstep (ser_pop NI ls o2 s) (ser_pop I (map sbare ls) o2 (st_of s))) ->
  ssim estep Pstep
    (match i_seq_next NI q (st, n, lg) with
      | (Ok (Some d), q', st1) => (Ok (SBegin d (SLSeq q' :: ls) o1), st1)
      | (Ok None, q', st1) =>
          match i_seq_drop NI q' st1 with
          | (Fault f, st2) => son_fault NI f ls st2
          | (_, st2) => ser_pop NI ls o2 st2
          end
      | (Err, q', st1) => (Err, st1)
      | (Fault f, q', st1) => son_fault NI f (SLSeq q' :: ls) st1
      end)
    (match i_seq_next I (snd q) st with
      | (Ok (Some d), q', st1) => (Ok (SBegin d (SLSeq q' :: map sbare ls) o1), st1)
      | (Ok None, q', st1) =>
          match i_seq_drop I q' st1 with
          | (Fault f, st2) => son_fault I f (map sbare ls) st2
          | (_, st2) => ser_pop I (map sbare ls) o2 st2
          end
      | (Err, q', st1) => (Err, st1)
      | (Fault f, q', st1) => son_fault I f (SLSeq q' :: map sbare ls) st1
      end).
Proof.
  intros H HP. destruct q as [b q]. cbn [borrowing_ser i_seq_next fst snd] in *. destruct (i_seq_next I q st) as [[[[d|]| |f] q'] st1].
  - destruct (ok_ask st st1 n lg _ X b true H) as (Y & K). split; [reflexivity|]. exists Y. exact K.
  - destruct (ok_ask st st1 n lg _ X b false H) as (Y & K).
    exact (dropped_sim (SLSeq (b, q')) ls st1 n _ Y (ser_pop NI ls o2) (ser_pop I (map sbare ls) o2) K HP).
  - destruct (ok_ask st st1 n lg _ X b false H) as (Y & K). split; [reflexivity|]. exact (ok_stopped _ _ _ K).
  - destruct (ok_ask st st1 n lg _ X b false H) as (Y & K). exact (sfault_sim estep Pstep f (SLSeq (b, q') :: ls) _ _ K).
Qed.
Lemma map_sim m ls st n lg X o1 o2 : log_ok (st, n, lg) (fst m :: sids ls) X ->
  (forall s Y, log_ok s (sids ls) Y -> ssim estep Pstep (ser_pop NI ls o2 s) (ser_pop I (map sbare ls) o2 (st_of s))) ->
  ssim estep Pstep
    (match i_map_next NI m (st, n, lg) with
      | (Ok (Some (key, d)), m', st1) =>
          match escape_str key o1 with
          | Ok out1 => (Ok (SBegin d (SLMap m' :: ls) (out1 ++ [58%Z])), st1)
          | Err => (Err, st1)
          | Fault f => son_fault NI f (SLMap m' :: ls) st1
          end
      | (Ok None, m', st1) =>
          match i_map_drop NI m' st1 with
          | (Fault f, st2) => son_fault NI f ls st2
          | (_, st2) => ser_pop NI ls o2 st2
          end
      | (Err, m', st1) => (Err, st1)
      | (Fault f, m', st1) => son_fault NI f (SLMap m' :: ls) st1
      end)
    (match i_map_next I (snd m) st with
      | (Ok (Some (key, d)), m', st1) =>
          match escape_str key o1 with
          | Ok out1 => (Ok (SBegin d (SLMap m' :: map sbare ls) (out1 ++ [58%Z])), st1)
          | Err => (Err, st1)
          | Fault f => son_fault I f (SLMap m' :: map sbare ls) st1
          end
      | (Ok None, m', st1) =>
          match i_map_drop I m' st1 with
          | (Fault f, st2) => son_fault I f (map sbare ls) st2
          | (_, st2) => ser_pop I (map sbare ls) o2 st2
          end
      | (Err, m', st1) => (Err, st1)
      | (Fault f, m', st1) => son_fault I f (SLMap m' :: map sbare ls) st1
      end).
Proof.
  intros H HP. destruct m as [b m]. cbn [borrowing_ser i_map_next fst snd] in *. destruct (i_map_next I m st) as [[[[[key d]|]| |f] m'] st1].
  - destruct (ok_ask st st1 n lg _ X b true H) as (Y & K). destruct (escape_str key o1) as [out1| |f].
    + split; [reflexivity|]. exists Y. exact K.
    + split; [reflexivity|]. exact (ok_stopped _ _ _ K).
    + exact (sfault_sim estep Pstep f (SLMap (b, m') :: ls) _ _ K).
  - destruct (ok_ask st st1 n lg _ X b false H) as (Y & K).
    exact (dropped_sim (SLMap (b, m')) ls st1 n _ Y (ser_pop NI ls o2) (ser_pop I (map sbare ls) o2) K HP).
  - destruct (ok_ask st st1 n lg _ X b false H) as (Y & K). split; [reflexivity|]. exact (ok_stopped _ _ _ K).
  - destruct (ok_ask st st1 n lg _ X b false H) as (Y & K). exact (sfault_sim estep Pstep f (SLMap (b, m') :: ls) _ _ K).
Qed.
Lemma pop_sim ls : forall o s X, log_ok s (sids ls) X -> ssim estep Pstep (ser_pop NI ls o s) (ser_pop I (map sbare ls) o (st_of s)).
Proof.
  induction ls as [|[q|m] ls IH]; intros o [[st n] lg] X H; cbn [ser_pop map sbare st_of fst].
  - split; [reflexivity|]. cbn [fst snd Pstep]. destruct H as (H1 & H2 & H3). pose proof (sh_nil _ H2) as ->. repeat split; assumption.
  - apply seq_sim with (X := X); [exact H|intros; eapply IH; eassumption].
  - apply map_sim with (X := X); [exact H|intros; eapply IH; eassumption].
Qed.
Definition bare_frag (f : fragment (nat * SQ) (nat * MP)) : fragment SQ MP :=
  match f with FNull => FNull | FBool b => FBool b | FStr s => FStr s | FU64 z => FU64 z | FI64 z => FI64 z | FF64 f => FF64 f | FSeq q => FSeq (snd q) | FMap m => FMap (snd m) end.
Definition fids (f : fragment (nat * SQ) (nat * MP)) : list nat := match f with FSeq q => [fst q] | FMap m => [fst m] | _ => [] end.
Lemma scalar_sim r ls s X : log_ok s (sids ls) X -> ssim estep Pstep (ser_scalar NI r ls s) (ser_scalar I r (map sbare ls) (st_of s)).
Proof.
  intros H. destruct r as [o| |f]; cbn [ser_scalar]; [eapply pop_sim, H| |eapply sfault_sim, H]. split; [reflexivity|]. exact (ok_stopped _ _ _ H).
Qed.
Lemma sturn_sim f ls o s X : log_ok s (fids f ++ sids ls) X ->
  ssim estep Pstep (ser_turn NI ryu f ls o s) (ser_turn I ryu (bare_frag f) (map sbare ls) o (st_of s)).
Proof.
  intros H. destruct f as [|b|t|z|z|f|q|m]; cbn [ser_turn bare_frag]; try (eapply scalar_sim; exact H); destruct s as [[st n] lg]; cbn [st_of fst].
  - apply seq_sim with (X := X); [exact H|intros; eapply pop_sim; eassumption].
  - apply map_sim with (X := X); [exact H|intros; eapply pop_sim; eassumption].
Qed.
Lemma sloop_sim fuel : forall d ls o s X, log_ok s (sids ls) (Place (fst d) :: X) ->
  ssim (fun b : bytes => b) (fun _ s => log_ok s [] [Place 0]) (ser_loop NI ryu fuel d ls o s) (ser_loop I ryu fuel (snd d) (map sbare ls) o (st_of s)).
Proof.
  induction fuel as [|fuel IH]; intros d ls o [[st n] lg] X H; cbn [ser_loop].
  - split; [reflexivity|]. exact (ok_stopped _ _ _ H).
  - assert (K : forall f s Y, log_ok s (fids f ++ sids ls) Y ->
      ssim (fun b : bytes => b) (fun _ s => log_ok s [] [Place 0])
        (match ser_turn NI ryu f ls o s with
          | (Ok (SReturn out'), st2) => (Ok out', st2)
          | (Ok (SBegin d' stack' out'), st2) => ser_loop NI ryu fuel d' stack' out' st2
          | (Err, st2) => (Err, st2)
          | (Fault e, st2) => (Fault e, st2)
          end)
        (match ser_turn I ryu (bare_frag f) (map sbare ls) o (st_of s) with
          | (Ok (SReturn out'), st2) => (Ok out', st2)
          | (Ok (SBegin d' stack' out'), st2) => ser_loop I ryu fuel d' stack' out' st2
          | (Err, st2) => (Err, st2)
          | (Fault e, st2) => (Fault e, st2)
          end)).
    { intros f s Y HY. destruct (sturn_sim f ls o s Y HY) as [E P].
      destruct (ser_turn NI ryu f ls o s) as [[[o'|d' ls' o']| |e] s1]; cbn [fst snd erase estep Pstep] in E, P; rewrite E; try (split; [reflexivity|exact P]).
      destruct P as [Z P]. exact (IH _ _ _ _ _ P). }
    cbn [borrowing_ser i_begin st_of fst]. destruct d as [p d]. cbn [fst snd] in *.
    destruct (i_begin I d st) as [[[|b|t|z|z|f|q|m]| |e] st1].
    + exact (K FNull _ _ (ok_use st st1 n lg _ p _ H)).
    + exact (K (FBool b) _ _ (ok_use st st1 n lg _ p _ H)).
    + exact (K (FStr t) _ _ (ok_use st st1 n lg _ p _ H)).
    + exact (K (FU64 z) _ _ (ok_use st st1 n lg _ p _ H)).
    + exact (K (FI64 z) _ _ (ok_use st st1 n lg _ p _ H)).
    + exact (K (FF64 f) _ _ (ok_use st st1 n lg _ p _ H)).
    + exact (K (FSeq (n, q)) _ _ (ok_open st st1 n lg _ p _ H)).
    + exact (K (FMap (n, m)) _ _ (ok_open st st1 n lg _ p _ H)).
    + split; [reflexivity|]. exact (ok_stopped _ _ _ (ok_use st st1 n lg _ p _ H)).
    + exact (sfault_sim _ _ e ls _ _ (ok_use st st1 n lg _ p _ H)).
Qed.
Theorem ser_run fuel d st : ssim (fun b : bytes => b) (fun _ s => log_ok s [] [Place 0]) (to_string_impl NI ryu fuel (0, d) (st, 1, [])) (to_string_impl I ryu fuel d st).
Proof. apply (sloop_sim fuel (0, d) [] [] (st, 1, []) []). split; [reflexivity|split; [constructor|exists 0; split; reflexivity]]. Qed.
End Ser.

(** ** What the rules mean *)
Definition num (x : loan) : nat := match x with Place p => p | Builder b => b end.
Notation nums := (map num).
Definition good (n : nat) (X : list loan) : Prop := StronglySorted (fun a b => b < a) (nums X) /\ Forall (fun k => k < n) (nums X).
Lemma good_tail n x X : good n (x :: X) -> good n X.
Proof. intros [A B]. inversion A; inversion B; subst. split; assumption. Qed.
Lemma good_expire n X : good n X -> good n (expire X).
Proof. destruct X as [|[p|b] X]; cbn [expire]; auto. apply good_tail. Qed.
Lemma good_more n X : good n X -> good (S n) X.
Proof. intros [A B]. split; [exact A|]. eapply Forall_impl; [|exact B]. cbn beta. lia. Qed.
Lemma good_push n x X : good n X -> num x = n -> good (S n) (x :: X).
Proof.
  intros [A B] <-. split; cbn [map]; constructor; auto. eapply Forall_impl; [|exact B]. cbn beta. lia.
Qed.
Lemma expire_in x X : In x (nums (expire X)) -> In x (nums X).
Proof. destruct X as [|[p|b] X]; cbn [expire]; auto. intros H. right. exact H. Qed.
Lemma step_facts X e X' : borrow_step X e = Some X' ->
  In (target e) (nums X) /\ (forall k, In k (nums X') -> In k (nums X) \/ In k (handed e)).
Proof.
  destruct e as [p|p b|b o|b]; cbn [borrow_step target handed].
  - destruct X as [|[q|q] X]; try discriminate. destruct (Nat.eqb_spec p q) as [->|]; [|discriminate]. intros [= <-]. split; [left; reflexivity|auto].
  - destruct X as [|[q|q] X]; try discriminate. destruct (Nat.eqb_spec p q) as [->|]; [|discriminate]. intros [= <-].
    split; [left; reflexivity|]. intros k [<-|H]; [right; left; reflexivity|left; exact H].
  - destruct (expire X) as [|[q|q] Y] eqn:E; try discriminate. destruct (Nat.eqb_spec b q) as [->|]; [|discriminate]. intros [= <-].
    assert (K : forall k, In k (q :: nums Y) -> In k (nums X)) by (intros k H; apply expire_in; rewrite E; exact H).
    split; [apply K; left; reflexivity|]. destruct o as [p|]; intros k; cbn [map num].
    + intros [<-|H]; [right; left; reflexivity|left; apply K; exact H].
    + intros H. left. apply K. exact H.
  - destruct (expire X) as [|[q|q] Y] eqn:E; try discriminate. destruct (Nat.eqb_spec b q) as [->|]; [|discriminate]. intros [= <-].
    assert (K : forall k, In k (q :: nums Y) -> In k (nums X)) by (intros k H; apply expire_in; rewrite E; exact H).
    split; [apply K; left; reflexivity|]. intros k H. left. apply K. right. exact H.
Qed.
Lemma step_good n X e X' : good n X -> borrow_step X e = Some X' -> handed e = [] \/ handed e = [n] ->
  good (n + length (handed e)) X'.
Proof.
  intros G H HH. destruct e as [p|p b|b o|b]; cbn [borrow_step handed length] in *.
  - rewrite Nat.add_0_r. destruct X as [|[q|q] X]; try discriminate. destruct (Nat.eqb p q); [|discriminate]. injection H as <-. exact G.
  - destruct HH as [HH|[= ->]]; [discriminate|]. rewrite Nat.add_1_r. destruct X as [|[q|q] X]; try discriminate. destruct (Nat.eqb p q); [|discriminate]. injection H as <-.
    apply good_push; [exact G|reflexivity].
  - apply good_expire in G. destruct (expire X) as [|[q|q] Y]; try discriminate. destruct (Nat.eqb b q); [|discriminate]. injection H as <-.
    destruct o as [p|]; cbn [length] in *; [|rewrite Nat.add_0_r; exact G]. destruct HH as [HH|[= ->]]; [discriminate|]. rewrite Nat.add_1_r. apply good_push; [exact G|reflexivity].
  - rewrite Nat.add_0_r. apply good_expire in G. destruct (expire X) as [|[q|q] Y]; try discriminate. destruct (Nat.eqb b q); [|discriminate]. injection H as <-.
    eapply good_tail, G.
Qed.
(** Consecutive numbering, from n on. *)
Definition numbered_from (n : nat) (l : list bev) : Prop := exists m, flat_map handed l = seq n m.
Lemma numbered_cons n e l : numbered_from n (e :: l) -> (handed e = [] \/ handed e = [n]) /\ numbered_from (n + length (handed e)) l.
Proof.
  intros (m & H). cbn [flat_map] in H. destruct e as [p|p b|b [p|]|b]; cbn [handed app length] in *; rewrite ?Nat.add_0_r;
    try (split; [left; reflexivity|exists m; exact H]);
    (destruct m as [|m]; [discriminate|]; cbn [seq] in H; injection H as -> H; split; [right; reflexivity|]; rewrite Nat.add_1_r; exists m; exact H).
Qed.
Lemma numbered_app a : forall n l, numbered_from n (a ++ l) -> numbered_from n a /\ numbered_from (n + length (flat_map handed a)) l.
Proof.
  induction a as [|e a IH]; intros n l H; cbn [app flat_map length].
  - rewrite Nat.add_0_r. split; [exists 0; reflexivity|exact H].
  - apply numbered_cons in H as [HH H]. apply IH in H as [(m & H1) H2]. rewrite app_length, Nat.add_assoc. split; [|exact H2].
    exists (length (handed e) + m). cbn [flat_map]. rewrite H1. destruct HH as [-> | ->]; cbn [length app]; [rewrite Nat.add_0_r; reflexivity|].
    rewrite Nat.add_1_r. reflexivity.
Qed.
Lemma run_good l : forall n X X', good n X -> borrows X l = Some X' -> numbered_from n l -> good (n + length (flat_map handed l)) X'.
Proof.
  induction l as [|e l IH]; intros n X X' G H N; cbn [borrows flat_map] in *.
  - injection H as <-. rewrite Nat.add_0_r. exact G.
  - apply numbered_cons in N as [HH N]. destruct (borrow_step X e) as [Y|] eqn:E; [|discriminate]. rewrite app_length, Nat.add_assoc.
    apply (IH _ Y); [eapply step_good; eassumption|exact H|exact N].
Qed.
(** What is not alive will not be used. *)
Lemma dead k l : forall n X X', k < n -> ~ In k (nums X) -> borrows X l = Some X' -> numbered_from n l -> Forall (fun e => target e <> k) l.
Proof.
  induction l as [|e l IH]; intros n X X' L D H N; [constructor|]. cbn [borrows] in H. destruct (borrow_step X e) as [Y|] eqn:E; [|discriminate].
  apply numbered_cons in N as [HH N]. pose proof (step_facts _ _ _ E) as [T S]. constructor; [intros ET; rewrite ET in T; contradiction|].
  apply (IH (n + length (handed e)) Y X'); [lia| |exact H|exact N]. intros K. apply S in K as [K|K]; [contradiction|].
  destruct HH as [HH|HH]; rewrite HH in K; [destruct K|]. destruct K as [K|[]]. lia.
Qed.
Lemma borrows_split a l X X' : borrows X (a ++ l) = Some X' -> exists Y, borrows X a = Some Y /\ borrows Y l = Some X'.
Proof. rewrite borrows_app. destruct (borrows X a) as [Y|]; [eauto|discriminate]. Qed.
Lemma good_start : good 1 [Place 0].
Proof. split; repeat constructor. Qed.
(** A run up to a call. *)
Lemma run_to log X a e l : borrows [Place 0] log = Some X -> numbered_from 1 log -> log = a ++ e :: l ->
  exists n Y Y', borrows [Place 0] a = Some Y /\ good n Y /\ borrow_step Y e = Some Y' /\ (handed e = [] \/ handed e = [n]) /\
    good (n + length (handed e)) Y' /\ borrows Y' l = Some X /\ numbered_from (n + length (handed e)) l.
Proof.
  intros H N ->. apply borrows_split in H as (Y & H1 & H2). apply numbered_app in N as [N1 N2]. apply numbered_cons in N2 as [HH N2].
  cbn [borrows] in H2. destruct (borrow_step Y e) as [Y'|] eqn:E; [|discriminate].
  pose proof (run_good _ _ _ _ good_start H1 N1) as G. exists (1 + length (flat_map handed a)), Y, Y'.
  split; [exact H1|]. split; [exact G|]. split; [exact E|]. split; [exact HH|]. split; [eapply step_good; eassumption|]. split; assumption.
Qed.
Lemma sorted_head n x X k : good n (x :: X) -> In k (nums X) -> k < num x.
Proof. intros [A _] H. cbn [map] in A. inversion A as [|? ? ? F]; subst. rewrite Forall_forall in F. apply F, H. Qed.
Lemma not_in_tail n x X : good n (x :: X) -> ~ In (num x) (nums X).
Proof. intros G H. pose proof (sorted_head n x X _ G H). lia. Qed.

(** After its drop a builder is not touched any more. *)
Lemma no_use_after_drop log X a b l : borrows [Place 0] log = Some X -> numbered_from 1 log -> log = a ++ BDrop b :: l ->
  Forall (fun e => target e <> b) l.
Proof.
  intros H N E. destruct (run_to log X a _ l H N E) as (n & Y & Y' & H1 & G & ES & HH & G' & H2 & N2). cbn [handed length] in *. rewrite Nat.add_0_r in *.
  cbn [borrow_step] in ES. apply good_expire in G. destruct (expire Y) as [|[q|q] Z]; try discriminate. destruct (Nat.eqb_spec b q) as [->|]; [|discriminate]. injection ES as <-.
  eapply (dead q l n Z X); [|exact (not_in_tail n (Builder q) Z G)|exact H2|exact N2]. destruct G as [_ G]. inversion G. assumption.
Qed.
(** Whatever borrows from a builder is not used once the builder is used again, or dropped. *)
Lemma no_use_after_parent log X a b p c e l : borrows [Place 0] log = Some X -> numbered_from 1 log ->
  log = a ++ BAsk b (Some p) :: c ++ e :: l -> (exists o, e = BAsk b o) \/ e = BDrop b -> Forall (fun e' => target e' <> p) (e :: l).
Proof.
  intros H N E HE. destruct (run_to log X a _ _ H N E) as (n & Y & Y' & H1 & G & ES & HH & G' & H2 & N2).
  cbn [handed length] in *. destruct HH as [HH|[= ->]]; [discriminate|]. rewrite Nat.add_1_r in *.
  assert (B : b < n).
  { cbn [borrow_step] in ES. apply good_expire in G. destruct (expire Y) as [|[q|q] Z]; try discriminate. destruct (Nat.eqb_spec b q) as [->|]; [|discriminate].
    destruct G as [_ G]. inversion G. assumption. }
  apply borrows_split in H2 as (Z & H3 & H4). apply numbered_app in N2 as [N3 N4]. pose proof (run_good _ _ _ _ G' H3 N3) as GZ.
  set (k := S n + length (flat_map handed c)) in *. assert (L : n < k) by (unfold k; lia). clearbody k.
  apply numbered_cons in N4 as [HH N4]. cbn [borrows] in H4. destruct (borrow_step Z e) as [W|] eqn:EW; [|discriminate].
  assert (T : target e = b) by (destruct HE as [[o ->] | ->]; reflexivity).
  constructor; [lia|]. eapply (dead n l _ W X); [|intros K|exact H4|exact N4]; [lia|].
  apply good_expire in GZ. destruct HE as [[o ->] | ->]; cbn [borrow_step handed] in *.
  - destruct (expire Z) as [|[q|q] V]; try discriminate. destruct (Nat.eqb_spec b q) as [->|]; [|discriminate]. injection EW as <-.
    assert (KV : ~ In n (q :: nums V)).
    { intros [K2|K2]; [lia|]. pose proof (sorted_head k (Builder q) V n GZ K2). cbn [num] in *. lia. }
    destruct o as [m|]; cbn [map num] in K; [|contradiction]. destruct K as [K|K]; [|contradiction]. destruct HH as [HH|[= HH]]; [discriminate|]. lia.
  - destruct (expire Z) as [|[q|q] V]; try discriminate. destruct (Nat.eqb_spec b q) as [->|]; [|discriminate]. injection EW as <-.
    pose proof (sorted_head k (Builder q) V n GZ K). cbn [num] in *. lia.
Qed.
(** A place is not used while a builder that borrows from it is alive. *)
Lemma keeps b Y Z e X' : borrow_step (Z ++ Builder b :: Y) e = Some X' -> e <> BDrop b ->
  In (target e) (nums Z ++ [b]) /\ exists Z', X' = Z' ++ Builder b :: Y.
Proof.
  intros H NE. destruct e as [p|p c|c o|c]; cbn [borrow_step target] in *.
  - destruct Z as [|[q|q] Z]; cbn [app] in H; try discriminate. destruct (Nat.eqb_spec p q) as [->|]; [|discriminate]. injection H as <-.
    split; [left; reflexivity|]. exists (Place q :: Z). reflexivity.
  - destruct Z as [|[q|q] Z]; cbn [app] in H; try discriminate. destruct (Nat.eqb_spec p q) as [->|]; [|discriminate]. injection H as <-.
    split; [left; reflexivity|]. exists (Builder c :: Place q :: Z). reflexivity.
  - assert (K : exists Z1, expire (Z ++ Builder b :: Y) = Z1 ++ Builder b :: Y /\ (forall k, In k (nums Z1) -> In k (nums Z))).
    { destruct Z as [|[q|q] Z]; cbn [app expire]; [exists []; split; [reflexivity|auto]|exists Z; split; [reflexivity|cbn; auto]|exists (Builder q :: Z); split; [reflexivity|auto]]. }
    destruct K as (Z1 & E & K). rewrite E in H. destruct Z1 as [|[q|q] Z1]; cbn [app] in H; try discriminate.
    + destruct (Nat.eqb_spec c b) as [->|]; [|discriminate]. injection H as <-. split; [apply in_or_app; right; left; reflexivity|].
      destruct o as [p|]; [exists [Place p]|exists []]; reflexivity.
    + destruct (Nat.eqb_spec c q) as [->|]; [|discriminate]. injection H as <-. split; [apply in_or_app; left; apply K; left; reflexivity|].
      destruct o as [p|]; [exists (Place p :: Builder q :: Z1)|exists (Builder q :: Z1)]; reflexivity.
  - assert (K : exists Z1, expire (Z ++ Builder b :: Y) = Z1 ++ Builder b :: Y /\ (forall k, In k (nums Z1) -> In k (nums Z))).
    { destruct Z as [|[q|q] Z]; cbn [app expire]; [exists []; split; [reflexivity|auto]|exists Z; split; [reflexivity|cbn; auto]|exists (Builder q :: Z); split; [reflexivity|auto]]. }
    destruct K as (Z1 & E & K). rewrite E in H. destruct Z1 as [|[q|q] Z1]; cbn [app] in H; try discriminate.
    + destruct (Nat.eqb_spec c b) as [->|]; [|discriminate]. contradiction NE. reflexivity.
    + destruct (Nat.eqb_spec c q) as [->|]; [|discriminate]. injection H as <-. split; [apply in_or_app; left; apply K; left; reflexivity|].
      exists Z1. reflexivity.
Qed.
Lemma keeps_run b Y l : forall Z X', borrows (Z ++ Builder b :: Y) l = Some X' -> ~ In (BDrop b) l -> exists Z', X' = Z' ++ Builder b :: Y.
Proof.
  induction l as [|e l IH]; intros Z X' H NI; cbn [borrows] in H; [injection H as <-; exists Z; reflexivity|].
  destruct (borrow_step (Z ++ Builder b :: Y) e) as [W|] eqn:E; [|discriminate].
  apply keeps in E as (_ & Z' & ->); [|intros ->; apply NI; left; reflexivity]. apply (IH Z'); [exact H|]. intros K. apply NI. right. exact K.
Qed.
Lemma no_use_while_borrowed log X a p b c e l : borrows [Place 0] log = Some X -> numbered_from 1 log ->
  log = a ++ BOpen p b :: c ++ e :: l -> ~ In (BDrop b) c -> target e <> p.
Proof.
  intros H N E NI. destruct (run_to log X a _ _ H N E) as (n & Y & Y' & H1 & G & ES & HH & G' & H2 & N2).
  cbn [handed length] in *. destruct HH as [HH|[= ->]]; [discriminate|]. rewrite Nat.add_1_r in *.
  cbn [borrow_step] in ES. destruct Y as [|[q|q] Y]; try discriminate. destruct (Nat.eqb_spec p q) as [->|]; [|discriminate]. injection ES as <-.
  apply borrows_split in H2 as (Z & H3 & H4). apply numbered_app in N2 as [N3 N4]. pose proof (run_good _ _ _ _ G' H3 N3) as GZ.
  destruct (keeps_run n (Place q :: Y) c [] Z H3 NI) as (Z' & ->).
  cbn [borrows] in H4. destruct (borrow_step (Z' ++ Builder n :: Place q :: Y) e) as [W|] eqn:EW; [|discriminate].
  assert (P : forall Z'' k, good k (Z'' ++ Builder n :: Place q :: Y) -> ~ In q (nums Z'' ++ [n])).
  { induction Z'' as [|z Z'' IH]; intros k G3; cbn [app map].
    - intros [K|[]]. pose proof (sorted_head k (Builder n) (Place q :: Y) q G3 (or_introl eq_refl)). cbn [num] in *. lia.
    - intros [K|K]; [|exact (IH k (good_tail _ _ _ G3) K)].
      assert (In q (nums (Z'' ++ Builder n :: Place q :: Y))) as K2 by (rewrite map_app; apply in_or_app; right; right; left; reflexivity).
      pose proof (sorted_head k z _ q G3 K2). lia. }
  destruct e as [e1|e1 e2|e1 e2|e1];
    try (apply keeps in EW as (T & _); [|discriminate]; intros ET; rewrite ET in T; exact (P _ _ GZ T)).
  destruct (Nat.eqb_spec e1 n) as [->|NE].
  - cbn [target]. intros ->. pose proof (sorted_head (S q) (Builder q) (Place q :: Y) q G' (or_introl eq_refl)). cbn [num] in *. lia.
  - apply keeps in EW as (T & _); [|congruence]. intros ET; rewrite ET in T; exact (P _ _ GZ T).
Qed.
Lemma in_place_builder n X b : good n X -> In (Builder b) X -> In (Place b) X -> False.
Proof.
  induction X as [|x X IH]; intros G HB HP; [destruct HB|]. pose proof (not_in_tail n x X G) as NI.
  destruct HB as [->|HB], HP as [E|HP]; try discriminate E; [|subst x|]; cbn [num] in NI.
  - apply NI. apply (in_map num) in HP. exact HP.
  - apply NI. apply (in_map num) in HB. exact HB.
  - exact (IH (good_tail _ _ _ G) HB HP).
Qed.
(** A call on the number of a builder is a call on a builder. *)
Lemma target_builder n X e X' b : good n X -> In (Builder b) X -> borrow_step X e = Some X' -> target e = b ->
  (exists o, e = BAsk b o) \/ e = BDrop b.
Proof.
  intros G HB H <-. destruct e as [q|q r|c o|c]; cbn [borrow_step target] in *; [| |left; eauto|right; reflexivity];
    (destruct X as [|[w|w] X]; try discriminate; destruct (Nat.eqb_spec q w) as [->|]; [|discriminate]; destruct (in_place_builder _ _ _ G HB); left; reflexivity).
Qed.
Lemma step_builder X e X' b : borrow_step X e = Some X' -> In (Builder b) X -> e <> BDrop b -> In (Builder b) X'.
Proof.
  intros H HB NE. apply in_split in HB as (Z & Y & ->). apply keeps in H as (_ & Z' & ->); [|exact NE]. apply in_or_app. right. left. reflexivity.
Qed.
Lemma numbered_seq log m : flat_map handed log = seq 1 m -> numbered_from 1 log.
Proof. intros H. exists m. exact H. Qed.

Lemma not_dropped_dec b (l : list bev) : In (BDrop b) l \/ ~ In (BDrop b) l.
Proof.
  induction l as [|e l IH]; [right; intros []|]. destruct IH as [IH|IH]; [left; right; exact IH|].
  assert (D : e = BDrop b \/ e <> BDrop b) by (destruct e as [| | |c]; try (right; discriminate); destruct (Nat.eq_dec c b) as [->|]; [left; reflexivity|right; congruence]).
  destruct D as [->|D]; [left; left; reflexivity|]. right. intros [K|K]; contradiction.
Qed.
(** The state after a BAsk, and at a later call on the same builder number. *)
Lemma ask_then log X a b p c e l : borrows [Place 0] log = Some X -> numbered_from 1 log ->
  log = a ++ BAsk b (Some p) :: c ++ e :: l -> target e = b -> (exists o, e = BAsk b o) \/ e = BDrop b.
Proof.
  intros H N E T. destruct (run_to log X a _ _ H N E) as (n & Y & Y' & H1 & G & ES & HH & G' & H2 & N2).
  cbn [handed length] in *. destruct HH as [HH|[= ->]]; [discriminate|]. rewrite Nat.add_1_r in *.
  assert (IB : In (Builder b) Y').
  { cbn [borrow_step] in ES. destruct (expire Y) as [|[q|q] Z]; try discriminate. destruct (Nat.eqb_spec b q) as [->|]; [|discriminate]. injection ES as <-. right. left. reflexivity. }
  apply borrows_split in H2 as (Z & H3 & H4). apply numbered_app in N2 as [N3 N4]. pose proof (run_good _ _ _ _ G' H3 N3) as GZ.
  cbn [borrows] in H4. destruct (borrow_step Z e) as [W|] eqn:EW; [|discriminate].
  destruct (not_dropped_dec b c) as [D|D].
  - (* dropped in between: then e does not touch b *)
    apply in_split in D as (c1 & c2 & ->). assert (E2 : log = (a ++ BAsk b (Some n) :: c1) ++ BDrop b :: (c2 ++ e :: l)) by (rewrite E; repeat (rewrite <- app_assoc; cbn [app]); reflexivity).
    pose proof (no_use_after_drop log X _ b _ H N E2) as F. rewrite Forall_app in F. destruct F as [_ F]. inversion F. congruence.
  - apply (in_split _ _) in IB as (Z1 & Y1 & ->). destruct (keeps_run b Y1 c Z1 Z H3 D) as (Z' & ->).
    eapply target_builder; [exact GZ|apply in_or_app; right; left; reflexivity|exact EW|exact T].
Qed.
Lemma builders_gone log X a b p c e l b' : borrows [Place 0] log = Some X -> numbered_from 1 log ->
  log = a ++ BAsk b (Some p) :: c ++ e :: l -> target e = b -> In (BOpen p b') c -> In (BDrop b') c.
Proof.
  intros H N E T I. destruct (not_dropped_dec b' c) as [D|D]; [exact D|exfalso].
  pose proof (ask_then _ _ _ _ _ _ _ _ H N E T) as HE.
  apply in_split in I as (c1 & c2 & ->). assert (D2 : ~ In (BDrop b') c2) by (intros K; apply D; apply in_or_app; right; right; exact K).
  (* b < p < b' *)
  destruct (run_to log X a _ _ H N E) as (n & Y & Y' & H1 & G & ES & HH & G' & H2 & N2).
  cbn [handed length] in *. destruct HH as [HH|[= ->]]; [discriminate|]. rewrite Nat.add_1_r in *.
  assert (B : b < n).
  { cbn [borrow_step] in ES. apply good_expire in G. destruct (expire Y) as [|[q|q] Z]; try discriminate. destruct (Nat.eqb_spec b q) as [->|]; [|discriminate].
    destruct G as [_ G]. inversion G. assumption. }
  assert (E2 : log = (a ++ BAsk b (Some n) :: c1) ++ BOpen n b' :: c2 ++ e :: l) by (rewrite E; repeat (rewrite <- app_assoc; cbn [app]); reflexivity).
  destruct (run_to log X _ _ _ H N E2) as (k & V & V' & J1 & J2 & J3 & J4 & J5 & J6 & J7).
  cbn [handed length] in *. destruct J4 as [J4|[= ->]]; [discriminate|]. rewrite Nat.add_1_r in *.
  cbn [borrow_step] in J3. destruct V as [|[q|q] V]; try discriminate. destruct (Nat.eqb_spec n q) as [->|]; [|discriminate]. injection J3 as <-.
  apply borrows_split in J6 as (Z & H3 & H4). apply numbered_app in J7 as [N3 N4]. pose proof (run_good _ _ _ _ J5 H3 N3) as GZ.
  destruct (keeps_run k (Place q :: V) c2 [] Z H3 D2) as (Z' & ->). cbn [borrows] in H4. destruct (borrow_step (Z' ++ Builder k :: Place q :: V) e) as [W|] eqn:EW; [|discriminate].
  assert (QK : q < k) by (exact (sorted_head _ (Builder k) (Place q :: V) q J5 (or_introl eq_refl))).
  assert (NE : e <> BDrop k) by (intros ->; cbn [target] in T; lia).
  apply keeps in EW as (IT & _); [|exact NE]. rewrite T in IT.
  assert (P : forall Z'' k', good k' (Z'' ++ Builder k :: Place q :: V) -> Forall (fun x => k <= x) (nums Z'' ++ [k])).
  { induction Z'' as [|z Z'' IH]; intros k' G3; cbn [app map]; constructor; auto.
    - assert (In k (nums (Z'' ++ Builder k :: Place q :: V))) as K2 by (rewrite map_app; apply in_or_app; right; left; reflexivity).
      pose proof (sorted_head k' z _ k G3 K2). lia.
    - apply (IH k'), (good_tail _ _ _ G3). }
  pose proof (P _ _ GZ) as F. rewrite Forall_forall in F. specialize (F _ IT). lia.
Qed.
Theorem rules_hold log X m : borrows [Place 0] log = Some X -> flat_map handed log = seq 1 m -> borrow_rules log.
Proof.
  intros H N0. pose proof (numbered_seq _ _ N0) as N. split.
  - exists m. exact N0.
  - intros a b l E. exact (no_use_after_drop log X a b l H N E).
  - intros a b p c e l E T. pose proof (ask_then _ _ _ _ _ _ _ _ H N E T) as HE.
    pose proof (no_use_after_parent log X a b p c e l H N E HE) as F. inversion F. assumption.
  - intros a b p c e l b' E T I. exact (builders_gone log X a b p c e l b' H N E T I).
  - intros a p b c e l E NI. exact (no_use_while_borrowed log X a p b c e l H N E NI).
Qed.
