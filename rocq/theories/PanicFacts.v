(** Builders are released exactly once, also when methods or drops panic. *)
From Coq Require Import ZArith List Bool Lia Permutation.
From Verif Require Import Base F64 Lexer Driver ParseSpec PanicSpec.
Import ListNotations.

Section Released.
Context {St V SH MH : Type}.
Variable I : iface St V SH MH.
Notation LI := (logged I).
Notation call := (call V SH MH).
Notation lay := (layer SH MH).

Definition Inv (lg : list call) (ls : list lay) : Prop :=
  Permutation (flat_map handed_out lg) (flat_map dropped lg ++ ls).
Definition dcall (l : lay) : call := match l with LSeq q => CSeqDrop q | LMap m => CMapDrop m end.

Lemma inv_drop lg l ls : Inv lg (l :: ls) -> Inv (lg ++ [dcall l]) ls.
Proof.
  unfold Inv. rewrite !flat_map_app. destruct l; cbn [dcall flat_map handed_out dropped app]; rewrite app_nil_r, <- app_assoc; cbn [app]; auto.
Qed.
Lemma inv_other lg c ls : handed_out c = [] -> dropped c = [] -> Inv lg ls -> Inv (lg ++ [c]) ls.
Proof. unfold Inv. rewrite !flat_map_app. cbn [flat_map]. intros -> ->. cbn [app]. rewrite !app_nil_r. auto. Qed.
Lemma inv_open lg c l ls : handed_out c = [l] -> dropped c = [] -> Inv lg ls -> Inv (lg ++ [c]) (l :: ls).
Proof.
  unfold Inv. rewrite !flat_map_app. cbn [flat_map]. intros -> ->. cbn [app]. rewrite !app_nil_r. intros H.
  etransitivity; [symmetry; apply Permutation_cons_append|]. etransitivity; [|apply Permutation_middle]. constructor. exact H.
Qed.
Lemma inv_perm lg ls ls' : Permutation ls ls' -> Inv lg ls -> Inv lg ls'.
Proof. unfold Inv. intros HP ->. apply Permutation_app_head, HP. Qed.

Definition done {A} (x : res A * (St * list call)) : Prop := orderly (fst x) = true -> Inv (snd (snd x)) [].
Lemma drop_logged l st lg : drop_layer LI l (st, lg) = (fst (drop_layer I l st), (snd (drop_layer I l st), lg ++ [dcall l])).
Proof. destruct l; reflexivity. Qed.
Lemma unwind_inv {A} ls : forall st lg, Inv lg ls -> done (@unwind _ _ _ _ LI A ls (st, lg)).
Proof.
  induction ls as [|l ls IH]; intros st lg H; cbn [unwind]; [intros _; exact H|]. rewrite drop_logged.
  destruct (drop_layer I l st) as [[u| |[]] st1]; cbn [fst snd]; try (apply IH, inv_drop, H); intros K; discriminate.
Qed.
Lemma on_fault_inv {A} f ls st lg : Inv lg ls -> done (@on_fault _ _ _ _ LI A f ls (st, lg)).
Proof. intros H. destruct f; cbn [on_fault]; try (intros K; discriminate). apply unwind_inv, H. Qed.
Lemma fail_inv {A} ls : forall st lg, Inv lg ls -> done (@fail _ _ _ _ LI A ls (st, lg)).
Proof.
  induction ls as [|l ls IH]; intros st lg H; cbn [fail]; [intros _; exact H|]. rewrite drop_logged. apply inv_drop in H.
  destruct (drop_layer I l st) as [[u| |f] st1]; cbn [fst snd]; [apply IH, H|apply IH, H|].
  apply on_fault_inv. eapply inv_perm; [apply Permutation_rev|exact H].
Qed.
Lemma fail_in_inv {A} l ls st lg : Inv lg (l :: ls) -> done (@fail_in _ _ _ _ LI A l ls (st, lg)).
Proof.
  intros H. unfold fail_in. rewrite drop_logged. apply inv_drop in H.
  destruct (drop_layer I l st) as [[u| |f] st1]; cbn [fst snd]; [apply fail_inv, H|apply fail_inv, H|apply on_fault_inv, H].
Qed.

Variable oc : bool.
Variable inp : bytes.

Lemma unwind_not_ok {A} ls : forall st (a : A), fst (@unwind _ _ _ _ LI A ls st) <> Ok a.
Proof.
  induction ls as [|l ls IH]; intros st a; cbn [unwind]; [discriminate|].
  destruct (drop_layer LI l st) as [[u| |[]] st1]; try apply IH; discriminate.
Qed.
Lemma on_fault_bad {A} f ls st (a : A) : fst (@on_fault _ _ _ _ LI A f ls st) <> Ok a.
Proof. destruct f; cbn [on_fault]; try discriminate. apply unwind_not_ok. Qed.
Lemma fail_bad {A} ls : forall st (a : A), fst (@fail _ _ _ _ LI A ls st) <> Ok a.
Proof.
  induction ls as [|l ls IH]; intros st a; cbn [fail]; [discriminate|].
  destruct (drop_layer LI l st) as [[u| |f] st1]; try apply IH. apply on_fault_bad.
Qed.
Lemma fail_in_bad {A} l ls st (a : A) : fst (@fail_in _ _ _ _ LI A l ls st) <> Ok a.
Proof. unfold fail_in. destruct (drop_layer LI l st) as [[u| |f] st1]; first [apply fail_bad|apply on_fault_bad]. Qed.

(** What holds after a part of the driver: [post P x] is P of a normal result, [done] of an exit. *)
Definition post {A} (P : A -> list call -> Prop) (x : res A * (St * list call)) : Prop :=
  match fst x with Ok a => P a (snd (snd x)) | _ => done x end.
Lemma post_exit {A} (P : A -> list call -> Prop) x : (forall a, fst x <> Ok a) -> done x -> post P x.
Proof. intros H D. unfold post. destruct (fst x) eqn:E; auto. destruct (H a eq_refl). Qed.

Definition PI (o : @inner_out V SH MH) (lg : list call) : Prop :=
  match o with IBreak _ _ l stack => Inv lg (l :: map snd stack) | IOuter _ => Inv lg [] end.
Lemma close_logged c l st lg ls : Inv lg ls -> exists lg', Inv lg' ls /\
  close_layer LI c l (st, lg) = (fst (close_layer I c l st), (snd (close_layer I c l st), lg')).
Proof.
  intros H. destruct l as [q|m]; cbn [close_layer].
  - destruct (c =? 93)%Z; [|exists lg; auto]. exists (lg ++ [CSeqFinish q]). split; [apply inv_other; auto|reflexivity].
  - destruct (c =? 125)%Z; [|exists lg; auto]. exists (lg ++ [CMapFinish m]). split; [apply inv_other; auto|reflexivity].
Qed.
Lemma inner_inv fuel : forall d ac v l stack st lg, Inv lg (l :: map snd stack) ->
  post PI (inner LI inp fuel d ac v l stack (st, lg)).
Proof.
  induction fuel as [|fuel IH]; intros d ac v l stack st lg H; cbn [inner]; [intros K; discriminate|].
  destruct (parse_whitespace inp d) as [[o d1]| |e]; [|apply post_exit; [apply fail_in_bad|apply fail_in_inv, H]|apply post_exit; [apply on_fault_bad|apply on_fault_inv, H]].
  destruct (_ && ac); [exact H|]. destruct (_ || _)%bool.
  - destruct (close_logged (match o with Some c => c | None => 0%Z end) l st lg _ H) as (lg' & H' & ->).
    destruct (close_layer I _ l st) as [[u| |e] st1]; cbn [fst snd];
      [|apply post_exit; [apply fail_in_bad|apply fail_in_inv, H']|apply post_exit; [apply on_fault_bad|apply on_fault_inv, H']].
    rewrite drop_logged. apply inv_drop in H'. destruct (drop_layer I l st1) as [[w| |e] st2]; cbn [fst snd];
      [| |apply post_exit; [apply on_fault_bad|apply on_fault_inv, H']];
      (destruct stack as [|[v' l'] stack']; [exact H'|apply IH, H']).
  - destruct ac; [apply post_exit; [apply fail_in_bad|apply fail_in_inv, H]|exact H].
Qed.
Definition PO (o : lex * V * list (V * lay)) (lg : list call) : Prop := Inv lg (map snd (snd o)).
Lemma open_inv d v l stack st lg : Inv lg (l :: map snd stack) -> post PO (open_item LI oc inp d v l stack (st, lg)).
Proof.
  intros H. destruct l as [q|m]; cbn [open_item].
  - cbn [logged s_element]. unfold log_call at 1. cbn [fst snd]. assert (H' : Inv (lg ++ [CElement q]) (LSeq q :: map snd stack)) by (apply inv_other; auto).
    fold LI. destruct (s_element I q st) as [[w| |e] st1]; cbn [fst snd];
      [exact H'|apply post_exit; [apply fail_in_bad|apply fail_in_inv, H']|apply post_exit; [apply on_fault_bad|apply on_fault_inv, H']].
  - destruct (parse_whitespace inp d) as [[o d1]| |e]; [|apply post_exit; [apply fail_in_bad|apply fail_in_inv, H]|apply post_exit; [apply on_fault_bad|apply on_fault_inv, H]].
    destruct (match o with Some c => (c =? 34)%Z | None => false end); [|apply post_exit; [apply fail_in_bad|apply fail_in_inv, H]].
    destruct (parse_str oc inp (bump d1)) as [[key d2]| |e]; [|apply post_exit; [apply fail_in_bad|apply fail_in_inv, H]|apply post_exit; [apply on_fault_bad|apply on_fault_inv, H]].
    cbn [logged m_key]. unfold log_call at 1. cbn [fst snd]. assert (H' : Inv (lg ++ [CKey m key]) (LMap m :: map snd stack)) by (apply inv_other; auto).
    fold LI. destruct (m_key I m key st) as [[w| |e] st1]; cbn [fst snd];
      [|apply post_exit; [apply fail_in_bad|apply fail_in_inv, H']|apply post_exit; [apply on_fault_bad|apply on_fault_inv, H']].
    destruct (parse_whitespace inp d2) as [[o2 d3]| |e]; [|apply post_exit; [apply fail_in_bad|apply fail_in_inv, H']|apply post_exit; [apply on_fault_bad|apply on_fault_inv, H']].
    destruct (match o2 with Some c => (c =? 58)%Z | None => false end); [exact H'|apply post_exit; [apply fail_in_bad|apply fail_in_inv, H']].
Qed.
Definition PT (o : @turn_out V SH MH) (lg : list call) : Prop :=
  match o with TNext _ _ stack => Inv lg (map snd stack) | TEnd _ => Inv lg [] end.
Lemma after_inv d ac v l stack st lg : Inv lg (l :: map snd stack) -> post PT (after_value LI oc inp d ac v l stack (st, lg)).
Proof.
  intros H. unfold after_value. pose proof (inner_inv (S (len inp)) d ac v l stack st lg H) as HI.
  destruct (inner LI inp (S (len inp)) d ac v l stack (st, lg)) as [[[d1 v1 l1 stack1|d1]| |e] [st1 lg1]]; unfold post in HI; cbn [fst snd PI] in HI; try exact HI.
  pose proof (open_inv d1 v1 l1 stack1 st1 lg1 HI) as HO.
  destruct (open_item LI oc inp d1 v1 l1 stack1 (st1, lg1)) as [[[[d2 v2] stack2]| |e] [st2 lg2]]; unfold post in HO; cbn [fst snd] in HO; exact HO.
Qed.
Definition PD (o : option lay) (ls : list lay) (lg : list call) : Prop := Inv lg (match o with Some l => l :: ls | None => ls end).
Lemma dispatch_inv v ev st lg ls : Inv lg ls -> exists lg',
  dispatch LI v ev (st, lg) = (fst (dispatch I v ev st), (snd (dispatch I v ev st), lg')) /\
  match fst (dispatch I v ev st) with Ok (Some l) => Inv lg' (l :: ls) | _ => Inv lg' ls end.
Proof.
  intros H. destruct ev; cbn [dispatch logged v_null v_bool v_str v_neg v_nonneg v_float v_seq v_map]; unfold log_call; cbn [fst snd];
    (eexists; split; [reflexivity|]).
  1-6: match goal with |- match bind (fst ?x) _ with _ => _ end => destruct (fst x) end; cbn [bind]; apply inv_other; auto.
  - destruct (fst (v_seq I v st)) as [q| |f]; cbn [bind opened]; [apply inv_open; auto|apply inv_other; auto..].
  - destruct (fst (v_map I v st)) as [q| |f]; cbn [bind opened]; [apply inv_open; auto|apply inv_other; auto..].
Qed.
Lemma turn_inv d v stack st lg : Inv lg (map snd stack) -> post PT (turn LI oc inp d v stack (st, lg)).
Proof.
  intros H. unfold turn. destruct (event_next oc inp d) as [[ev d1]| |e]; [|apply post_exit; [apply fail_bad|apply fail_inv, H]|apply post_exit; [apply on_fault_bad|apply on_fault_inv, H]].
  destruct (dispatch_inv v ev st lg _ H) as (lg' & -> & H'). destruct (dispatch I v ev st) as [[[l|]| |e] st1]; cbn [fst snd] in *.
  - apply after_inv, H'.
  - destruct stack as [|[v' l'] stack']; [exact H'|apply after_inv, H'].
  - apply post_exit; [apply fail_bad|apply fail_inv, H'].
  - apply post_exit; [apply on_fault_bad|apply on_fault_inv, H'].
Qed.
Lemma loop_inv fuel : forall d v stack st lg, Inv lg (map snd stack) -> done (outer_loop LI oc inp fuel d v stack (st, lg)).
Proof.
  induction fuel as [|fuel IH]; intros d v stack st lg H; cbn [outer_loop]; [intros K; discriminate|].
  pose proof (turn_inv d v stack st lg H) as HT.
  destruct (turn LI oc inp d v stack (st, lg)) as [[[d1 v1 stack1|d1]| |e] [st1 lg1]]; unfold post in HT; cbn [fst snd PT] in HT; try exact HT.
  - apply IH, HT.
  - intros _. exact HT.
Qed.
Theorem released_once v st : 
  orderly (fst (from_str_impl LI oc inp v (st, []))) = true ->
  let log := snd (snd (from_str_impl LI oc inp v (st, []))) in
  Permutation (flat_map handed_out log) (flat_map dropped log).
Proof.
  intros H. pose proof (loop_inv (S (len inp)) (mklex 0 []) v [] st [] (perm_nil _) H) as K. unfold Inv in K. rewrite app_nil_r in K. exact K.
Qed.
End Released.
