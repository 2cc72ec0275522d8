(** The driver loop walks the event tree of its input ([feed]), for every
    implementation of Visitor, Seq and Map and every input. *)
From Coq Require Import String ZArith List Bool Lia Floats.SpecFloat.
From Verif Require Import Base Utf8 Utf8Facts F64 Lexer Driver Grammar LexSpec LexFacts RunFacts LexNumFacts Tree TreeFacts.
Import ListNotations.
Open Scope Z_scope.

Lemma ptree_ind' (P : ptree -> Prop) :
  P PBad -> (forall ev, P (PLeaf ev)) ->
  (forall l c, Forall P l -> P (PSeq l c)) ->
  (forall l c, Forall (fun kt => P (snd kt)) l -> P (PMap l c)) ->
  forall t, P t.
Proof.
  intros H1 H2 H3 H4. fix IH 1. intros [|ev|l c|l c]; [exact H1|apply H2| |].
  - apply H3. induction l as [|t l IHl]; constructor; [apply IH|exact IHl].
  - apply H4. induction l as [|[k t] l IHl]; constructor; [apply IH|exact IHl].
Qed.

(** ** Complete trees *)
Definition leaf_ev (ev : event) : bool :=
  match ev with ESeqStart | EMapStart => false | _ => true end.

Fixpoint complete (t : ptree) : bool :=
  match t with
  | PBad => false
  | PLeaf ev => leaf_ev ev
  | PSeq l c => forallb complete l && c
  | PMap l c => forallb (fun kt => complete (snd kt)) l && c
  end.

Definition has {A} (o : option A) : bool := match o with Some _ => true | None => false end.

Lemma parse_complete n :
  (forall s t o, pval n s = (t, o) -> complete t = has o) /\
  (forall f s l c o, pitems n f s = (l, c, o) -> forallb complete l && c = has o) /\
  (forall f s l c o, pmembers n f s = (l, c, o) ->
     forallb (fun kt => complete (snd kt)) l && c = has o).
Proof.
  induction n as [|n (IHv & IHi & IHm)].
  { split; [|split]; intros; cbn in *; congruence || (inversion H; reflexivity). }
  split; [|split].
  - intros s t o. cbn [pval].
    destruct (tok s) as [[ev s1]| |f]; [|intros [= <- <-]; reflexivity|intros [= <- <-]; reflexivity].
    destruct ev; try (intros [= <- <-]; reflexivity).
    + destruct (pitems n true s1) as [[l c] o'] eqn:E. intros [= <- <-]. cbn [complete].
      eapply IHi, E.
    + destruct (pmembers n true s1) as [[l c] o'] eqn:E. intros [= <- <-]. cbn [complete].
      eapply IHm, E.
  - intros f s l c o. cbn [pitems]. destruct (p_next f s) as [s1|x r|].
    + destruct (pval n s1) as [t [r|]] eqn:E1.
      * destruct (pitems n false r) as [[l' c'] o'] eqn:E2. intros [= <- <- <-].
        cbn [forallb]. apply IHv in E1. rewrite E1. cbn [has andb]. eapply IHi, E2.
      * intros [= <- <- <-]. apply IHv in E1. cbn [forallb]. rewrite E1. reflexivity.
    + destruct (x =? 93); intros [= <- <- <-]; reflexivity.
    + intros [= <- <- <-]; reflexivity.
  - intros f s l c o. rewrite pmembers_S. destruct (p_next f s) as [s1|x r|].
    + destruct (p_key s1) as [[k [s4|]]|]; try (intros [= <- <- <-]; reflexivity).
      destruct (pval n s4) as [t [r|]] eqn:E1.
      * destruct (pmembers n false r) as [[l' c'] o'] eqn:E2. intros [= <- <- <-].
        cbn [forallb snd]. apply IHv in E1. rewrite E1. cbn [has andb]. eapply IHm, E2.
      * intros [= <- <- <-]. apply IHv in E1. cbn [forallb snd]. rewrite E1. reflexivity.
    + destruct (x =? 125); intros [= <- <- <-]; reflexivity.
    + intros [= <- <- <-]; reflexivity.
Qed.

Lemma pv_complete s t o : pv s = (t, o) -> complete t = has o.
Proof. apply (proj1 (parse_complete _)). Qed.
Lemma pi_complete f s l c o : pi f s = (l, c, o) -> forallb complete l && c = has o.
Proof. apply (proj1 (proj2 (parse_complete _))). Qed.
Lemma pm_complete f s l c o : pm f s = (l, c, o) ->
  forallb (fun kt => complete (snd kt)) l && c = has o.
Proof. apply (proj2 (proj2 (parse_complete _))). Qed.

Section Facts.
Context {St V SH MH : Type}.
Variable I : iface St V SH MH.

Lemma on_fault_not_ok {A} f ls st (a : A) st' : on_fault I f ls st <> (Ok a, st').
Proof.
  destruct f; cbn [on_fault]; try discriminate. revert st. induction ls as [|l ls IH]; intros st; cbn [unwind]; [discriminate|].
  destruct (drop_layer I l st) as [[| |[]] st1]; try apply IH; discriminate.
Qed.
Lemma on_fault_cast {A B} f ls st :
  @on_fault _ _ _ _ I B f ls st =
  match @on_fault _ _ _ _ I A f ls st with
  | (Fault f, st1) => (Fault f, st1)
  | (_, st1) => (Err, st1)
  end.
Proof.
  destruct f; cbn [on_fault]; try reflexivity. revert st. induction ls as [|l ls IH]; intros st; cbn [unwind]; [reflexivity|].
  destruct (drop_layer I l st) as [[| |[]] st1]; try apply IH; reflexivity.
Qed.
(** Unwinding in two steps. *)
Lemma on_fault_app {A} f l ls st :
  match @on_fault _ _ _ _ I unit f [l] st with
  | (Fault f', st') => on_fault I f' ls st'
  | (_, st') => (Err, st')
  end = @on_fault _ _ _ _ I A f (l :: ls) st.
Proof.
  destruct f; cbn [on_fault]; try reflexivity. cbn [unwind]. destruct (drop_layer I l st) as [[| |[]] st1]; reflexivity.
Qed.
Lemma drop_err_not_ok l st u st' : drop_err I l st <> (Ok u, st').
Proof. unfold drop_err. destruct (drop_layer I l st) as [[| |] ?]; discriminate. Qed.

(** A walk of an incomplete tree does not succeed. *)
Lemma feed_items_complete l c s st u st' :
  Forall (fun t => forall v st u st', feed I t v st = (Ok u, st') -> complete t = true) l ->
  feed_items I (feed I) s l c st = (Ok u, st') -> forallb complete l && c = true.
Proof.
  intros H. revert st. induction H as [|t l Ht Hl IH]; intros st; cbn [feed_items forallb].
  - unfold finish_layer. destruct c; [reflexivity|]. intros E. apply drop_err_not_ok in E. easy.
  - destruct (s_element I s st) as [[v| |] st1];
      [|intros E; apply drop_err_not_ok in E; easy|intros E; apply on_fault_not_ok in E; easy].
    destruct (feed I t v st1) as [[x| |] st2] eqn:E;
      [|intros K; apply drop_err_not_ok in K; easy|intros K; apply on_fault_not_ok in K; easy].
    intros K. rewrite (Ht _ _ _ _ E). cbn [andb]. eapply IH, K.
Qed.
Lemma feed_members_complete l c m st u st' :
  Forall (fun kt => forall v st u st', feed I (snd kt) v st = (Ok u, st') -> complete (snd kt) = true) l ->
  feed_members I (feed I) m l c st = (Ok u, st') ->
  forallb (fun kt => complete (snd kt)) l && c = true.
Proof.
  intros H. revert st. induction H as [|[k t] l Ht Hl IH]; intros st; cbn [feed_members forallb].
  - unfold finish_layer. destruct c; [reflexivity|]. intros E. apply drop_err_not_ok in E. easy.
  - destruct (m_key I m k st) as [[v| |] st1];
      [|intros E; apply drop_err_not_ok in E; easy|intros E; apply on_fault_not_ok in E; easy].
    destruct (feed I t v st1) as [[x| |] st2] eqn:E;
      [|intros K; apply drop_err_not_ok in K; easy|intros K; apply on_fault_not_ok in K; easy].
    intros K. cbn [snd] in *. rewrite (Ht _ _ _ _ E). cbn [andb]. eapply IH, K.
Qed.
Lemma feed_complete t v st u st' : feed I t v st = (Ok u, st') -> complete t = true.
Proof.
  revert v st u st'. induction t using ptree_ind'; intros v st u st'; cbn [feed complete].
  - discriminate.
  - destruct ev; cbn [leaf_ev]; auto; discriminate.
  - destruct (v_seq I v st) as [[s| |] st1]; try discriminate.
    eapply feed_items_complete; eassumption.
  - destruct (v_map I v st) as [[s| |] st1]; try discriminate.
    eapply feed_members_complete; eassumption.
Qed.
Lemma feed_items_complete' l c s st u st' :
  feed_items I (feed I) s l c st = (Ok u, st') -> forallb complete l && c = true.
Proof. apply feed_items_complete. apply Forall_forall. intros t _. apply feed_complete. Qed.
Lemma feed_members_complete' l c m st u st' :
  feed_members I (feed I) m l c st = (Ok u, st') ->
  forallb (fun kt => complete (snd kt)) l && c = true.
Proof. apply feed_members_complete. apply Forall_forall. intros t _. apply feed_complete. Qed.

(** ** fail *)
Lemma fail_not_ok {A} ls st (a : A) st' : fail I ls st <> (Ok a, st').
Proof.
  revert st. induction ls as [|l ls IH]; intros st; cbn [fail]; [discriminate|].
  destruct (drop_layer I l st) as [[| |] st1]; try apply IH. apply on_fault_not_ok.
Qed.
Lemma fail_cast {A B} ls st :
  @fail _ _ _ _ I B ls st =
  match @fail _ _ _ _ I A ls st with
  | (Fault f, st1) => (Fault f, st1)
  | (_, st1) => (Err, st1)
  end.
Proof.
  revert st. induction ls as [|l ls IH]; intros st; cbn [fail]; [reflexivity|].
  destruct (drop_layer I l st) as [[| |] st1]; try apply IH. apply on_fault_cast.
Qed.
Lemma fail_in_not_ok {A} l ls st (a : A) st' : fail_in I l ls st <> (Ok a, st').
Proof. unfold fail_in. destruct (drop_layer I l st) as [[| |] st1]; first [apply fail_not_ok|apply on_fault_not_ok]. Qed.
Lemma fail_in_cast {A B} l ls st :
  @fail_in _ _ _ _ I B l ls st =
  match @fail_in _ _ _ _ I A l ls st with
  | (Fault f, st1) => (Fault f, st1)
  | (_, st1) => (Err, st1)
  end.
Proof. unfold fail_in. destruct (drop_layer I l st) as [[| |] st1]; first [apply fail_cast|apply on_fault_cast]. Qed.

(** The order in which Deserializer::drop and the local variable release layers is the
    same as long as no drop panics. If one does, the process is panicking and only
    drops follow: the two states differ by drops. *)
Variable Eqv : St -> St -> Prop.
Hypothesis Eqv_refl : forall st, Eqv st st.
Hypothesis Eqv_sym : forall st st', Eqv st st' -> Eqv st' st.
Hypothesis Eqv_trans : forall st st1 st', Eqv st st1 -> Eqv st1 st' -> Eqv st st'.
Hypothesis Eqv_drop : forall l st, Eqv st (snd (drop_layer I l st)).
Definition agree (x y : res unit * St) : Prop :=
  x = y \/ (~ quiet_drops I /\ is_fault (fst x) = true /\ is_fault (fst y) = true /\ Eqv (snd x) (snd y)).
Lemma agree_refl x : agree x x.
Proof. left. reflexivity. Qed.
Lemma agree_sym x y : agree x y -> agree y x.
Proof. intros [->|(A & B & C & D)]; [left; reflexivity|right]. auto. Qed.
Lemma agree_trans x y z : agree x y -> agree y z -> agree x z.
Proof.
  intros [->|(A & B & C & D)] [->|(A' & B' & C' & D')]; [left; reflexivity|right; auto|right; auto|right].
  split; [exact A|]. split; [exact B|]. split; [exact C'|]. eapply Eqv_trans; eassumption.
Qed.
Lemma unwind_drops {A} ls st : is_fault (fst (@unwind _ _ _ _ I A ls st)) = true /\ Eqv st (snd (@unwind _ _ _ _ I A ls st)).
Proof.
  revert st. induction ls as [|l ls IH]; intros st; cbn [unwind]; [split; [reflexivity|apply Eqv_refl]|].
  pose proof (Eqv_drop l st) as H. destruct (drop_layer I l st) as [[| |[]] st1]; cbn [snd] in H;
    try (destruct (IH st1) as [IH1 IH2]; split; [exact IH1|eapply Eqv_trans; [exact H|exact IH2]]); (split; [reflexivity|exact H]).
Qed.
Lemma fail_cons l ls st : agree (fail I (l :: ls) st) (fail_in I l ls st).
Proof.
  unfold fail_in. cbn [fail]. destruct (drop_layer I l st) as [[| |f] st1] eqn:E; try (left; reflexivity).
  destruct f; try (left; reflexivity). right. cbn [on_fault]. split; [|split; [apply unwind_drops|split; [apply unwind_drops|]]].
  - intros HQ. apply (HQ l st). rewrite E. reflexivity.
  - eapply Eqv_trans; [apply Eqv_sym|]; apply unwind_drops.
Qed.

(** ** What remains to be done with a stack of open layers *)
Section Resume.
Variable resume : list (layer SH MH) -> bytes -> St -> res unit * St.
Definition andthen (r : res unit * St) (o : option bytes) (ls : list (layer SH MH))
  : res unit * St :=
  match r with
  | (Ok _, st1) =>
      match o with Some r' => resume ls r' st1 | None => (Fault FPanic, st1) end
  | (Err, st1) => fail I ls st1
  | (Fault f, st1) => on_fault I f ls st1
  end.
Definition cont_with (first : bool) (l : layer SH MH) (ls : list (layer SH MH)) (r : bytes) (st : St) :=
  match l with
  | LSeq s => let '(items, c, o) := pi first r in andthen (feed_items I (feed I) s items c st) o ls
  | LMap m => let '(items, c, o) := pm first r in andthen (feed_members I (feed I) m items c st) o ls
  end.
End Resume.
Fixpoint resume (ls : list (layer SH MH)) (r : bytes) (st : St) : res unit * St :=
  match ls with
  | [] => (match skip_ws r with [] => Ok tt | _ :: _ => Err end, st)
  | l :: ls' => cont_with (fun _ => resume ls') false l ls' r st
  end.
Definition cont := cont_with resume.
Definition run_val (s : bytes) (v : V) (ls : list (layer SH MH)) (st : St) :=
  let '(t, o) := pv s in andthen resume (feed I t v st) o ls.

Lemma resume_cons l ls r st : resume (l :: ls) r st = cont false l ls r st.
Proof. destruct l; reflexivity. Qed.

Lemma andthen_drop l ls st o :
  andthen resume (drop_err I l st) o ls = fail_in I l ls st.
Proof.
  unfold drop_err, fail_in. destruct (drop_layer I l st) as [[| |] st1]; reflexivity.
Qed.
Lemma andthen_drop_pushed l ls st o o' :
  agree (andthen resume (drop_err I l st) o ls) (andthen resume (Err, st) o' (l :: ls)).
Proof. rewrite andthen_drop. cbn [andthen]. apply agree_sym, fail_cons. Qed.
Lemma andthen_fault f l ls st o :
  andthen resume (on_fault I f [l] st) o ls = on_fault I f (l :: ls) st.
Proof.
  rewrite <- (on_fault_app f l ls st). pose proof (@on_fault_not_ok unit f [l] st) as K.
  destruct (on_fault I f [l] st) as [[u| |f'] st1] eqn:E; cbn [andthen]; [destruct (K u st1 eq_refl)| |reflexivity].
  exfalso. clear -E. destruct f; cbn [on_fault] in E; try discriminate. cbn [unwind] in E.
  destruct (drop_layer I l st) as [[| |[]] ?]; discriminate.
Qed.

Lemma cont_eq first l ls s st :
  agree (cont first l ls s st)
  (match p_next first s with
  | NBroken => fail_in I l ls st
  | NClose c r =>
      match close_layer I c l st with
      | (Fault e, st1) => on_fault I e (l :: ls) st1
      | (Err, st1) => fail_in I l ls st1
      | (Ok _, st1) =>
          match drop_layer I l st1 with
          | (Fault e, st2) => on_fault I e ls st2
          | (_, st2) => resume ls r st2
          end
      end
  | NItem s1 =>
      match l with
      | LSeq h =>
          match s_element I h st with
          | (Fault e, st1) => on_fault I e (l :: ls) st1
          | (Err, st1) => fail_in I l ls st1
          | (Ok v, st1) => run_val s1 v (l :: ls) st1
          end
      | LMap h =>
          match p_key s1 with
          | None => fail_in I l ls st
          | Some (k, o) =>
              match m_key I h k st with
              | (Fault e, st1) => on_fault I e (l :: ls) st1
              | (Err, st1) => fail_in I l ls st1
              | (Ok v, st1) =>
                  match o with
                  | None => fail_in I l ls st1
                  | Some s4 => run_val s4 v (l :: ls) st1
                  end
              end
          end
      end
  end).
Proof.
  destruct l as [h|h]; unfold cont, cont_with.
  - rewrite pi_eq. destruct (p_next first s) as [s1|c r|].
    + unfold run_val. destruct (pv s1) as [t [r1|]] eqn:EV.
      * destruct (pi false r1) as [[l c] o] eqn:E1. cbn [feed_items].
        destruct (s_element I h st) as [[v| |] st1]; [|(left; apply andthen_drop)|(left; apply andthen_fault)].
        destruct (feed I t v st1) as [[x| |] st2]; [|apply andthen_drop_pushed|(left; apply andthen_fault)].
        cbn [andthen]. rewrite resume_cons. unfold cont, cont_with. rewrite E1. first [left; reflexivity|reflexivity].
      * cbn [feed_items].
        destruct (s_element I h st) as [[v| |] st1]; [|(left; apply andthen_drop)|(left; apply andthen_fault)].
        destruct (feed I t v st1) as [[x| |] st2] eqn:EF; [|apply andthen_drop_pushed|(left; apply andthen_fault)].
        apply feed_complete in EF. apply pv_complete in EV. cbn [has] in EV. congruence.
    + cbn [close_layer]. destruct (c =? 93); cbn [feed_items].
      * unfold finish_layer. destruct (s_finish I h st) as [[u| |] st1];
          [|(left; apply andthen_drop)|(left; apply andthen_fault)].
        destruct (drop_layer I (LSeq h) st1) as [[| |] st2]; first [left; reflexivity|reflexivity].
      * left; apply andthen_drop.
    + left; apply andthen_drop.
  - rewrite pm_eq. destruct (p_next first s) as [s1|c r|].
    + destruct (p_key s1) as [[k [s4|]]|] eqn:EK.
      * unfold run_val. destruct (pv s4) as [t [r1|]] eqn:EV.
        -- destruct (pm false r1) as [[l c] o] eqn:E1. cbn [feed_members].
           destruct (m_key I h k st) as [[v| |] st1]; [|(left; apply andthen_drop)|(left; apply andthen_fault)].
           destruct (feed I t v st1) as [[x| |] st2]; [|apply andthen_drop_pushed|(left; apply andthen_fault)].
           cbn [andthen]. rewrite resume_cons. unfold cont, cont_with. rewrite E1. first [left; reflexivity|reflexivity].
        -- cbn [feed_members].
           destruct (m_key I h k st) as [[v| |] st1]; [|(left; apply andthen_drop)|(left; apply andthen_fault)].
           destruct (feed I t v st1) as [[x| |] st2] eqn:EF; [|apply andthen_drop_pushed|(left; apply andthen_fault)].
           apply feed_complete in EF. apply pv_complete in EV. cbn [has] in EV. congruence.
      * cbn [feed_members].
        destruct (m_key I h k st) as [[v| |] st1]; [|(left; apply andthen_drop)|(left; apply andthen_fault)].
        cbn [feed]. left; apply andthen_drop.
      * cbn [feed_members finish_layer]. left; apply andthen_drop.
    + cbn [close_layer]. destruct (c =? 125); cbn [feed_members].
      * unfold finish_layer. destruct (m_finish I h st) as [[u| |] st1];
          [|(left; apply andthen_drop)|(left; apply andthen_fault)].
        destruct (drop_layer I (LMap h) st1) as [[| |] st2]; first [left; reflexivity|reflexivity].
      * left; apply andthen_drop.
    + left; apply andthen_drop.
Qed.

(** ** The driver *)
Variable oc : bool.
Variable inp : bytes.
Notation Sfx := (Sfx inp).
Notation lx := (lx inp).

Definition finish_turn (F : nat) (r : res (turn_out (V:=V) (SH:=SH) (MH:=MH)) * St) : res unit * St :=
  match r with
  | (Fault e, st1) => (Fault e, st1)
  | (Err, st1) => (Err, st1)
  | (Ok (TEnd d1), st1) => (end_of_doc inp d1, st1)
  | (Ok (TNext d1 v1 stack1), st1) => outer_loop I oc inp F d1 v1 stack1 st1
  end.

Definition after_inner (r : res (inner_out (V:=V) (SH:=SH) (MH:=MH)) * St)
  : res (turn_out (V:=V) (SH:=SH) (MH:=MH)) * St :=
  match r with
  | (Fault e, st1) => (Fault e, st1)
  | (Err, st1) => (Err, st1)
  | (Ok (IOuter d1), st1) => (Ok (TEnd d1), st1)
  | (Ok (IBreak d1 v1 l1 stack1), st1) =>
      match open_item I oc inp d1 v1 l1 stack1 st1 with
      | (Fault e, st2) => (Fault e, st2)
      | (Err, st2) => (Err, st2)
      | (Ok (d2, v2, stack2), st2) => (Ok (TNext d2 v2 stack2), st2)
      end
  end.

Lemma after_inner_fail l ls st F :
  finish_turn F (after_inner (fail_in I l ls st)) = fail_in I l ls st.
Proof.
  pose proof (@fail_in_not_ok (@inner_out V SH MH) l ls st) as K.
  rewrite (@fail_in_cast (@inner_out V SH MH) unit l ls st).
  destruct (fail_in I l ls st) as [[a| |] st1]; [|reflexivity|reflexivity].
  exfalso. eapply K. reflexivity.
Qed.
Lemma after_inner_fault f ls st F :
  finish_turn F (after_inner (on_fault I f ls st)) = on_fault I f ls st.
Proof.
  pose proof (@on_fault_not_ok (@inner_out V SH MH) f ls st) as K.
  rewrite (@on_fault_cast (@inner_out V SH MH) unit f ls st).
  destruct (on_fault I f ls st) as [[a| |] st1]; [|reflexivity|reflexivity].
  exfalso. eapply K. reflexivity.
Qed.

Definition after_open (r : res (lex * V * list (V * layer SH MH)) * St) : res (turn_out (V:=V) (SH:=SH) (MH:=MH)) * St :=
  match r with
  | (Fault e, st2) => (Fault e, st2)
  | (Err, st2) => (Err, st2)
  | (Ok (d2, v2, stack2), st2) => (Ok (TNext d2 v2 stack2), st2)
  end.
Lemma open_fail l ls st F :
  finish_turn F (after_open (fail_in I l ls st)) = fail_in I l ls st.
Proof.
  pose proof (@fail_in_not_ok (lex * V * list (V * layer SH MH)) l ls st) as K.
  rewrite (@fail_in_cast (lex * V * list (V * layer SH MH)) unit l ls st).
  destruct (fail_in I l ls st) as [[a| |] st1]; [|reflexivity|reflexivity].
  exfalso. eapply K. reflexivity.
Qed.
Lemma open_fault f ls st F :
  finish_turn F (after_open (on_fault I f ls st)) = on_fault I f ls st.
Proof.
  pose proof (@on_fault_not_ok (lex * V * list (V * layer SH MH)) f ls st) as K.
  rewrite (@on_fault_cast (lex * V * list (V * layer SH MH)) unit f ls st).
  destruct (on_fault I f ls st) as [[a| |] st1]; [|reflexivity|reflexivity].
  exfalso. eapply K. reflexivity.
Qed.

Lemma turn_fail ls st F :
  finish_turn F (fail I ls st) = fail I ls st.
Proof.
  pose proof (@fail_not_ok (@turn_out V SH MH) ls st) as K.
  rewrite (@fail_cast (@turn_out V SH MH) unit ls st).
  destruct (fail I ls st) as [[a| |] st1]; [|reflexivity|reflexivity].
  exfalso. eapply K. reflexivity.
Qed.
Lemma turn_fault f ls st F :
  finish_turn F (on_fault I f ls st) = on_fault I f ls st.
Proof.
  pose proof (@on_fault_not_ok (@turn_out V SH MH) f ls st) as K.
  rewrite (@on_fault_cast (@turn_out V SH MH) unit f ls st).
  destruct (on_fault I f ls st) as [[a| |] st1]; [|reflexivity|reflexivity].
  exfalso. eapply K. reflexivity.
Qed.

Lemma end_of_doc_eq r b : Sfx r ->
  end_of_doc inp (lx r b) = match skip_ws r with [] => Ok tt | _ :: _ => Err end.
Proof.
  intros H. unfold end_of_doc. rewrite parse_whitespace_eq by exact H. cbn [bind].
  destruct (skip_ws r); reflexivity.
Qed.

Lemma consumes0_Sfx s r : consumes0 s r -> Sfx s -> Sfx r.
Proof. intros [->|H] K; [exact K|eapply consumes_Sfx; eassumption]. Qed.

Definition PA (s : bytes) : Prop := forall F b v stack st,
  Sfx s -> str_ok s = true -> digit_runs i32_MAX s -> (List.length s < F)%nat ->
  agree (outer_loop I oc inp F (lx s b) v stack st) (run_val s v (map snd stack) st).

Definition PB (s : bytes) : Prop := forall F fi first b v l stack st,
  Sfx s -> str_ok s = true -> digit_runs i32_MAX s -> (List.length s < F)%nat -> (List.length s < fi)%nat ->
  agree (finish_turn F (after_inner (inner I inp fi (lx s b) (negb first) v l stack st)))
    (cont first l (map snd stack) s st).

(** Opening an item. *)
Lemma open_item_eq F s b v l stack st :
  (forall r, (List.length r <= List.length s)%nat -> PA r) ->
  Sfx s -> str_ok s = true -> digit_runs i32_MAX s -> (List.length s < F)%nat ->
  agree (finish_turn F (after_open (open_item I oc inp (lx s b) v l stack st)))
  (match l with
  | LSeq h =>
      match s_element I h st with
      | (Fault e, st1) => on_fault I e (l :: map snd stack) st1
      | (Err, st1) => fail_in I l (map snd stack) st1
      | (Ok v, st1) => run_val s v (l :: map snd stack) st1
      end
  | LMap h =>
      match p_key s with
      | None => fail_in I l (map snd stack) st
      | Some (k, o) =>
          match m_key I h k st with
          | (Fault e, st1) => on_fault I e (l :: map snd stack) st1
          | (Err, st1) => fail_in I l (map snd stack) st1
          | (Ok v, st1) =>
              match o with
              | None => fail_in I l (map snd stack) st1
              | Some s4 => run_val s4 v (l :: map snd stack) st1
              end
          end
      end
  end).
Proof.
  intros HA Hs Hok HR HF. destruct l as [h|h]; cbn [open_item].
  - destruct (s_element I h st) as [[v1| |] st1].
    + cbn [finish_turn after_open]. apply (HA s (le_n _) F b v1 ((v, LSeq h) :: stack) st1); assumption.
    + left; apply open_fail.
    + left; apply open_fault.
  - rewrite parse_whitespace_eq by exact Hs. unfold p_key.
    pose proof (skip_ws_consumes s) as W.
    pose proof (consumes0_Sfx _ _ W Hs) as Hs1. pose proof (consumes0_ok _ _ W Hok) as Hok1.
    apply consumes0_len in W. pose proof (passes_runs _ _ _ (skip_ws_passes s) HR) as HR1.
    destruct (skip_ws s) as [|c s2]; [(left; apply open_fail)|].
    destruct (Z.eqb_spec c 34) as [->|]; [|(left; apply open_fail)].
    rewrite bump_cons by exact Hs1.
    pose proof (Sfx_tl _ _ _ Hs1) as Hs2.
    rewrite str_ok_ascii in Hok1 by reflexivity.
    pose proof (parse_str_eq oc inp s2 b Hs2 Hok1) as PS.
    destruct (p_string s2) as [[k s3]|] eqn:EP.
    2: { rewrite PS. left; apply open_fail. }
    destruct PS as (b' & -> & Hk).
    pose proof (passes_runs _ _ _ (p_string_passes _ _ _ EP) HR1) as HR3. apply p_string_consumes in EP.
    pose proof (consumes_Sfx _ _ _ EP Hs2) as Hs3. pose proof (consumes_ok _ _ EP Hok1) as Hok3.
    apply consumes_len in EP.
    pose proof (skip_ws_consumes s3) as W3.
    pose proof (consumes0_Sfx _ _ W3 Hs3) as Hs4. pose proof (consumes0_ok _ _ W3 Hok3) as Hok4.
    apply consumes0_len in W3. pose proof (passes_runs _ _ _ (skip_ws_passes s3) HR3) as HR4.
    rewrite parse_whitespace_eq by exact Hs3.
    destruct (skip_ws s3) as [|c' s4].
    { destruct (m_key I h k st) as [[v1| |] st1]; [(left; apply open_fail)|(left; apply open_fail)|(left; apply open_fault)]. }
    destruct (Z.eqb_spec c' 58) as [->|];
      (destruct (m_key I h k st) as [[v1| |] st1]; [|(left; apply open_fail)|(left; apply open_fault)]);
      [|(left; apply open_fail)].
    rewrite bump_cons by exact Hs4.
    pose proof (Sfx_tl _ _ _ Hs4) as Hs5.
    rewrite str_ok_ascii in Hok4 by reflexivity.
    apply runs_tl in HR4; [|lia]. cbn [finish_turn after_open]. cbn [List.length] in *.
    apply (HA s4 ltac:(lia) F b' v1 ((v, LMap h) :: stack) st1); (assumption || lia).
Qed.

Lemma PB_step s :
  (forall r, (List.length r < List.length s)%nat -> PB r) ->
  (forall r, (List.length r <= List.length s)%nat -> PA r) -> PB s.
Proof.
  intros HB HA F fi first b v l stack st Hs Hok HR HF Hfi.
  destruct fi as [|fi]; [lia|]. cbn [inner].
  rewrite parse_whitespace_eq by exact Hs. eapply agree_trans; [|apply agree_sym, cont_eq]. unfold p_next.
  pose proof (skip_ws_consumes s) as W.
  pose proof (consumes0_Sfx _ _ W Hs) as Hs1. pose proof (consumes0_ok _ _ W Hok) as Hok1.
  apply consumes0_len in W. pose proof (passes_runs _ _ _ (skip_ws_passes s) HR) as HR1.
  destruct (skip_ws s) as [|c s1] eqn:ES; cbn [List.length] in *.
  - change ((0 =? 44) && negb first) with false. change ((0 =? 93) || (0 =? 125)) with false.
    cbv iota. destruct first; cbn [negb].
    + cbn [after_inner]. apply open_item_eq; try assumption; cbn [List.length]; try lia.
      intros r Hr. apply HA. cbn [List.length] in Hr. lia.
    + left; apply after_inner_fail.
  - rewrite bump_cons by exact Hs1.
    assert (Hs2 : Sfx s1) by (eapply Sfx_tl, Hs1).
    destruct ((c =? 44) && negb first) eqn:E1.
    { apply andb_true_iff in E1. rewrite Z.eqb_eq in E1. destruct E1 as [-> E1].
      rewrite str_ok_ascii in Hok1 by reflexivity. apply runs_tl in HR1; [|lia].
      cbn [after_inner]. apply open_item_eq; try assumption; try lia.
      intros r Hr. apply HA. lia. }
    destruct ((c =? 93) || (c =? 125)) eqn:E2.
    { rewrite str_ok_ascii in Hok1.
      2: { rewrite orb_true_iff, !Z.eqb_eq in E2. apply inr_true. lia. }
      apply runs_tl in HR1; [|rewrite orb_true_iff, !Z.eqb_eq in E2; lia].
      destruct (close_layer I c l st) as [[u| |] st1]; [|(left; apply after_inner_fail)|(left; apply after_inner_fault)].
      destruct (drop_layer I l st1) as [[u'| |] st2].
      3: left; apply after_inner_fault.
      all: destruct stack as [|[v' l'] stack'].
      all: try (cbn [after_inner finish_turn map resume]; rewrite end_of_doc_eq by exact Hs2; left; reflexivity).
      all: cbn [map snd]; rewrite resume_cons;
        apply (HB s1 ltac:(lia) F fi false b v' l' stack' st2); (assumption || lia). }
    destruct first; cbn [negb].
    + cbn [after_inner]. apply open_item_eq; try assumption; cbn [List.length]; try lia.
      intros r Hr. apply HA. cbn [List.length] in Hr. lia.
    + left; apply after_inner_fail.
Qed.

Lemma outer_S F d v stack st :
  outer_loop I oc inp (S F) d v stack st = finish_turn F (turn I oc inp d v stack st).
Proof. reflexivity. Qed.

Lemma PA_step s : (forall r, (List.length r < List.length s)%nat -> PB r) -> PA s.
Proof.
  intros HB F b v stack st Hs Hok HR HF. destruct F as [|F]; [lia|].
  rewrite outer_S. unfold turn, run_val.
  pose proof (event_next_eq oc inp s b Hs Hok HR) as EN. rewrite pv_eq.
  destruct (tok s) as [[ev r]| |f] eqn:ET; [|rewrite EN; (left; apply turn_fail)|destruct EN].
  destruct EN as (b' & -> & Hev).
  pose proof (passes_runs _ _ _ (tok_passes _ _ _ ET) HR) as HRr. apply tok_consumes in ET.
  pose proof (consumes_Sfx _ _ _ ET Hs) as Hr. pose proof (consumes_ok _ _ ET Hok) as Hokr.
  apply consumes_len in ET. pose proof (Sfx_len _ _ Hs) as HL.
  assert (AV : forall first v l stack st,
    agree (finish_turn F (after_value I oc inp (lx r b') (negb first) v l stack st))
    (cont first l (map snd stack) r st)).
  { intros. apply (HB r); try assumption; try lia. unfold len. lia. }
  assert (PR : forall (q : res unit * St),
    agree (finish_turn F
      (match ((let* _ := fst q in Ok None), snd q) with
       | (Fault e, st1) => on_fault I e (map snd stack) st1
       | (Err, st1) => fail I (map snd stack) st1
       | (Ok (Some l), st1) => after_value I oc inp (lx r b') false v l stack st1
       | (Ok None, st1) =>
           match stack with
           | [] => (Ok (TEnd (lx r b')), st1)
           | (v', l') :: stack' => after_value I oc inp (lx r b') true v' l' stack' st1
           end
       end)) (andthen resume q (Some r) (map snd stack))).
  { intros [[u| |] st1]; cbn [bind fst snd]; [|(left; apply turn_fail)|(left; apply turn_fault)].
    destruct stack as [|[v' l'] stack'].
    - cbn [finish_turn map andthen resume]. rewrite end_of_doc_eq by exact Hr. left. reflexivity.
    - eapply agree_trans; [apply (AV false)|]. cbn [map snd andthen]. rewrite resume_cons. apply agree_refl. }
  destruct ev; cbn [dispatch feed]; try apply PR.
  - destruct (pi true r) as [[l c] o] eqn:EPI. cbn [feed].
    destruct (v_seq I v st) as [[h| |] st1]; cbn [bind fst snd]; [|(left; apply turn_fail)|(left; apply turn_fault)].
    eapply agree_trans; [apply (AV true)|]. unfold cont, cont_with. rewrite EPI. apply agree_refl.
  - destruct (pm true r) as [[l c] o] eqn:EPI. cbn [feed].
    destruct (v_map I v st) as [[h| |] st1]; cbn [bind fst snd]; [|(left; apply turn_fail)|(left; apply turn_fault)].
    eapply agree_trans; [apply (AV true)|]. unfold cont, cont_with. rewrite EPI. apply agree_refl.
Qed.

Lemma PAB n : forall s, (List.length s < n)%nat -> PA s /\ PB s.
Proof.
  induction n as [|n IH]; intros s Hs; [lia|].
  assert (A : forall r, (List.length r <= List.length s)%nat -> PA r).
  { intros r Hr. apply PA_step. intros q Hq. apply IH. lia. }
  split; [apply A; lia|]. apply PB_step; [|exact A]. intros r Hr. apply IH. lia.
Qed.

Definition walk_result (v : V) (st : St) : res unit * St :=
  let '(t, o) := pv inp in
  match feed I t v st with
  | (Ok _, st1) =>
      (match o with
       | Some r => match skip_ws r with [] => Ok tt | _ :: _ => Err end
       | None => Err end, st1)
  | (Err, st1) => (Err, st1)
  | (Fault f, st1) => (Fault f, st1)
  end.
Theorem from_str_impl_agree v st : str_ok inp = true -> digit_runs i32_MAX inp ->
  agree (from_str_impl I oc inp v st) (walk_result v st).
Proof.
  intros Hok HR. unfold from_str_impl, walk_result.
  assert (Hi : Sfx inp) by (exists []; reflexivity).
  replace (mklex 0 []) with (lx inp []).
  2: { unfold lx, posof. rewrite Nat.sub_diag. reflexivity. }
  eapply agree_trans; [apply (proj1 (PAB (S (List.length inp)) inp ltac:(lia))); (assumption || unfold len; lia)|].
  left. unfold run_val. destruct (pv inp) as [t o] eqn:EP. unfold andthen.
  destruct (feed I t v st) as [[u| |[]] st1] eqn:EF; try reflexivity.
  cbn [map resume]. destruct o; [reflexivity|].
  apply feed_complete in EF. apply pv_complete in EP. cbn in EP. congruence.
Qed.

(** A document that is a scalar (or does not even start) opens no layer. *)
Theorem from_str_impl_scalar v st : str_ok inp = true -> digit_runs i32_MAX inp ->
  match fst (pv inp) with PSeq _ _ | PMap _ _ => False | _ => True end ->
  from_str_impl I oc inp v st = walk_result v st.
Proof.
  intros Hok HR HT. unfold from_str_impl, walk_result.
  assert (Hi : Sfx inp) by (exists []; reflexivity).
  replace (mklex 0 []) with (lx inp []).
  2: { unfold lx, posof. rewrite Nat.sub_diag. reflexivity. }
  rewrite outer_S. unfold turn. pose proof (event_next_eq oc inp inp [] Hi Hok HR) as EN. rewrite pv_eq in *.
  destruct (tok inp) as [[ev r]| |f] eqn:ET; [|rewrite EN; reflexivity|destruct EN].
  destruct EN as (b' & -> & Hev).
  apply tok_consumes in ET. pose proof (consumes_Sfx _ _ _ ET Hi) as Hr.
  assert (PR : forall (q : res unit * St),
    finish_turn (len inp)
      (match ((let* _ := fst q in Ok None), snd q) with
       | (Fault e, st1) => on_fault I e [] st1
       | (Err, st1) => fail I [] st1
       | (Ok (Some l), st1) => after_value I oc inp (lx r b') false v l [] st1
       | (Ok None, st1) => (Ok (TEnd (lx r b')), st1)
       end) =
    match q with
    | (Ok _, st1) => (match skip_ws r with [] => Ok tt | _ :: _ => Err end, st1)
    | (Err, st1) => (Err, st1)
    | (Fault f, st1) => (Fault f, st1)
    end).
  { intros [[u| |[]] st1]; cbn [bind fst snd]; try reflexivity. cbn [finish_turn]. rewrite end_of_doc_eq by exact Hr. reflexivity. }
  destruct ev; cbn [dispatch feed]; try apply PR; exfalso;
    [destruct (pi true r) as [[l c] o]|destruct (pm true r) as [[l c] o]]; exact HT.
Qed.

End Facts.

Section Results.
Context {St V SH MH : Type}.
Variable I : iface St V SH MH.
Variable oc : bool.
Variable inp : bytes.
Variable v : V.
Variable st : St.
Hypothesis Hok : str_ok inp = true.
Hypothesis HR : digit_runs i32_MAX inp.

Lemma from_str_impl_cases :
  from_str_impl I oc inp v st = walk_result I inp v st \/
  (~ quiet_drops I /\ is_fault (fst (from_str_impl I oc inp v st)) = true /\ is_fault (fst (walk_result I inp v st)) = true).
Proof.
  destruct (from_str_impl_agree I (fun _ _ => True) (fun _ => Logic.I) (fun _ _ _ => Logic.I) (fun _ _ _ _ _ => Logic.I) (fun _ _ => Logic.I) oc inp v st Hok HR) as [H|(A & B & C & _)];
    [left; exact H|right; auto].
Qed.
(** Without panicking drops, from_str is the walk over the tree of its input. *)
Theorem from_str_impl_eq : quiet_drops I -> from_str_impl I oc inp v st = walk_result I inp v st.
Proof. intros HQ. destruct from_str_impl_cases as [H|(A & _)]; [exact H|contradiction]. Qed.
(** So it is whenever one of them ends without a fault. *)
Lemma from_str_impl_walk : is_fault (fst (walk_result I inp v st)) = false -> from_str_impl I oc inp v st = walk_result I inp v st.
Proof. intros H. destruct from_str_impl_cases as [K|(_ & _ & K)]; [exact K|congruence]. Qed.
Lemma from_str_impl_walk' : is_fault (fst (from_str_impl I oc inp v st)) = false -> from_str_impl I oc inp v st = walk_result I inp v st.
Proof. intros H. destruct from_str_impl_cases as [K|(_ & K & _)]; [exact K|congruence]. Qed.
End Results.
