(** The walk over a tree that is cut short makes the first calls of the walk over the
    whole tree. *)
From Coq Require Import String ZArith List Bool Lia Floats.SpecFloat.
From Verif Require Import Base Utf8 F64 Lexer Driver Grammar LexSpec Tree TreeFacts DriverFacts ParseSpec ParseFacts CutFacts.
Import ListNotations.
Open Scope Z_scope.

Section CutFeed.
Context {St V SH MH : Type}.
Variable I : iface St V SH MH.
Notation call := (call V SH MH).
Notation LI := (logged I).
Definition calls_only (l : list call) : list call := filter (fun c => negb (is_drop c)) l.
Lemma calls_app a b : calls_only (a ++ b) = calls_only a ++ calls_only b.
Proof. apply filter_app. Qed.
(** A last call of Seq::element. *)
Definition maybe_element (e : list call) : Prop := e = [] \/ exists q, e = [CElement q].

Definition made {A} (x : res A * (St * list call)) : list call := calls_only (snd (snd x)).
Definition starts_like (x y : res unit * (St * list call)) : Prop :=
  x = y \/ (fst x <> Ok tt /\ exists a b e, made x = a ++ e /\ made y = a ++ b /\ maybe_element e).

Lemma sim_made {A} N L (x : res A * _) y log B : sim N L x y log B -> exists l, made x = calls_only log ++ l.
Proof. intros (l & -> & _). exists (calls_only l). unfold made. cbn [snd]. apply calls_app. Qed.
Lemma feed_made t v st log : exists l, made (feed LI t v (st, log)) = calls_only log ++ l.
Proof. eapply sim_made. apply (feed_sim I t v st log). Qed.
Lemma items_made q l c st log : exists l', made (feed_items LI (feed LI) q l c (st, log)) = calls_only log ++ l'.
Proof. eapply sim_made. apply (items_sim I l c); apply Forall_forall; intros t _; exact (feed_sim I t). Qed.
Lemma members_made m l c st log : exists l', made (feed_members LI (feed LI) m l c (st, log)) = calls_only log ++ l'.
Proof. eapply sim_made. apply (members_sim I l c); apply Forall_forall; intros t _; exact (feed_sim I (snd t)). Qed.
Lemma drop_made ly sl : made (drop_err LI ly sl) = calls_only (snd sl) /\ fst (drop_err LI ly sl) <> Ok tt.
Proof.
  destruct sl as [st log]. unfold drop_err. destruct ly as [q|m]; cbn [drop_layer logged s_drop m_drop]; unfold log_call, made; cbn [fst snd].
  - destruct (s_drop I q st) as [[u| |f] st1]; cbn [fst snd]; rewrite calls_app; cbn; rewrite app_nil_r; (split; [reflexivity|discriminate]).
  - destruct (m_drop I m st) as [[u| |f] st1]; cbn [fst snd]; rewrite calls_app; cbn; rewrite app_nil_r; (split; [reflexivity|discriminate]).
Qed.
Lemma fault_made ly sl f : made (on_fault LI f [ly] sl : res unit * _) = calls_only (snd sl) /\ fst (on_fault LI f [ly] sl : res unit * _) <> Ok tt.
Proof.
  destruct (panic_dec f) as [->|N]; [|rewrite on_fault_other by exact N; split; [reflexivity|discriminate]].
  destruct sl as [st log]. cbn [on_fault unwind]. destruct ly as [q|m]; cbn [drop_layer logged s_drop m_drop]; unfold log_call, made; cbn [fst snd].
  - destruct (s_drop I q st) as [[u| |[]] st1]; cbn [fst snd]; rewrite calls_app; cbn; rewrite app_nil_r; (split; [reflexivity|discriminate]).
  - destruct (m_drop I m st) as [[u| |[]] st1]; cbn [fst snd]; rewrite calls_app; cbn; rewrite app_nil_r; (split; [reflexivity|discriminate]).
Qed.

(** What follows a child in a container: nothing but a drop when it failed. *)
Definition after (ly : layer SH MH) (k : St * list call -> res unit * (St * list call)) (x : res unit * (St * list call)) :=
  match x with
  | (Ok _, s) => k s
  | (Err, s) => drop_err LI ly s
  | (Fault f, s) => on_fault LI f [ly] s
  end.
Lemma after_made ly k y : (forall s, exists l, made (k s) = calls_only (snd s) ++ l) -> exists l, made (after ly k y) = made y ++ l.
Proof.
  intros Hk. destruct y as [[u| |f] s]; cbn [after].
  - apply Hk.
  - exists []. rewrite app_nil_r. apply drop_made.
  - exists []. rewrite app_nil_r. apply fault_made.
Qed.
Lemma after_failed ly k x : fst x <> Ok tt -> made (after ly k x) = made x /\ fst (after ly k x) <> Ok tt.
Proof.
  intros N. destruct x as [[[]| |f] s]; cbn [after]; [cbn in N; congruence|apply drop_made|apply fault_made].
Qed.
(** The child is the last one on the left, not on the right. *)
Lemma after_last ly k x y : (forall s, exists l, made (k s) = calls_only (snd s) ++ l) ->
  starts_like x y -> starts_like (after ly (fun s => drop_err LI ly s) x) (after ly k y).
Proof.
  intros Hk [->|(N & a & b & e & E1 & E2 & E3)].
  - destruct y as [[u| |f] s]; cbn [after]; [|left; reflexivity|left; reflexivity].
    right. destruct (drop_made ly s) as [D1 D2]. split; [exact D2|]. destruct (Hk s) as [l Hl].
    exists (calls_only (snd s)), l, []. rewrite app_nil_r. split; [exact D1|]. split; [exact Hl|left; reflexivity].
  - right. destruct (after_failed ly (fun s => drop_err LI ly s) x N) as [A1 A2]. split; [exact A2|]. destruct (after_made ly k y Hk) as [l Hl].
    exists a, (b ++ l), e. rewrite A1, Hl, E2, app_assoc. auto.
Qed.
Lemma after_same ly k k' x : (forall s, starts_like (k s) (k' s)) -> starts_like (after ly k x) (after ly k' x).
Proof. intros H. destruct x as [[u| |f] s]; cbn [after]; [apply H|left; reflexivity|left; reflexivity]. Qed.

Lemma items_cons q t l c s : feed_items LI (feed LI) q (t :: l) c s =
  match s_element LI q s with
  | (Ok v, s1) => after (LSeq q) (feed_items LI (feed LI) q l c) (feed LI t v s1)
  | (Err, s1) => drop_err LI (LSeq q) s1
  | (Fault f, s1) => on_fault LI f [LSeq q] s1
  end.
Proof. cbn [feed_items]. destruct (s_element LI q s) as [[v| |f] s1]; reflexivity. Qed.
Lemma members_cons m k t l c s : feed_members LI (feed LI) m ((k, t) :: l) c s =
  match m_key LI m k s with
  | (Ok v, s1) => after (LMap m) (feed_members LI (feed LI) m l c) (feed LI t v s1)
  | (Err, s1) => drop_err LI (LMap m) s1
  | (Fault f, s1) => on_fault LI f [LMap m] s1
  end.
Proof. cbn [feed_members]. destruct (m_key LI m k s) as [[v| |f] s1]; reflexivity. Qed.

Scheme Cut_i := Induction for Cut Sort Prop
  with CutItems_i := Induction for CutItems Sort Prop
  with CutMembers_i := Induction for CutMembers Sort Prop.

Theorem feed_cut t t' : Cut t t' -> forall v s, starts_like (feed LI t v s) (feed LI t' v s).
Proof.
  intros H. induction H using Cut_i with
    (P0 := fun l l' _ => forall q c s, starts_like (feed_items LI (feed LI) q l false s) (feed_items LI (feed LI) q l' c s))
    (P1 := fun l l' _ => forall m c s, starts_like (feed_members LI (feed LI) m l false s) (feed_members LI (feed LI) m l' c s)).
  - intros v [st log]. right. cbn [feed]. split; [discriminate|]. destruct (feed_made t v st log) as [l Hl].
    exists (calls_only log), l, []. rewrite app_nil_r. split; [reflexivity|]. split; [exact Hl|left; reflexivity].
  - intros v s. cbn [feed]. destruct (v_seq LI v s) as [[q| |f] s1]; [apply IHCut|left; reflexivity|left; reflexivity].
  - intros v s. cbn [feed]. destruct (v_map LI v s) as [[q| |f] s1]; [apply IHCut|left; reflexivity|left; reflexivity].
  - intros q cl [st log]. right. cbn [feed_items finish_layer]. destruct (drop_made (LSeq q) (st, log)) as [D1 D2]. split; [exact D2|].
    destruct (items_made q l' cl st log) as [l Hl]. exists (calls_only log), l, []. rewrite app_nil_r. split; [exact D1|]. split; [exact Hl|left; reflexivity].
  - intros q cl [st log]. right. rewrite items_cons. destruct (items_made q l' cl st log) as [l Hl].
    cbn [logged s_element]. unfold log_call. cbn [fst snd]. fold LI. set (s1 := (snd (s_element I q st), log ++ [CElement q])).
    assert (E : forall r, r = calls_only (snd s1) -> r = calls_only log ++ [CElement q]).
    { intros r ->. unfold s1. cbn [snd]. rewrite calls_app. reflexivity. }
    destruct (s_element I q st) as [[v| |f] st1]; cbn [fst].
    + cbn [feed after]. destruct (drop_made (LSeq q) s1) as [D1 D2]. split; [exact D2|].
      exists (calls_only log), l, [CElement q]. split; [apply E, D1|]. split; [exact Hl|right; eauto].
    + destruct (drop_made (LSeq q) s1) as [D1 D2]. split; [exact D2|].
      exists (calls_only log), l, [CElement q]. split; [apply E, D1|]. split; [exact Hl|right; eauto].
    + destruct (fault_made (LSeq q) s1 f) as [D1 D2]. split; [exact D2|].
      exists (calls_only log), l, [CElement q]. split; [apply E, D1|]. split; [exact Hl|right; eauto].
  - intros q cl s. rewrite !items_cons. destruct (s_element LI q s) as [[v| |f] s1]; [|left; reflexivity|left; reflexivity].
    apply (after_last (LSeq q) (feed_items LI (feed LI) q l' cl)); [intros [st log]; apply items_made|apply IHCut].
  - intros q cl s. rewrite !items_cons. destruct (s_element LI q s) as [[v| |f] s1]; [|left; reflexivity|left; reflexivity].
    apply after_same. intros s'. apply IHCut.
  - intros q cl [st log]. right. cbn [feed_members finish_layer]. destruct (drop_made (LMap q) (st, log)) as [D1 D2]. split; [exact D2|].
    destruct (members_made q l' cl st log) as [l Hl]. exists (calls_only log), l, []. rewrite app_nil_r. split; [exact D1|]. split; [exact Hl|left; reflexivity].
  - intros q cl s. rewrite !members_cons. destruct (m_key LI q k s) as [[v| |f] s1]; [|left; reflexivity|left; reflexivity].
    apply (after_last (LMap q) (feed_members LI (feed LI) q l' cl)); [intros [st log]; apply members_made|apply IHCut].
  - intros q cl s. rewrite !members_cons. destruct (m_key LI q k s) as [[v| |f] s1]; [|left; reflexivity|left; reflexivity].
    apply after_same. intros s'. apply IHCut.
Qed.
End CutFeed.
