(** Heap lemmas, and the layout of wrapped builders. *)
From Coq Require Import String ZArith List Bool Lia Floats.SpecFloat.
From Verif Require Import Base Utf8 F64 Lexer Driver Grammar LexSpec Types Impls Tree DriverFacts Denote.
Import ListNotations.
Open Scope Z_scope.

Definition Ns (l : heap) : Prop := Forall (fun x => x = None) l.
Lemma Ns_app a b : Ns a -> Ns b -> Ns (a ++ b).
Proof. intros; apply Forall_app; auto. Qed.
Lemma Ns_nil : Ns []. Proof. constructor. Qed.
Lemma Ns_cons a : Ns a -> Ns (None :: a). Proof. constructor; auto. Qed.

(** ** Lists *)
Lemma upd_length {A} (l : list A) i a : List.length (upd l i a) = List.length l.
Proof. revert i. induction l as [|x l IH]; intros [|i]; cbn; auto. Qed.
Lemma upd_app_l {A} (l r : list A) i a : (i < List.length l)%nat -> upd (l ++ r) i a = upd l i a ++ r.
Proof.
  revert i. induction l as [|x l IH]; intros [|i] H; cbn in *; try lia; [reflexivity|].
  rewrite IH by lia. reflexivity.
Qed.
Lemma upd_mid {A} (l r : list A) x a : upd (l ++ x :: r) (List.length l) a = l ++ a :: r.
Proof. induction l as [|y l IH]; cbn; [reflexivity|]. rewrite IH. reflexivity. Qed.
Lemma nth_mid {A} (l r : list A) x : nth_error (l ++ x :: r) (List.length l) = Some x.
Proof. induction l as [|y l IH]; cbn; auto. Qed.
Lemma upd_upd {A} (l : list A) i a b : upd (upd l i a) i b = upd l i b.
Proof. revert i. induction l as [|x l IH]; intros [|i]; cbn; auto. rewrite IH. reflexivity. Qed.
Lemma nth_upd {A} (l : list A) i a : (i < List.length l)%nat -> nth_error (upd l i a) i = Some a.
Proof. revert i. induction l as [|x l IH]; intros [|i] H; cbn in *; try lia; auto. apply IH. lia. Qed.
Lemma nth_upd_other {A} (l : list A) i j a : i <> j -> nth_error (upd l i a) j = nth_error l j.
Proof. revert i j. induction l as [|x l IH]; intros [|i] [|j] H; cbn; try congruence; auto. Qed.

(** ** Basic operations in the middle of a heap *)
Lemma mget_mid A o B : mget (List.length A) (A ++ Some o :: B) = (Ok o, A ++ Some o :: B).
Proof. unfold mget. rewrite nth_mid. reflexivity. Qed.
Lemma mset_mid A o o' B : mset (List.length A) o' (A ++ Some o :: B) = (Ok tt, A ++ Some o' :: B).
Proof. unfold mset. rewrite nth_mid, upd_mid. reflexivity. Qed.
Lemma mfree_mid A o B : mfree (List.length A) (A ++ Some o :: B) = (Ok tt, A ++ None :: B).
Proof. unfold mfree. rewrite nth_mid, upd_mid. reflexivity. Qed.

(** ** Places *)
Lemma rebuild_none d s x y : rebuild d s x = None -> rebuild d s y = None.
Proof.
  revert s. induction d as [|d IH]; intros s; cbn [rebuild]; [discriminate|].
  destruct s as [[]|]; auto.
  - specialize (IH None). destruct (rebuild d None x); [discriminate|]. rewrite IH; reflexivity.
  - specialize (IH (Some v)). destruct (rebuild d (Some v) x); [discriminate|]. rewrite IH; reflexivity.
Qed.
Lemma rebuild_def d s x y : rebuild d s x <> None -> rebuild d s y <> None.
Proof. intros H K. apply H. eapply rebuild_none, K. Qed.
Lemma rebuild_rebuild d s x s1 y : rebuild d s x = Some s1 -> rebuild d s1 y = rebuild d s y.
Proof.
  revert s s1. induction d as [|d IH]; intros s s1; cbn [rebuild]; [congruence|].
  destruct s as [[]|]; try discriminate.
  - destruct (rebuild d None x) as [s'|] eqn:E; [|discriminate]. cbn. intros [= <-].
    rewrite <- (IH _ _ E). destruct s'; reflexivity.
  - destruct (rebuild d (Some v) x) as [s'|] eqn:E; [|discriminate]. cbn. intros [= <-].
    rewrite <- (IH _ _ E). destruct s'; reflexivity.
Qed.
Lemma rebuild_inner d s s1 x : rebuild d s (Some VNone) = Some s1 ->
  rebuild (S d) s1 x = rebuild d s (embed x).
Proof.
  revert s s1. induction d as [|d IH]; intros s s1 H.
  - cbn [rebuild] in H. injection H as <-. reflexivity.
  - cbn [rebuild] in H. destruct s as [[]|]; try discriminate.
    + destruct (rebuild d None (Some VNone)) as [s'|] eqn:E; [|discriminate]. cbn in H.
      injection H as <-. cbn [rebuild]. rewrite <- (IH _ _ E). cbn [rebuild]. destruct s'; reflexivity.
    + destruct (rebuild d (Some v) (Some VNone)) as [s'|] eqn:E; [|discriminate]. cbn in H.
      injection H as <-. cbn [rebuild]. rewrite <- (IH _ _ E). cbn [rebuild]. destruct s'; reflexivity.
Qed.
Lemma descend_rebuild d s x s1 : rebuild d s x = Some s1 -> descend d s1 = Some x.
Proof.
  revert s s1. induction d as [|d IH]; intros s s1; cbn [rebuild descend]; [congruence|].
  destruct s as [[]|]; try discriminate.
  - destruct (rebuild d None x) as [s'|] eqn:E; [|discriminate]. cbn. intros [= <-].
    apply IH in E. destruct s'; exact E.
  - destruct (rebuild d (Some v) x) as [s'|] eqn:E; [|discriminate]. cbn. intros [= <-].
    apply IH in E. destruct s'; exact E.
Qed.

Lemma get_set_slot o i s x : get_slot o i = Some s -> get_slot (set_slot o i x) i = Some x.
Proof.
  destruct o; destruct i as [|[|i]]; cbn [get_slot set_slot]; try discriminate; try reflexivity;
    intros H; apply nth_upd; apply nth_error_Some; rewrite H; discriminate.
Qed.
Lemma set_set_slot o i x y : set_slot (set_slot o i x) i y = set_slot o i y.
Proof. destruct o; destruct i as [|[|i]]; cbn [set_slot]; try reflexivity; rewrite upd_upd; reflexivity. Qed.

Definition pvalid (p : place) (h : heap) : Prop :=
  exists o s, nth_error h (p_loc p) = Some (Some o) /\ get_slot o (p_slot p) = Some s /\
    rebuild (p_depth p) s None <> None.

Definition wr (p : place) (x : option val) (h : heap) : heap := snd (place_write p x h).

Lemma pvalid_lt p h : pvalid p h -> (p_loc p < List.length h)%nat.
Proof. intros (o & s & H & _). apply nth_error_Some. rewrite H. discriminate. Qed.

Lemma wr_spec p x h : pvalid p h ->
  exists o s s', nth_error h (p_loc p) = Some (Some o) /\ get_slot o (p_slot p) = Some s /\
    rebuild (p_depth p) s x = Some s' /\
    place_write p x h = (Ok tt, upd h (p_loc p) (Some (set_slot o (p_slot p) s'))).
Proof.
  intros (o & s & H1 & H2 & H3). pose proof (rebuild_def _ _ _ x H3) as H4.
  destruct (rebuild (p_depth p) s x) as [s'|] eqn:E; [|congruence].
  exists o, s, s'. repeat split; try assumption.
  unfold place_write, mbind, mget. rewrite H1, H2, E. unfold mset. rewrite H1. reflexivity.
Qed.
Lemma place_write_ok p x h : pvalid p h -> place_write p x h = (Ok tt, wr p x h).
Proof.
  intros H. destruct (wr_spec p x h H) as (o & s & s' & _ & _ & _ & Ew). unfold wr. rewrite Ew. reflexivity.
Qed.
Lemma wr_length p x h : pvalid p h -> List.length (wr p x h) = List.length h.
Proof.
  intros H. destruct (wr_spec p x h H) as (o & s & s' & _ & _ & _ & Ew). unfold wr. rewrite Ew.
  apply upd_length.
Qed.
Lemma pvalid_wr p x h : pvalid p h -> pvalid p (wr p x h).
Proof.
  intros H. pose proof (pvalid_lt _ _ H) as L.
  destruct (wr_spec p x h H) as (o & s & s' & H1 & H2 & H3 & Ew). unfold wr. rewrite Ew. cbn [snd].
  exists (set_slot o (p_slot p) s'), s'. rewrite nth_upd by exact L. split; [reflexivity|].
  split; [eapply get_set_slot, H2|]. rewrite (rebuild_rebuild _ _ _ _ None H3).
  apply (rebuild_def _ _ x). congruence.
Qed.
Lemma wr_wr p x y h : pvalid p h -> wr p y (wr p x h) = wr p y h.
Proof.
  intros H. pose proof (pvalid_lt _ _ H) as L.
  destruct (wr_spec p x h H) as (o & s & s' & H1 & H2 & H3 & Ew).
  destruct (wr_spec p y h H) as (o1 & s1 & s1' & K1 & K2 & K3 & Kw).
  destruct (wr_spec p y _ (pvalid_wr p x h H)) as (o2 & s2 & s2' & Q1 & Q2 & Q3 & Qw).
  unfold wr in *. rewrite Kw. rewrite Ew in *. cbn [snd] in *. rewrite Qw. cbn [snd].
  rewrite H1 in K1. injection K1 as <-. rewrite H2 in K2. injection K2 as <-.
  rewrite nth_upd in Q1 by exact L. injection Q1 as <-.
  rewrite (get_set_slot _ _ _ _ H2) in Q2. injection Q2 as <-.
  rewrite (rebuild_rebuild _ _ _ _ y H3), K3 in Q3. injection Q3 as <-.
  rewrite upd_upd, set_set_slot. reflexivity.
Qed.
Lemma read_wr p x h : pvalid p h -> place_read p (wr p x h) = (Ok x, wr p x h).
Proof.
  intros H. pose proof (pvalid_lt _ _ H) as L.
  destruct (wr_spec p x h H) as (o & s & s' & H1 & H2 & H3 & Ew).
  unfold wr. rewrite Ew. cbn [snd]. unfold place_read, mbind, mget.
  rewrite nth_upd by exact L. rewrite (get_set_slot _ _ _ _ H2).
  rewrite (descend_rebuild _ _ _ _ H3). reflexivity.
Qed.
Lemma pvalid_app p h r : pvalid p h -> pvalid p (h ++ r).
Proof.
  intros H. pose proof (pvalid_lt _ _ H) as L. destruct H as (o & s & H1 & H2 & H3).
  exists o, s. rewrite nth_error_app1 by exact L. auto.
Qed.
Lemma wr_app p x h r : pvalid p h -> wr p x (h ++ r) = wr p x h ++ r.
Proof.
  intros H. pose proof (pvalid_lt _ _ H) as L.
  destruct (wr_spec p x h H) as (o & s & s' & H1 & H2 & H3 & Ew).
  destruct (wr_spec p x _ (pvalid_app p h r H)) as (o1 & s1 & s1' & K1 & K2 & K3 & Kw).
  unfold wr. rewrite Ew, Kw. cbn [snd].
  rewrite nth_error_app1 in K1 by exact L. rewrite H1 in K1. injection K1 as <-.
  rewrite H2 in K2. injection K2 as <-. rewrite H3 in K3. injection K3 as <-.
  rewrite upd_app_l by exact L. reflexivity.
Qed.
Lemma pvalid_inner p h : pvalid p h -> pvalid (inner_place p) (wr p (Some VNone) h).
Proof.
  intros H. pose proof (pvalid_lt _ _ H) as L.
  destruct (wr_spec p (Some VNone) h H) as (o & s & s' & H1 & H2 & H3 & Ew).
  unfold wr. rewrite Ew. cbn [snd].
  exists (set_slot o (p_slot p) s'), s'. cbn [inner_place p_loc p_slot p_depth].
  rewrite nth_upd by exact L. split; [reflexivity|]. split; [eapply get_set_slot, H2|].
  rewrite (rebuild_inner _ _ _ None H3). apply (rebuild_def _ _ (Some VNone)). congruence.
Qed.
Lemma wr_inner p x h : pvalid p h ->
  wr (inner_place p) x (wr p (Some VNone) h) = wr p (embed x) h.
Proof.
  intros H. pose proof (pvalid_lt _ _ H) as L.
  pose proof (pvalid_inner _ _ H) as HI.
  destruct (wr_spec p (Some VNone) h H) as (o & s & s' & H1 & H2 & H3 & Ew).
  destruct (wr_spec p (embed x) h H) as (o1 & s1 & s1' & K1 & K2 & K3 & Kw).
  destruct (wr_spec (inner_place p) x _ HI) as (o2 & s2 & s2' & Q1 & Q2 & Q3 & Qw).
  unfold wr in *. rewrite Kw. rewrite Ew in *. cbn [snd] in *. rewrite Qw. cbn [snd].
  cbn [inner_place p_loc p_slot p_depth] in *.
  rewrite H1 in K1. injection K1 as <-. rewrite H2 in K2. injection K2 as <-.
  rewrite nth_upd in Q1 by exact L. injection Q1 as <-.
  rewrite (get_set_slot _ _ _ _ H2) in Q2. injection Q2 as <-.
  rewrite (rebuild_inner _ _ _ x H3), K3 in Q3. injection Q3 as <-.
  rewrite upd_upd, set_set_slot. reflexivity.
Qed.

(** The heap after a place may have been overwritten. *)
Definition touched (p : place) (h hh : heap) : Prop := hh = h \/ exists x, hh = wr p x h.
Lemma touched_refl p h : touched p h h. Proof. left. reflexivity. Qed.
Lemma touched_wr p x h : touched p h (wr p x h). Proof. right. exists x. reflexivity. Qed.
Lemma touched_valid p h hh : pvalid p h -> touched p h hh -> pvalid p hh.
Proof. intros H [->|[x ->]]; [exact H|apply pvalid_wr, H]. Qed.
Lemma touched_length p h hh : pvalid p h -> touched p h hh -> List.length hh = List.length h.
Proof. intros H [->|[x ->]]; [reflexivity|apply wr_length, H]. Qed.
Lemma wr_touched p h hh x : pvalid p h -> touched p h hh -> wr p x hh = wr p x h.
Proof. intros H [->|[y ->]]; [reflexivity|apply wr_wr, H]. Qed.
Lemma touched_trans p h h1 h2 : pvalid p h -> touched p h h1 -> touched p h1 h2 -> touched p h h2.
Proof.
  intros H H1 [->|[x ->]]; [exact H1|]. rewrite (wr_touched _ _ _ _ H H1). apply touched_wr.
Qed.
Lemma touched_inner p h hh : pvalid p h ->
  touched (inner_place p) (wr p (Some VNone) h) hh -> touched p h hh.
Proof.
  intros H [->|[x ->]]; [apply touched_wr|]. rewrite wr_inner by exact H. apply touched_wr.
Qed.
Lemma touched_app p h r hh : pvalid p h -> touched p (h ++ r) hh ->
  exists h', hh = h' ++ r /\ touched p h h'.
Proof.
  intros H [->|[x ->]]; [exists h; split; [reflexivity|left; reflexivity]|].
  exists (wr p x h). split; [apply wr_app, H|right; eauto].
Qed.

(** Slots of the object in the middle. *)
Lemma pvalid_mid A o B i s : get_slot o i = Some s ->
  pvalid (mkplace (List.length A) i 0) (A ++ Some o :: B).
Proof.
  intros H. exists o, s. cbn [p_loc p_slot p_depth rebuild]. rewrite nth_mid.
  repeat split; [exact H|discriminate].
Qed.
Lemma wr_mid A o B i s x : get_slot o i = Some s ->
  wr (mkplace (List.length A) i 0) x (A ++ Some o :: B) = A ++ Some (set_slot o i x) :: B.
Proof.
  intros H. destruct (wr_spec _ x _ (pvalid_mid A o B i s H)) as (o' & s1 & s' & H1 & H2 & H3 & Ew).
  unfold wr. rewrite Ew. cbn [p_loc p_slot p_depth snd rebuild] in *.
  rewrite nth_mid in H1. injection H1 as <-. injection H3 as <-. rewrite upd_mid. reflexivity.
Qed.
Lemma upd_same {A} (l : list A) i a : nth_error l i = Some a -> upd l i a = l.
Proof. revert i. induction l as [|x l IH]; intros [|i]; cbn; try congruence. intros H. rewrite IH by exact H. reflexivity. Qed.
Lemma set_slot_same o i s : get_slot o i = Some s -> set_slot o i s = o.
Proof.
  destruct o; destruct i as [|[|i]]; cbn [get_slot set_slot]; try discriminate; intros H;
    try (injection H as <-; reflexivity).
  - rewrite upd_same by exact H. reflexivity.
  - rewrite upd_same by exact H. reflexivity.
  - rewrite upd_same by exact H. reflexivity.
Qed.
Lemma touched_mid A o B i s hh : get_slot o i = Some s ->
  touched (mkplace (List.length A) i 0) (A ++ Some o :: B) hh ->
  exists x, hh = A ++ Some (set_slot o i x) :: B.
Proof.
  intros H [->|[x ->]].
  - exists s. rewrite (set_slot_same _ _ _ H). reflexivity.
  - exists x. apply wr_mid with (s := s), H.
Qed.
