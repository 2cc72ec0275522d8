(** Invariant of BoxOwn. *)
From Coq Require Import List Bool Arith Lia Permutation.
From Verif Require Import Base ArrOwn ArrSpec BoxOwn BoxSpec.
Import ListNotations.

Definition vals (oc : option cell) : list nat := match oc with Some c => olist (c_val c) | None => [] end.
Definition contents (h : list (option cell)) : list nat := flat_map vals h.
Notation cnt l x := (count_occ Nat.eq_dec l x).

(** Every value made so far is in exactly one place; fl: the values in flight. *)
Definition Acct (w : world) (fl : list nat) : Prop :=
  forall x, cnt (w_dropped w) x + cnt (w_taken w) x + cnt (contents (w_heap w)) x + cnt fl x = if x <? w_next w then 1 else 0.

Definition upd (l : nat) (c : option cell) (h : list (option cell)) := firstn l h ++ c :: skipn (S l) h.
Lemma upd_length l c h : l < length h -> length (upd l c h) = length h.
Proof. intros. unfold upd. rewrite app_length, firstn_length. cbn [length]. rewrite skipn_length. lia. Qed.
Lemma upd_eq l c h : l < length h -> nth_error (upd l c h) l = Some c.
Proof. intros. unfold upd. rewrite nth_error_app2; rewrite firstn_length; [|lia]. replace (l - Nat.min l (length h)) with 0 by lia. reflexivity. Qed.
Lemma upd_neq l c h k : l < length h -> k <> l -> nth_error (upd l c h) k = nth_error h k.
Proof.
  intros H N. unfold upd. rewrite <- (firstn_skipn l h) at 3. destruct (Nat.lt_ge_cases k l).
  - rewrite !nth_error_app1; [reflexivity|rewrite firstn_length; lia|rewrite firstn_length; lia].
  - rewrite !nth_error_app2; rewrite firstn_length; try lia. replace (Nat.min l (length h)) with l by lia.
    destruct (k - l) as [|j] eqn:E; [lia|]. cbn [nth_error].
    destruct (skipn l h) as [|a m] eqn:ES.
    + apply (f_equal (@length _)) in ES. rewrite skipn_length in ES. cbn in ES. lia.
    + cbn [nth_error]. replace (skipn (S l) h) with m; [reflexivity|]. replace (S l) with (1 + l) by lia. 
      clear - ES. revert h ES. induction l as [|l IH]; intros h ES; destruct h; cbn in *; try congruence; auto.
Qed.
Lemma contents_upd l oc' h oc x : nth_error h l = Some oc ->
  cnt (contents (upd l oc' h)) x + cnt (vals oc) x = cnt (contents h) x + cnt (vals oc') x.
Proof.
  revert l. induction h as [|a h IH]; intros [|l]; cbn [nth_error]; try discriminate.
  - intros [= ->]. unfold upd, contents. cbn [firstn skipn app flat_map]. rewrite !count_occ_app. lia.
  - intros H. specialize (IH l H). unfold upd, contents in *. cbn [firstn skipn app flat_map] in *. rewrite !count_occ_app in *. lia.
Qed.
Lemma nth_lt {A} (h : list A) l x : nth_error h l = Some x -> l < length h.
Proof. intros H. apply nth_error_Some. congruence. Qed.

Definition cellat (w : world) (l : nat) (v : option nat) (s : list nat) : Prop := nth_error (w_heap w) l = Some (Some (mkcell v s)).
Definition dead (w : world) (l : nat) : Prop := nth_error (w_heap w) l = Some None.

Lemma pop_in t s : In t s -> exists s', pop_to t s = Some (t :: s').
Proof.
  induction s as [|x s IH]; cbn [In pop_to]; [tauto|]. intros H. destruct (x =? t) eqn:E.
  - apply Nat.eqb_eq in E. subst x. eauto.
  - destruct H as [->|H]; [rewrite Nat.eqb_refl in E; discriminate|]. exact (IH H).
Qed.
Lemma pop_top t s : pop_to t (t :: s) = Some (t :: s).
Proof. cbn. rewrite Nat.eqb_refl. reflexivity. Qed.

(** Only the cells in L changed. *)
Record Fr (L : list nat) (w w' : world) : Prop := {
  fr_len : length (w_heap w') = length (w_heap w);
  fr_nth : forall k, ~ In k L -> nth_error (w_heap w') k = nth_error (w_heap w) k;
  fr_blds : w_blds w' = w_blds w;
  fr_bdropped : w_bdropped w' = w_bdropped w
}.
Lemma Fr_refl L w : Fr L w w.
Proof. constructor; auto. Qed.
Lemma Fr_trans L w1 w2 w3 : Fr L w1 w2 -> Fr L w2 w3 -> Fr L w1 w3.
Proof. intros [A B C D] [E F G H]. constructor; try congruence. intros k Hk. rewrite F, B; auto. Qed.
Lemma Fr_weak L L' w w' : incl L L' -> Fr L w w' -> Fr L' w w'.
Proof. intros I [A B C D]. constructor; auto. Qed.

Notation "'do' x <- m ; f" := (bind m (fun x => f)) (at level 60, right associativity, x pattern).
Section F.
Variable bomb : nat -> bool.
Variable U : nat -> list uact * uend.
Notation dropv := (dropv bomb).
Notation assign := (assign bomb).
Notation free := (free bomb).
Notation user_call := (user_call bomb U).
Notation bopen := (bopen bomb U).
Notation belement := (belement bomb U).
Notation bdrop := (bdrop bomb U).
Notation bfinish := (bfinish bomb U).
Notation bscalar := (bscalar bomb U).

(** Outcomes of drops, and of user code. *)
Definition dres (r : res unit) : Prop := r = Ok tt \/ r = Fault FPanic.
Definition ures {A} (r : res A) : Prop := (exists a, r = Ok a) \/ r = Err \/ r = Fault FPanic.
Definition xres {A} (r : res A) : Prop := ures r \/ r = Fault FAbort.

Lemma dropv_ok o fl w : Acct w (olist o ++ fl) ->
  exists r w', dropv o w = (r, w') /\ dres r /\ w_heap w' = w_heap w /\ Fr [] w w' /\ Acct w' fl.
Proof.
  intros H. unfold BoxOwn.dropv. destruct o as [x|]; cbn [drop_opt olist] in *.
  - pose proof (H x) as Hx. cbn [app count_occ] in Hx. destruct (Nat.eq_dec x x); [|contradiction].
    assert (Nin : ~ In x (w_dropped w)). { intros G. apply (count_occ_In Nat.eq_dec) in G. destruct (x <? w_next w); lia. }
    unfold drop_one. destruct in_dec; [contradiction|]. eexists _, _. split; [reflexivity|]. split; [destruct (bomb x); unfold dres; auto|].
    split; [reflexivity|]. split; [constructor; auto|]. intros y. specialize (H y). cbn [w_dropped w_taken w_heap w_next app] in *.
    rewrite count_occ_app. cbn [count_occ] in *. destruct (Nat.eq_dec x y); lia.
  - eexists _, _. split; [reflexivity|]. split; [unfold dres; auto|]. split; [reflexivity|]. split; [constructor; auto|]. exact H.
Qed.

Lemma touch_ok w l t v s s' fl : cellat w l v s -> pop_to t s = Some s' -> Acct w fl ->
  exists w', touch l t w = (Ok v, w') /\ cellat w' l v s' /\ Fr [l] w w' /\ Acct w' fl.
Proof.
  intros C P H. unfold touch. rewrite C. cbn [c_stack c_val]. rewrite P. eexists. split; [reflexivity|].
  pose proof (nth_lt _ _ _ C). unfold set_cell. fold (upd l (Some (mkcell v s')) (w_heap w)).
  split; [unfold cellat; cbn; apply upd_eq; auto|]. split.
  - constructor; cbn; auto; [apply upd_length; auto|]. intros k Hk. apply upd_neq; auto; intros ->; apply Hk; left; reflexivity.
  - intros x. specialize (H x). cbn [w_dropped w_taken w_heap w_next set_heap].
    pose proof (contents_upd l (Some (mkcell v s')) _ _ x C) as E. cbn [vals c_val] in E. lia.
Qed.

Lemma reborrow_ok w l t v s s' fl : cellat w l v s -> pop_to t s = Some s' -> Acct w fl ->
  exists n w', reborrow l t w = (Ok n, w') /\ cellat w' l v (n :: s') /\ Fr [l] w w' /\ Acct w' fl.
Proof.
  intros C P H. unfold reborrow. rewrite C. cbn [c_stack c_val]. rewrite P. eexists _, _. split; [reflexivity|].
  pose proof (nth_lt _ _ _ C). unfold set_cell. cbn [w_heap set_heap]. fold (upd l (Some (mkcell v (w_tags w :: s'))) (w_heap w)).
  split; [unfold cellat; cbn; apply upd_eq; auto|]. split.
  - constructor; cbn; auto; [apply upd_length; auto|]. intros k Hk. apply upd_neq; auto; intros ->; apply Hk; left; reflexivity.
  - intros x. specialize (H x). cbn [w_dropped w_taken w_heap w_next].
    pose proof (contents_upd l (Some (mkcell v (w_tags w :: s'))) _ _ x C) as E. cbn [vals c_val] in E. lia.
Qed.

Lemma store_ok w l v s v' fl : cellat w l v s -> Acct w (olist v' ++ fl) ->
  exists w', store l v' w = (Ok tt, w') /\ cellat w' l v' s /\ Fr [l] w w' /\ Acct w' (olist v ++ fl).
Proof.
  intros C H. unfold store. rewrite C. cbn [c_stack]. eexists. split; [reflexivity|].
  pose proof (nth_lt _ _ _ C). unfold set_cell. fold (upd l (Some (mkcell v' s)) (w_heap w)).
  split; [unfold cellat; cbn; apply upd_eq; auto|]. split.
  - constructor; cbn; auto; [apply upd_length; auto|]. intros k Hk. apply upd_neq; auto; intros ->; apply Hk; left; reflexivity.
  - intros x. specialize (H x). cbn [w_dropped w_taken w_heap w_next set_heap]. rewrite count_occ_app in *.
    pose proof (contents_upd l (Some (mkcell v' s)) _ _ x C) as E. cbn [vals c_val] in E. lia.
Qed.

Lemma assign_ok w l t v s s' new fl : cellat w l v s -> pop_to t s = Some s' -> Acct w (olist new ++ fl) ->
  exists r w', assign l t new w = (r, w') /\ dres r /\ cellat w' l new s' /\ Fr [l] w w' /\ Acct w' fl.
Proof.
  intros C P H. unfold BoxOwn.assign, bind.
  destruct (touch_ok _ _ _ _ _ _ _ C P H) as (w1 & E1 & C1 & F1 & A1). rewrite E1.
  destruct (store_ok _ _ _ _ _ _ C1 A1) as (w2 & E2 & C2 & F2 & A2). rewrite E2.
  destruct (dropv_ok _ _ _ A2) as (r & w3 & E3 & D & Hh & F3 & A3). exists r, w3. split; [exact E3|]. split; [exact D|].
  split; [unfold cellat in *; rewrite Hh; exact C2|]. split; [|exact A3].
  eapply Fr_trans; [exact F1|]. eapply Fr_trans; [exact F2|]. eapply Fr_weak; [|exact F3]. intros k [].
Qed.

Lemma take_ok w l t v s s' fl : cellat w l v s -> pop_to t s = Some s' -> Acct w fl ->
  exists w', take l t w = (Ok v, w') /\ cellat w' l None s' /\ Fr [l] w w' /\ Acct w' (olist v ++ fl).
Proof.
  intros C P H. unfold take, bind, ret.
  destruct (touch_ok _ _ _ _ _ _ _ C P H) as (w1 & E1 & C1 & F1 & A1). rewrite E1.
  destruct (store_ok w1 l v s' None fl C1 A1) as (w2 & E2 & C2 & F2 & A2). rewrite E2.
  exists w2. split; [reflexivity|]. split; [exact C2|]. split; [eapply Fr_trans; eauto|exact A2].
Qed.

Lemma free_ok w l t v s s' fl : cellat w l v s -> pop_to t s = Some s' -> Acct w fl ->
  exists r w', free l t w = (r, w') /\ dres r /\ dead w' l /\ Fr [l] w w' /\ Acct w' fl.
Proof.
  intros C P H. unfold BoxOwn.free, bind.
  destruct (touch_ok _ _ _ _ _ _ _ C P H) as (w1 & E1 & C1 & F1 & A1). rewrite E1.
  pose proof (nth_lt _ _ _ C1) as L1.
  set (w2 := set_cell l None w1).
  assert (A2 : Acct w2 (olist v ++ fl)).
  { intros x. specialize (A1 x). subst w2. unfold set_cell. fold (upd l None (w_heap w1)). cbn [w_dropped w_taken w_heap w_next set_heap]. rewrite count_occ_app.
    pose proof (contents_upd l None _ _ x C1) as E. cbn [vals c_val count_occ] in E. lia. }
  assert (F2 : Fr [l] w1 w2).
  { subst w2. unfold set_cell. fold (upd l None (w_heap w1)). constructor; cbn; auto; [apply upd_length; auto|]. intros k Hk. apply upd_neq; auto; intros ->; apply Hk; left; reflexivity. }
  destruct (dropv_ok _ _ _ A2) as (r & w3 & E3 & D & Hh & F3 & A3). exists r, w3. split; [exact E3|]. split; [exact D|].
  split; [unfold dead; rewrite Hh; subst w2; unfold set_cell; apply upd_eq; auto|]. split; [|exact A3].
  eapply Fr_trans; [exact F1|]. eapply Fr_trans; [exact F2|]. eapply Fr_weak; [|exact F3]. intros k [].
Qed.

(** User code. *)
Lemma uact_ok w l t v s a : cellat w l v (t :: s) -> Acct w [] ->
  exists r w' v', uact_run bomb l t a w = (r, w') /\ dres r /\ cellat w' l v' (t :: s) /\ Fr [l] w w' /\ Acct w' [].
Proof.
  intros C H. destruct a as [catch|]; cbn [uact_run]; unfold bind.
  - unfold fresh. set (w1 := mkw _ _ _ _ _ _ _ _).
    assert (C1 : cellat w1 l v (t :: s)) by exact C.
    assert (A1 : Acct w1 (olist (Some (w_next w)) ++ [])).
    { intros x. specialize (H x). subst w1. cbn [w_dropped w_taken w_heap w_next olist app count_occ] in *.
      destruct (Nat.eq_dec (w_next w) x) as [<-|Ne].
      - rewrite Nat.ltb_irrefl in H. replace (w_next w <? S (w_next w)) with true by (symmetry; apply Nat.ltb_lt; lia). lia.
      - replace (x <? S (w_next w)) with (x <? w_next w); [lia|]. destruct (x <? w_next w) eqn:A; symmetry; [apply Nat.ltb_lt in A; apply Nat.ltb_lt; lia|apply Nat.ltb_ge in A; apply Nat.ltb_ge; lia]. }
    destruct (assign_ok _ _ _ _ _ _ _ _ C1 (pop_top t s) A1) as (r & w2 & E2 & D & C2 & F2 & A2).
    assert (F : Fr [l] w w2). { eapply Fr_trans; [|exact F2]. subst w1. constructor; auto. }
    destruct catch.
    + unfold catching. rewrite E2. destruct D as [-> | ->]; eexists _, _, _; (split; [reflexivity|]); (split; [left; reflexivity|]); eauto.
    + rewrite E2. eexists _, _, _. split; [reflexivity|]. split; [exact D|]. eauto.
  - destruct (take_ok _ _ _ _ _ _ _ C (pop_top t s) H) as (w1 & E1 & C1 & F1 & A1). rewrite E1. unfold give.
    eexists _, _, None. split; [reflexivity|]. split; [left; reflexivity|]. split; [exact C1|]. split.
    + eapply Fr_trans; [exact F1|]. constructor; auto.
    + intros x. specialize (A1 x). cbn [w_dropped w_taken w_heap w_next]. fold (olist v). rewrite app_nil_r in A1. rewrite count_occ_app. cbn [count_occ]. lia.
Qed.

Lemma user_call_ok w l t v s : cellat w l v (t :: s) -> Acct w [] ->
  exists r w' v', user_call l t w = (r, w') /\ ures r /\ cellat w' l v' (t :: s) /\ Fr [l] w w' /\ Acct w' [].
Proof.
  intros C H. unfold BoxOwn.user_call. destruct (U (w_calls w)) as [acts e]. set (w1 := mkw _ _ _ _ _ _ _ _).
  assert (C1 : cellat w1 l v (t :: s)) by exact C. assert (A1 : Acct w1 []) by exact H. assert (F0 : Fr [l] w w1) by (subst w1; constructor; auto).
  clearbody w1. clear C H. revert w1 v C1 A1 F0. induction acts as [|a acts IH]; intros w1 v C1 A1 F0.
  - cbn [uacts_run]. unfold bind, ret, throw, crash. destruct e; eexists _, _, _; (split; [reflexivity|]); unfold ures; eauto 10.
  - cbn [uacts_run]. destruct (uact_ok _ _ _ _ _ a C1 A1) as (r & w2 & v2 & E2 & D & C2 & F2 & A2).
    destruct D as [-> | ->].
    + destruct (IH _ _ C2 A2 (Fr_trans _ _ _ _ F0 F2)) as (r3 & w3 & v3 & E3 & rest). exists r3, w3, v3. split; [|exact rest].
      rewrite <- E3. unfold bind. rewrite E2. reflexivity.
    + exists (Fault FPanic), w2, v2. split; [unfold bind; rewrite E2; reflexivity|]. split; [unfold ures; auto|]. split; [exact C2|]. split; [|exact A2]. eapply Fr_trans; eauto.
Qed.

(** b is a builder for the place l, whose borrow stack below b's reference is st; own: the
    cells b owns. *)
Inductive chain (w : world) : bld -> nat -> list nat -> list nat -> Prop :=
| ch_ignore l st v pre : cellat w l v (pre ++ st) -> chain w BIgnore l st []
| ch_user l t i st v : cellat w l v (t :: st) -> chain w (BUser l t i) l st []
| ch_box l t c ct inner st v stc own :
    cellat w l v (t :: st) -> l <> c -> ~ In l own -> ~ In c own ->
    chain w inner c stc own -> In ct stc -> chain w (BBox l t c ct inner) l st (c :: own).
Lemma chain_cell w b l st own : chain w b l st own -> exists v pre, cellat w l v (pre ++ st).
Proof. intros H. inversion H; subst; eauto; exists v, [t]; assumption. Qed.
Lemma chain_frame w b l st own w' : chain w b l st own ->
  (forall k, In k (l :: own) -> nth_error (w_heap w') k = nth_error (w_heap w) k) -> chain w' b l st own.
Proof.
  intros H. induction H as [l st v pre C|l t i st v C|l t c ct inner st v stc own C N1 N2 N3 H IH I]; intros G.
  - econstructor. unfold cellat. rewrite G by (left; reflexivity). exact C.
  - econstructor. unfold cellat. rewrite G by (left; reflexivity). exact C.
  - econstructor; eauto.
    + unfold cellat. rewrite G by (left; reflexivity). exact C.
    + apply IH. intros k Hk. apply G. right. exact Hk.
Qed.
Lemma chain_lt w b l st own : chain w b l st own -> forall k, In k own -> k < length (w_heap w).
Proof.
  induction 1 as [l st v pre C|l t i st v C|l t c ct inner st v stc own C N1 N2 N3 H IH I]; cbn [In]; try tauto.
  intros k [<-|Hk]; [|auto]. destruct (chain_cell _ _ _ _ _ H) as (v' & pre & C'). eapply nth_lt; exact C'.
Qed.
Lemma chain_alive w b l st own : chain w b l st own -> forall k, In k own -> exists c, nth_error (w_heap w) k = Some (Some c).
Proof.
  induction 1 as [l st v pre C|l t i st v C|l t c ct inner st v stc own C N1 N2 N3 H IH I]; cbn [In]; try tauto.
  intros k [<-|Hk]; [|auto]. destruct (chain_cell _ _ _ _ _ H) as (v' & pre & C'). eexists; exact C'.
Qed.
Lemma chain_notin w b l st own : chain w b l st own -> ~ In l own.
Proof. intros H. inversion H; subst; cbn; try tauto. intros [->|G]; tauto. Qed.

Lemma chain_box_inv w l0 t c ct inner l st own : chain w (BBox l0 t c ct inner) l st own ->
  l0 = l /\ exists v stc own0, own = c :: own0 /\ cellat w l v (t :: st) /\ l <> c /\ ~ In l own0 /\ ~ In c own0 /\ chain w inner c stc own0 /\ In ct stc.
Proof. intros H. inversion H; subst. split; [reflexivity|]. eauto 12. Qed.
Lemma chain_user_inv w l0 t i l st own : chain w (BUser l0 t i) l st own -> l0 = l /\ own = [] /\ exists v, cellat w l v (t :: st).
Proof. intros H. inversion H; subst. eauto. Qed.
Lemma chain_ignore_inv w l st own : chain w BIgnore l st own -> own = [] /\ exists v pre, cellat w l v (pre ++ st).
Proof. intros H. inversion H; subst. eauto. Qed.

(** Builders: those of b are not dropped yet. *)
Definition live_blds (w : world) (b : bld) : Prop := NoDup (w_bdropped w ++ user_builder b).

Lemma bdrop_ok b : forall w l st own, chain w b l st own -> Acct w [] -> live_blds w b ->
  exists r w', bdrop b w = (r, w') /\ (dres r \/ r = Fault FAbort) /\
    (r <> Fault FAbort ->
      (exists v pre, cellat w' l v (pre ++ st)) /\ (forall k, In k own -> dead w' k) /\
      length (w_heap w') = length (w_heap w) /\ (forall k, ~ In k (l :: own) -> nth_error (w_heap w') k = nth_error (w_heap w) k) /\
      w_blds w' = w_blds w /\ w_bdropped w' = w_bdropped w ++ user_builder b /\ Acct w' []).
Proof.
  induction b as [l0 t i| |l0 t c ct inner IH]; intros w l st own HC HA HL.
  - destruct (chain_user_inv _ _ _ _ _ _ _ HC) as (-> & -> & v & C). cbn [BoxOwn.bdrop]. unfold bind, alive_bld. destruct in_dec as [G|G]; [exfalso; unfold live_blds in HL; cbn [user_builder] in HL; apply NoDup_remove_2 in HL; apply HL; rewrite app_nil_r; exact G|].
    unfold drop_bld. set (w1 := mkw _ _ _ _ _ _ _ _).
    assert (C1 : cellat w1 l v (t :: st)) by exact C. assert (A1 : Acct w1 []) by exact HA.
    destruct (user_call_ok _ _ _ _ _ C1 A1) as (r & w2 & v2 & E & R & C2 & [F1 F2 F3 F4] & A2).
    change (user_call l t w1) with (user_call l t w1) in E.
    assert (X : exists r', (match user_call l t w1 with (Err, w') => (Ok tt, w') | z => z end) = (r', w2) /\ dres r').
    { rewrite E. destruct R as [(a & ->) | [-> | ->]]; [destruct a|..]; eexists; (split; [reflexivity|]); unfold dres; auto. }
    destruct X as (r' & X & D). exists r', w2. split; [exact X|]. split; [left; exact D|]. intros _. subst w1. cbn [w_heap w_blds w_bdropped] in *.
    split; [exists v2, [t]; exact C2|]. split; [intros k []|]. split; [exact F1|]. split; [exact F2|]. split; [exact F3|]. split; [exact F4|exact A2].
  - destruct (chain_ignore_inv _ _ _ _ HC) as (-> & v & pre & C). cbn [BoxOwn.bdrop]. unfold ret. eexists _, _. split; [reflexivity|]. split; [left; left; reflexivity|]. intros _.
    cbn [user_builder]. rewrite app_nil_r. split; [eauto|]. split; [intros k []|]. auto 10.
  - destruct (chain_box_inv _ _ _ _ _ _ _ _ _ HC) as (-> & v & stc & own0 & -> & C & N1 & N2 & N3 & H & I). cbn [BoxOwn.bdrop]. unfold finally.
    destruct (IH _ _ _ _ H HA HL) as (r & w1 & E & R & P). rewrite E. destruct R as [R|R].
    + assert (NA : r <> Fault FAbort) by (destruct R as [-> | ->]; discriminate). destruct (P NA) as ((v1 & pre & C1) & Dd & L1 & F1 & B1 & B2 & A1).
      assert (I1 : In ct (pre ++ stc)) by (apply in_or_app; auto). destruct (pop_in _ _ I1) as (s' & P1).
      destruct (free_ok _ _ _ _ _ _ _ C1 P1 A1) as (r2 & w2 & E2 & D2 & Dc & [G1 G2 G3 G4] & A2).
      assert (X : exists r', leave r (free c ct) w1 = (r', w2) /\ (dres r' \/ r' = Fault FAbort)).
      { unfold leave. rewrite E2. destruct R as [-> | ->], D2 as [-> | ->]; eexists; (split; [reflexivity|]); unfold dres; auto. }
      destruct X as (r' & X & RR). exists r', w2. split; [exact X|]. split; [exact RR|]. intros _.
      split; [|split; [|split; [|split; [|split; [|split]]]]].
      * exists v, [t]. unfold cellat. rewrite G2, F1; [exact C| |]; cbn [In]; intuition congruence.
      * intros k [<-|Hk]; [exact Dc|]. unfold dead. rewrite G2; [apply Dd; exact Hk|]. cbn [In]. intros [<-|[]]. contradiction.
      * congruence.
      * intros k Hk. rewrite G2, F1; [reflexivity| |]; cbn [In] in *; intuition.
      * congruence.
      * rewrite G4. exact B2.
      * exact A2.
    + subst r. exists (Fault FAbort), w1. split; [reflexivity|]. split; [right; reflexivity|]. congruence.
Qed.

Lemma belement_ok b : forall w l st own, chain w b l st own -> Acct w [] -> live_blds w b ->
  exists r w', belement b w = (r, w') /\ ures r /\ chain w' b l st own /\ Fr (l :: own) w w' /\ Acct w' [].
Proof.
  induction b as [l0 t i| |l0 t c ct inner IH]; intros w l st own HC HA HL.
  - destruct (chain_user_inv _ _ _ _ _ _ _ HC) as (-> & -> & v & C). cbn [BoxOwn.belement]. unfold bind, alive_bld. destruct in_dec as [G|G]; [exfalso; unfold live_blds in HL; cbn [user_builder] in HL; apply NoDup_remove_2 in HL; apply HL; rewrite app_nil_r; exact G|].
   
    destruct (user_call_ok _ _ _ _ _ C HA) as (r & w2 & v2 & E & R & C2 & F & A2). rewrite E. exists r, w2. split; [reflexivity|]. split; [exact R|].
    split; [econstructor; exact C2|]. split; [exact F|exact A2].
  - eexists _, _. split; [reflexivity|]. split; [left; eexists; reflexivity|]. split; [exact HC|]. split; [apply Fr_refl|exact HA].
  - destruct (chain_box_inv _ _ _ _ _ _ _ _ _ HC) as (-> & v & stc & own0 & -> & C & N1 & N2 & N3 & H & I). cbn [BoxOwn.belement].
    destruct (IH _ _ _ _ H HA HL) as (r & w1 & E & R & H1 & F & A1). rewrite E. exists r, w1. split; [reflexivity|]. split; [exact R|].
    split; [|split; [|exact A1]].
    + econstructor; eauto. unfold cellat. rewrite (fr_nth _ _ _ F); [exact C|]. cbn [In]. intuition congruence.
    + eapply Fr_weak; [|exact F]. intros k Hk. right. exact Hk.
Qed.

Lemma bfinish_ok b : forall w l st own, chain w b l st own -> Acct w [] -> live_blds w b ->
  exists r b' w', bfinish b w = (r, b', w') /\ (ures r \/ r = Fault FAbort) /\
    (r <> Fault FAbort ->
      (exists own', chain w' b' l st own' /\ incl own' own /\ forall k, In k own -> In k own' \/ dead w' k) /\
      length (w_heap w') = length (w_heap w) /\ (forall k, ~ In k (l :: own) -> nth_error (w_heap w') k = nth_error (w_heap w) k) /\
      w_blds w' = w_blds w /\ w_bdropped w' ++ user_builder b' = w_bdropped w ++ user_builder b /\ Acct w' []).
Proof.
  induction b as [l0 t i| |l0 t c ct inner IH]; intros w l st own HC HA HL.
  - destruct (belement_ok _ _ _ _ _ HC HA HL) as (r & w1 & E & R & H1 & F & A1).
    exists r, (BUser l0 t i), w1. cbn [BoxOwn.bfinish]. cbn [BoxOwn.belement] in E. rewrite E.
    split; [reflexivity|]. split; [left; exact R|]. intros _. destruct F as [F1 F2 F3 F4]. split; [exists own; split; [exact H1|split; [apply incl_refl|auto]]|].
    split; [exact F1|]. split; [exact F2|]. split; [exact F3|]. split; [rewrite F4; reflexivity|exact A1].
  - destruct (chain_ignore_inv _ _ _ _ HC) as (-> & v & pre & C). exists (Ok tt), BIgnore, w. split; [reflexivity|]. split; [left; left; eauto|]. intros _.
    split; [exists []; split; [exact HC|split; [apply incl_refl|auto]]|]. auto 10.
  - destruct (chain_box_inv _ _ _ _ _ _ _ _ _ HC) as (-> & v & stc & own0 & -> & C & N1 & N2 & N3 & H & I). cbn [BoxOwn.bfinish].
    destruct (IH _ _ _ _ H HA HL) as (r & i1 & w1 & E & R & P). rewrite E.
    assert (DEC : r = Fault FAbort \/ r <> Fault FAbort) by (destruct R as [[(a & ->) | [-> | ->]] | ->]; auto; right; discriminate).
    destruct DEC as [-> | NA]; [eexists _, _, _; split; [reflexivity|]; split; [right; reflexivity|congruence]|].
    destruct (P NA) as ((own1 & Ch1 & Inc1 & Ded1) & L1 & F1 & B1 & B2 & A1).
    assert (C1 : cellat w1 l v (t :: st)) by (unfold cellat; rewrite F1; [exact C|cbn [In]; intuition congruence]).
    assert (LV : live_blds w1 i1) by (unfold live_blds in *; rewrite B2; exact HL).
    assert (FAIL : forall r' : res unit, ures r' -> r = r' -> (forall a, r' <> Ok a) ->
      exists r0 b' w', (r', BBox l t c ct i1, w1) = (r0, b', w') /\ (ures r0 \/ r0 = Fault FAbort) /\ (r0 <> Fault FAbort ->
      (exists own', chain w' b' l st own' /\ incl own' (c :: own0) /\ forall k, In k (c :: own0) -> In k own' \/ dead w' k) /\
      length (w_heap w') = length (w_heap w) /\ (forall k, ~ In k (l :: c :: own0) -> nth_error (w_heap w') k = nth_error (w_heap w) k) /\
      w_blds w' = w_blds w /\ w_bdropped w' ++ user_builder b' = w_bdropped w ++ user_builder (BBox l t c ct inner) /\ Acct w' [])).
    { intros r' Hr' _ _. eexists _, _, _. split; [reflexivity|]. split; [left; exact Hr'|]. intros _.
      split; [|split; [exact L1|split; [|split; [exact B1|split; [exact B2|exact A1]]]]].
      - exists (c :: own1). split; [apply (ch_box _ _ _ _ _ _ _ v stc); auto|].
        split; [intros k [<-|Hk]; [left; reflexivity|right; apply Inc1; exact Hk]|].
        intros k [<-|Hk]; [left; left; reflexivity|]. destruct (Ded1 _ Hk); [left; right; assumption|right; assumption].
      - intros k Hk. apply F1. cbn [In] in *. intuition. }
    destruct R as [[(a & ->) | [-> | ->]] | ->]; [|apply FAIL; unfold ures; auto; discriminate|apply FAIL; unfold ures; auto; discriminate|congruence].
    clear FAIL NA P. destruct (bdrop_ok _ _ _ _ _ Ch1 A1 LV) as (r2 & w2 & E2 & R2 & P2). unfold bind. rewrite E2.
    destruct R2 as [R2| ->]; [|eexists _, _, _; split; [reflexivity|]; split; [right; reflexivity|congruence]].
    assert (NA : r2 <> Fault FAbort) by (destruct R2 as [-> | ->]; discriminate).
    destruct (P2 NA) as ((v2 & pre & C2) & Ded2 & L2 & F2 & B3 & B4 & A2). clear P2 NA.
    assert (Cl2 : cellat w2 l v (t :: st)).
    { unfold cellat. rewrite F2; [exact C1|]. cbn [In]. intros [G|G]; [congruence|]. apply N2, Inc1, G. }
    assert (I2 : In ct (pre ++ stc)) by (apply in_or_app; auto).
    assert (DED : forall k, In k own0 -> dead w2 k).
    { intros k Hk. destruct (Ded1 _ Hk) as [G|G]; [apply Ded2; exact G|]. unfold dead. rewrite F2; [exact G|].
      cbn [In]. intros [<-|G2]; [contradiction|]. assert (X : k < length (w_heap w1)) by (eapply nth_lt; exact G).
      destruct (chain_alive _ _ _ _ _ Ch1 _ G2) as (cc & Hcc). unfold dead in G. congruence. }
    assert (FIN : forall (r' : res unit) w3 v3 stc3 vl, ures r' -> cellat w3 l vl (t :: st) -> cellat w3 c v3 stc3 -> In ct stc3 -> Fr [l; c] w2 w3 -> Acct w3 [] ->
      exists r0 b' w', (r', BBox l t c ct BIgnore, w3) = (r0, b', w') /\ (ures r0 \/ r0 = Fault FAbort) /\ (r0 <> Fault FAbort ->
      (exists own', chain w' b' l st own' /\ incl own' (c :: own0) /\ forall k, In k (c :: own0) -> In k own' \/ dead w' k) /\
      length (w_heap w') = length (w_heap w) /\ (forall k, ~ In k (l :: c :: own0) -> nth_error (w_heap w') k = nth_error (w_heap w) k) /\
      w_blds w' = w_blds w /\ w_bdropped w' ++ user_builder b' = w_bdropped w ++ user_builder (BBox l t c ct inner) /\ Acct w' [])).
    { intros r' w3 v3 stc3 vl Hr Hl Hc Hin [G1 G2 G3 G4] HA3. eexists _, _, _. split; [reflexivity|]. split; [left; exact Hr|]. intros _.
      split; [|split; [congruence|split; [|split; [congruence|split; [|exact HA3]]]]].
      - exists [c]. split; [|split].
        + eapply ch_box with (stc := stc3); eauto. eapply ch_ignore with (pre := []). exact Hc.
        + intros k [<-|[]]. left. reflexivity.
        + intros k [<-|Hk]; [left; left; reflexivity|]. right. unfold dead. rewrite G2; [apply DED; exact Hk|]. cbn [In]. intros [<-|[<-|[]]]; contradiction.
      - intros k Hk. rewrite G2, F2, F1; [reflexivity| | |]; cbn [In] in *; intuition.
      - cbn [user_builder]. rewrite app_nil_r, G4, B4. exact B2. }
    destruct R2 as [-> | ->]; [|eapply FIN; eauto; [unfold ures; auto|apply Fr_refl]].
    destruct (pop_in _ _ I2) as (s' & PP). destruct (take_ok _ _ _ _ _ _ _ C2 PP A2) as (w3 & E3 & C3 & F3 & A3). rewrite E3.
    assert (Cl3 : cellat w3 l v (t :: st)) by (unfold cellat; rewrite (fr_nth _ _ _ F3); [exact Cl2|cbn [In]; intuition congruence]).
    assert (F3' : Fr [l; c] w2 w3) by (eapply Fr_weak; [|exact F3]; intros k [<-|[]]; right; left; reflexivity).
    destruct v2 as [x|].
    + destruct (assign_ok _ _ _ _ _ _ (Some x) [] Cl3 (pop_top t st) A3) as (r4 & w4 & E4 & D4 & Cl4 & F4 & A4). rewrite E4.
      apply (FIN r4 w4 None (ct :: s') (Some x)); auto.
      * destruct D4 as [-> | ->]; unfold ures; eauto.
      * unfold cellat. rewrite (fr_nth _ _ _ F4); [exact C3|]. cbn [In]. intuition congruence.
      * left. reflexivity.
      * eapply Fr_trans; [exact F3'|]. eapply Fr_weak; [|exact F4]. intros k [<-|[]]. left. reflexivity.
    + unfold crash. eapply FIN; [unfold ures; auto|exact Cl3|exact C3|left; reflexivity|exact F3'|]. exact A3.
Qed.

(** Calls that may allocate: only l changed among the old cells, and the new ones are freed
    or in own. *)
Record Al (l : nat) (own : list nat) (w w' : world) : Prop := {
  al_len : length (w_heap w) <= length (w_heap w');
  al_nth : forall k, k < length (w_heap w) -> k <> l -> nth_error (w_heap w') k = nth_error (w_heap w) k;
  al_new : forall k, length (w_heap w) <= k -> k < length (w_heap w') -> In k own \/ dead w' k;
  al_bdropped : w_bdropped w' = w_bdropped w
}.

Lemma new_cell_ok w fl : Acct w fl -> exists c ct w', new_cell w = (Ok (c, ct), w') /\ c = length (w_heap w) /\
  cellat w' c None [ct] /\ length (w_heap w') = S (length (w_heap w)) /\ (forall k, k < length (w_heap w) -> nth_error (w_heap w') k = nth_error (w_heap w) k) /\
  w_blds w' = w_blds w /\ w_bdropped w' = w_bdropped w /\ Acct w' fl.
Proof.
  intros H. unfold new_cell. eexists _, _, _. split; [reflexivity|]. split; [reflexivity|]. unfold cellat. cbn [w_heap w_blds w_bdropped].
  split; [rewrite nth_error_app2, Nat.sub_diag by lia; reflexivity|]. split; [rewrite app_length; cbn; lia|].
  split; [intros k Hk; apply nth_error_app1; exact Hk|]. split; [reflexivity|]. split; [reflexivity|].
  intros x. specialize (H x). cbn [w_dropped w_taken w_heap w_next]. unfold contents in *. rewrite flat_map_app, count_occ_app. cbn [flat_map vals olist c_val app count_occ]. lia.
Qed.

Lemma Fr_Al l w w' : Fr [l] w w' -> Al l [] w w'.
Proof. intros [A B C D]. constructor; [lia| |intros k; lia|exact D]. intros k Hk Nk. apply B. intros [<-|[]]. congruence. Qed.

(** A new cell c, then a call on it that fails or succeeds, seen from the place l. *)
Lemma Al_nest l c own w w1 w2 w3 w4 : Fr [l] w w1 -> c = length (w_heap w1) -> length (w_heap w2) = S (length (w_heap w1)) ->
  (forall k, k < length (w_heap w1) -> nth_error (w_heap w2) k = nth_error (w_heap w1) k) -> w_bdropped w2 = w_bdropped w1 -> Fr [c] w2 w3 -> Al c own w3 w4 ->
  Al l (c :: own) w w4.
Proof.
  intros [A1 A2 A3 A4] Ec L2 N2 D2 [B1 B2 B3 B4] [C1 C2 C3 C4]. constructor.
  - lia.
  - intros k Hk Nk. rewrite C2, B2, N2, A2; try lia; [reflexivity| |]; cbn [In]; intuition lia.
  - intros k H1 H2. destruct (Nat.eq_dec k c) as [->|Ne]; [left; left; reflexivity|]. destruct (C3 k) as [G|G]; [lia|lia|left; right; exact G|right; exact G].
  - congruence.
Qed.
Lemma Al_free l c w w4 w5 : l <> c -> Al l [c] w w4 -> Fr [c] w4 w5 -> dead w5 c -> length (w_heap w) <= c -> Al l [] w w5.
Proof.
  intros NE [A1 A2 A3 A4] [B1 B2 B3 B4] D LC. constructor.
  - lia.
  - intros k Hk Nk. rewrite B2, A2; try lia; [reflexivity|]. cbn [In]. intuition lia.
  - intros k H1 H2. right. destruct (Nat.eq_dec k c) as [->|Ne]; [exact D|]. rewrite B1 in H2. destruct (A3 k H1 H2) as [[<-|[]]|G]; [congruence|].
    unfold dead. rewrite B2; [exact G|]. cbn [In]. intuition.
  - congruence.
Qed.

Lemma bopen_ok n : forall w l t v s sp, cellat w l v s -> pop_to t s = Some sp -> Acct w [] ->
  exists r w', bopen n l t w = (r, w') /\ (ures r \/ r = Fault FAbort) /\
    (r <> Fault FAbort -> Acct w' [] /\
      match r with
      | Ok b => exists own, chain w' b l sp own /\ Al l own w w' /\ (forall k, In k own -> length (w_heap w) <= k) /\
                               user_builder b = [w_blds w] /\ w_blds w' = S (w_blds w)
      | _ => (exists v' pre, cellat w' l v' (pre ++ sp) /\ (0 < n -> v' = v)) /\ Al l [] w w' /\ w_blds w' = w_blds w
      end).
Proof.
  induction n as [|n IH]; intros w l t v s sp C P A; cbn [BoxOwn.bopen]; unfold bind at 1.
  - destruct (reborrow_ok _ _ _ _ _ _ _ C P A) as (t1 & w1 & E1 & C1 & F1 & A1). rewrite E1.
    unfold bind at 1. destruct (user_call_ok _ _ _ _ _ C1 A1) as (r & w2 & v2 & E2 & R & C2 & F2 & A2). rewrite E2.
    pose proof (Fr_trans _ _ _ _ F1 F2) as F. pose proof (Fr_Al _ _ _ F) as G. pose proof (fr_blds _ _ _ F) as G3.
    destruct R as [(a & ->) | [-> | ->]].
    + unfold bind, new_bld, ret. eexists _, _. split; [reflexivity|]. split; [left; left; eauto|]. intros _. split; [exact A2|].
      exists []. split; [econstructor; exact C2|]. split; [destruct G; constructor; auto|].
      split; [intros k []|]. cbn [user_builder w_blds]. rewrite G3. auto.
    + eexists _, _. split; [reflexivity|]. split; [left; right; left; reflexivity|]. intros _. split; [exact A2|].
      split; [exists v2, [t1]; split; [exact C2|lia]|]. auto.
    + eexists _, _. split; [reflexivity|]. split; [left; right; right; reflexivity|]. intros _. split; [exact A2|].
      split; [exists v2, [t1]; split; [exact C2|lia]|]. auto.
  - destruct (reborrow_ok _ _ _ _ _ _ _ C P A) as (t1 & w1 & E1 & C1 & F1 & A1). rewrite E1.
    unfold bind at 1. destruct (new_cell_ok _ _ A1) as (c & ct & w2 & E2 & Ec & C2 & L2 & N2 & B2 & D2 & A2). rewrite E2.
    unfold bind at 1. destruct (reborrow_ok _ _ _ _ _ _ _ C2 (pop_top ct []) A2) as (p & w3 & E3 & C3 & F3 & A3). rewrite E3.
    pose proof (nth_lt _ _ _ C1) as Ll. assert (NE : l <> c) by lia. pose proof (fr_len _ _ _ F1) as Lw.
    unfold bind at 1. unfold on_fail.
    destruct (IH w3 c p None [p; ct] [p; ct] C3 (pop_top _ _) A3) as (r & w4 & E4 & R & Q). rewrite E4.
    assert (Cl3 : cellat w3 l v (t1 :: sp)). { unfold cellat. rewrite (fr_nth _ _ _ F3) by (cbn [In]; intuition congruence). rewrite N2 by lia. exact C1. }
    assert (L3 : length (w_heap w3) = S (length (w_heap w1))) by (rewrite (fr_len _ _ _ F3); exact L2).
    assert (B3 : w_blds w3 = w_blds w) by (rewrite (fr_blds _ _ _ F3), B2; apply F1).
    destruct R as [R| ->]; [|eexists _, _; split; [reflexivity|]; split; [right; reflexivity|congruence]].
    assert (NA : r <> Fault FAbort) by (destruct R as [(a & ->) | [-> | ->]]; discriminate). specialize (Q NA). destruct Q as (A4 & Q).
    assert (FAIL : forall r' : res bld, (r' = Err \/ r' = Fault FPanic) -> ((exists v' pre, cellat w4 c v' (pre ++ [p; ct])) /\ Al c [] w3 w4 /\ w_blds w4 = w_blds w3) ->
      exists r0 w', leave r' (free c ct) w4 = (r0, w') /\ (r0 = Err \/ r0 = Fault FPanic \/ r0 = Fault FAbort) /\ Acct w' [] /\
       ((exists v' pre, cellat w' l v' (pre ++ sp) /\ (0 < S n -> v' = v)) /\ Al l [] w w' /\ w_blds w' = w_blds w)).
    { intros r' Hr ((v' & pre & C4) & G & B4).
      assert (I4 : In ct (pre ++ [p; ct])) by (apply in_or_app; right; right; left; reflexivity). destruct (pop_in _ _ I4) as (s4 & P4).
      destruct (free_ok _ _ _ _ _ _ _ C4 P4 A4) as (r5 & w5 & E5 & D5 & Dc & F5 & A5).
      pose proof (Al_nest _ _ _ _ _ _ _ _ F1 Ec L2 N2 D2 F3 G) as G4.
      assert (G5 : Al l [] w w5) by (eapply Al_free; eauto; lia).
      assert (Cl5 : cellat w5 l v (t1 :: sp)).
      { unfold cellat. rewrite (fr_nth _ _ _ F5) by (cbn [In]; intuition congruence). rewrite (al_nth _ _ _ _ G); [exact Cl3|lia|exact NE]. }
      assert (X : exists r0, leave r' (free c ct) w4 = (r0, w5) /\ (r0 = Err \/ r0 = Fault FPanic \/ r0 = Fault FAbort)).
      { unfold leave. rewrite E5. destruct Hr as [-> | ->], D5 as [-> | ->]; eexists; (split; [reflexivity|]); auto. }
      destruct X as (r0 & X & R0). exists r0, w5. split; [exact X|]. split; [exact R0|]. split; [exact A5|]. split; [exists v, [t1]; split; [exact Cl5|reflexivity]|].
      split; [exact G5|]. rewrite (fr_blds _ _ _ F5). congruence. }
    destruct R as [(b & ->) | R].
    + clear FAIL. destruct Q as (own & Ch & G & Ow & Bb & Bn). cbn [bind nub_move ret]. unfold bind, nub_move, ret.
      eexists _, _. split; [reflexivity|]. split; [left; left; eauto|]. intros _. split; [exact A4|].
      exists (c :: own). split; [|split; [|split; [|split]]].
      * apply (ch_box _ _ _ _ _ _ _ v [p; ct]); auto.
        -- unfold cellat. rewrite (al_nth _ _ _ _ G); [exact Cl3|lia|exact NE].
        -- intros Hi. apply Ow in Hi. lia.
        -- intros Hi. apply Ow in Hi. lia.
        -- right. left. reflexivity.
      * exact (Al_nest _ _ _ _ _ _ _ _ F1 Ec L2 N2 D2 F3 G).
      * intros k [<-|Hk]; [lia|]. apply Ow in Hk. lia.
      * cbn [user_builder]. rewrite Bb. congruence.
      * congruence.
    + assert (Q' : (exists v' pre, cellat w4 c v' (pre ++ [p; ct])) /\ Al c [] w3 w4 /\ w_blds w4 = w_blds w3) by (destruct R as [-> | ->]; destruct Q as ((v' & pre & Q1 & _) & Q2); split; [eauto|exact Q2|eauto|exact Q2]).
      destruct (FAIL r R Q') as (r0 & w5 & E5 & R0 & A5 & G5).
      assert (X : (match r with Ok a => (Ok a, w4) | _ => leave r (free c ct) w4 end) = (r0, w5)) by (destruct R as [-> | ->]; exact E5).
      exists (match r0 with Ok _ => Err | Err => Err | Fault f => Fault f end), w5.
      split; [destruct R as [-> | ->]; rewrite E5; destruct R0 as [-> | [-> | ->]]; reflexivity|].
      destruct R0 as [-> | [-> | ->]]; (split; [unfold ures; auto|]); intros _; (split; [exact A5|exact G5]).
Qed.

Lemma bscalar_ok n : forall w l t v s sp, cellat w l v s -> pop_to t s = Some sp -> Acct w [] ->
  exists r w', bscalar n l t w = (r, w') /\ (ures r \/ r = Fault FAbort) /\
    (r <> Fault FAbort -> Acct w' [] /\ (exists v' pre, cellat w' l v' (pre ++ sp) /\ (r = Err -> 0 < n -> v' = v)) /\ Al l [] w w' /\ w_blds w' = w_blds w).
Proof.
  induction n as [|n IH]; intros w l t v s sp C P A; cbn [BoxOwn.bscalar]; unfold bind at 1.
  - destruct (reborrow_ok _ _ _ _ _ _ _ C P A) as (t1 & w1 & E1 & C1 & F1 & A1). rewrite E1.
    destruct (user_call_ok _ _ _ _ _ C1 A1) as (r & w2 & v2 & E2 & R & C2 & F2 & A2). rewrite E2.
    pose proof (Fr_trans _ _ _ _ F1 F2) as F. exists r, w2. split; [reflexivity|]. split; [left; exact R|]. intros _. split; [exact A2|].
    split; [exists v2, [t1]; split; [exact C2|lia]|]. split; [apply Fr_Al; exact F|apply F].
  - destruct (reborrow_ok _ _ _ _ _ _ _ C P A) as (t1 & w1 & E1 & C1 & F1 & A1). rewrite E1.
    unfold bind at 1. destruct (new_cell_ok _ _ A1) as (c & ct & w2 & E2 & Ec & C2 & L2 & N2 & B2 & D2 & A2). rewrite E2.
    unfold bind at 1. destruct (reborrow_ok _ _ _ _ _ _ _ C2 (pop_top ct []) A2) as (p & w3 & E3 & C3 & F3 & A3). rewrite E3.
    pose proof (nth_lt _ _ _ C1) as Ll. assert (NE : l <> c) by lia. pose proof (fr_len _ _ _ F1) as Lw.
    unfold finally. unfold bind at 1.
    destruct (IH w3 c p None [p; ct] [p; ct] C3 (pop_top _ _) A3) as (r & w4 & E4 & R & Q). rewrite E4.
    assert (Cl3 : cellat w3 l v (t1 :: sp)). { unfold cellat. rewrite (fr_nth _ _ _ F3) by (cbn [In]; intuition congruence). rewrite N2 by lia. exact C1. }
    assert (L3 : length (w_heap w3) = S (length (w_heap w1))) by (rewrite (fr_len _ _ _ F3); exact L2).
    assert (B3 : w_blds w3 = w_blds w) by (rewrite (fr_blds _ _ _ F3), B2; apply F1).
    destruct R as [R| ->]; [|eexists _, _; split; [reflexivity|]; split; [right; reflexivity|congruence]].
    assert (NA : r <> Fault FAbort) by (destruct R as [(a & ->) | [-> | ->]]; discriminate). specialize (Q NA). destruct Q as (A4 & (v4 & pre & C4 & _) & G & B4).
    pose proof (Al_nest _ _ _ _ _ _ _ _ F1 Ec L2 N2 D2 F3 G) as G4.
    assert (Cl4 : cellat w4 l v (t1 :: sp)) by (unfold cellat; rewrite (al_nth _ _ _ _ G); [exact Cl3|lia|exact NE]).
    assert (I4 : In ct (pre ++ [p; ct])) by (apply in_or_app; right; right; left; reflexivity).
    assert (LEAVE : forall (r' : res unit) w5 vl vc sc, ures r' -> (r' = Err -> vl = v) -> cellat w5 l vl (t1 :: sp) -> cellat w5 c vc sc -> In ct sc -> Acct w5 [] -> Al l [c] w w5 -> w_blds w5 = w_blds w ->
      exists r0 w', leave r' (free c ct) w5 = (r0, w') /\ (ures r0 \/ r0 = Fault FAbort) /\
       (r0 <> Fault FAbort -> Acct w' [] /\ (exists v' pre, cellat w' l v' (pre ++ sp) /\ (r0 = Err -> 0 < S n -> v' = v)) /\ Al l [] w w' /\ w_blds w' = w_blds w)).
    { intros r' w5 vl vc sc Hr He Hl Hc Hin HA5 G5 B5. destruct (pop_in _ _ Hin) as (s5 & P5).
      destruct (free_ok _ _ _ _ _ _ _ Hc P5 HA5) as (r6 & w6 & E6 & D6 & Dc & F6 & A6).
      assert (X : exists r0, leave r' (free c ct) w5 = (r0, w6) /\ (ures r0 \/ r0 = Fault FAbort) /\ (r0 = Err -> r' = Err)).
      { unfold leave. rewrite E6. destruct Hr as [(a & ->) | [-> | ->]], D6 as [-> | ->]; eexists; (split; [reflexivity|]); (split; [unfold ures; eauto|congruence]). }
      destruct X as (r0 & X & R0 & Re). exists r0, w6. split; [exact X|]. split; [exact R0|]. intros _. split; [exact A6|].
      split; [exists vl, [t1]; split; [unfold cellat; rewrite (fr_nth _ _ _ F6) by (cbn [In]; intuition congruence); exact Hl|auto]|].
      split; [eapply Al_free; eauto; lia|]. rewrite (fr_blds _ _ _ F6). exact B5. }
    destruct R as [(a & ->) | R].
    + unfold bind at 1. destruct (pop_in _ _ I4) as (s4 & P4). destruct (take_ok _ _ _ _ _ _ _ C4 P4 A4) as (w5 & E5 & C5 & F5 & A5). rewrite E5.
      assert (Cl5 : cellat w5 l v (t1 :: sp)) by (unfold cellat; rewrite (fr_nth _ _ _ F5) by (cbn [In]; intuition congruence); exact Cl4).
      assert (G5 : forall w6 w7, Al l [c] w w6 -> Fr [l; c] w6 w7 -> Al l [c] w w7).
      { intros w6 w7 [H1 H2 H3 H4] [K1 K2 K3 K4]. constructor; [lia| | |congruence].
        - intros k Hk Nk. rewrite K2; [auto|]. cbn [In]. intuition lia.
        - intros k Hk1 Hk2. rewrite K1 in Hk2. destruct (H3 k Hk1 Hk2) as [[->|[]]|Dk]; [left; left; reflexivity|].
          destruct (Nat.eq_dec k c) as [->|Ne]; [left; left; reflexivity|]. right. unfold dead. rewrite K2; [exact Dk|]. cbn [In]. intuition lia. }
      assert (F5' : Fr [l; c] w4 w5) by (eapply Fr_weak; [|exact F5]; intros k [<-|[]]; right; left; reflexivity).
      destruct v4 as [x|].
      * destruct (assign_ok _ _ _ _ _ _ (Some x) [] Cl5 (pop_top t1 sp) A5) as (r6 & w6 & E6 & D6 & Cl6 & F6 & A6). rewrite E6.
        apply (LEAVE r6 w6 (Some x) None (ct :: s4)); auto.
        -- destruct D6 as [-> | ->]; unfold ures; eauto.
        -- destruct D6 as [-> | ->]; discriminate.
        -- unfold cellat. rewrite (fr_nth _ _ _ F6) by (cbn [In]; intuition congruence). exact C5.
        -- left. reflexivity.
        -- eapply G5; [exact G4|]. eapply Fr_trans; [exact F5'|]. eapply Fr_weak; [|exact F6]. intros k [<-|[]]. left. reflexivity.
        -- rewrite (fr_blds _ _ _ F6), (fr_blds _ _ _ F5). congruence.
      * unfold crash. apply (LEAVE (Fault FPanic) w5 v None (ct :: s4)); auto.
        -- unfold ures. auto.
        -- left. reflexivity.
        -- eapply G5; eauto.
        -- rewrite (fr_blds _ _ _ F5). congruence.
    + assert (X : (match r with Ok a => (do o <- take c ct; match o with None => crash FPanic | Some x => assign l t1 (Some x) end) w4 | Err => (Err, w4) | Fault e => (Fault e, w4) end) = (r, w4)).
      { destruct R as [-> | ->]; reflexivity. }
      destruct R as [-> | ->]; eapply LEAVE; eauto; unfold ures; auto; congruence.
Qed.
End F.
