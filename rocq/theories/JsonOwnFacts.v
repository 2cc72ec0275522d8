(** C55: proofs. *)
From Coq Require Import String ZArith List Bool Arith Lia Permutation.
From Verif Require Import Base Types MapFacts JsonOwn JsonOwnSpec.
Import ListNotations.
Open Scope nat_scope.
Notation cnt := (count_occ Nat.eq_dec).

(** Every label made is either released or owned, once. *)
Definition Acc (w : mem) (L : list nat) : Prop :=
  forall i, (cnt (m_freed w) i + cnt L i = if i <? m_next w then 1 else 0)%nat.
Definition same (L L' : list nat) : Prop := forall i, cnt L i = cnt L' i.
Definition none {A} (_ : A) : list nat := [].
Definition elabs (e : entry) : list nat := fst (fst e) :: labs (snd e).
Lemma labs_obj b l : labs (LObj b l) = olab b ++ flat_map elabs l.
Proof. reflexivity. Qed.

Ltac same := let i := fresh "i" in intros i; unfold none; cbv beta; rewrite ?labs_obj; cbn [flat_map app olab fst snd map rev]; rewrite ?labs_obj; cbn [labs]; repeat (rewrite count_occ_app || (progress cbn [count_occ app olab elabs fst snd flat_map])); repeat match goal with |- context[Nat.eq_dec ?a ?b] => destruct (Nat.eq_dec a b) end; lia.

Lemma Acc_same w L L' : Acc w L -> same L L' -> Acc w L'.
Proof. intros H E i. rewrite <- E. apply H. Qed.

(** Starting with the labels L (and any others F), m does what s says and ends with the
    labels of its result. *)
Definition Tr {A B} (L : list nat) (m : M A) (la : A -> list nat) (er : A -> B) (s : res B) : Prop :=
  forall F w, Acc w (L ++ F) ->
  match s with
  | Ok b => exists a w', m w = Ok (a, w') /\ er a = b /\ Acc w' (la a ++ F)
  | Err => m w = Err
  | Fault f => m w = Fault f
  end.
Definition U (m : M unit) (L : list nat) : Prop := Tr L m none (fun _ => tt) (Ok tt).

Lemma Tr_same {A B} L L' m la (er : A -> B) s : Tr L' m la er s -> same L L' -> Tr L m la er s.
Proof. intros H E F w HA. apply H. eapply Acc_same; [exact HA|]. intros i. rewrite !count_occ_app. now rewrite E. Qed.

Lemma Tr_ret {A B} L (a : A) la (er : A -> B) : same L (la a) -> Tr L (ret a) la er (Ok (er a)).
Proof. intros E F w HA. exists a, w. split; [reflexivity|]. split; [reflexivity|]. eapply Acc_same; [exact HA|]. intros i. rewrite !count_occ_app. now rewrite E. Qed.
Lemma Tr_ret' {A B} L (a : A) la (er : A -> B) b : er a = b -> same L (la a) -> Tr L (ret a) la er (Ok b).
Proof. intros <-. apply Tr_ret. Qed.

Lemma Tr_bind {A B C D} L L1 R (m : M A) la (er : A -> B) s (f : A -> M C) lc (er' : C -> D) (g : B -> res D) :
  Tr L1 m la er s -> same L (L1 ++ R) ->
  (forall a, s = Ok (er a) -> Tr (la a ++ R) (f a) lc er' (g (er a))) ->
  Tr L (bind m f) lc er' (Base.bind s g).
Proof.
  intros H1 E H2 F w HA. unfold bind. specialize (H1 (R ++ F) w).
  assert (HA1 : Acc w (L1 ++ R ++ F)).
  { eapply Acc_same; [exact HA|]. intros i. rewrite app_assoc, !(count_occ_app _ _ F). now rewrite E. }
  specialize (H1 HA1). destruct s as [b| |e]; cbn [Base.bind].
  - destruct H1 as (a & w' & -> & <- & HA2). apply H2; [reflexivity|]. now rewrite <- app_assoc.
  - now rewrite H1.
  - now rewrite H1.
Qed.
(** ... when the first part always succeeds. *)
Lemma Tr_seq {A C D} L L1 R (m : M A) la B (er : A -> B) b (f : A -> M C) lc (er' : C -> D) s :
  Tr L1 m la er (Ok b) -> same L (L1 ++ R) ->
  (forall a, er a = b -> Tr (la a ++ R) (f a) lc er' s) -> Tr L (bind m f) lc er' s.
Proof.
  intros H1 E H2. change s with (Base.bind (Ok b) (fun _ => s)). eapply Tr_bind; [exact H1|exact E|].
  intros a [= ->]. cbn. apply H2. reflexivity.
Qed.
Lemma Tr_frame {A B} L R m la (er : A -> B) s : Tr L m la er s -> Tr (L ++ R) m (fun a => la a ++ R) er s.
Proof.
  intros H F w HA. rewrite <- app_assoc in HA. specialize (H _ _ HA). destruct s; [|exact H|exact H].
  destruct H as (x & w' & H1 & H2 & H3). exists x, w'. rewrite <- app_assoc. auto.
Qed.
Lemma Tr_stuck {A B} L la (er : A -> B) : Tr L stuck la er Err.
Proof. intros F w _. reflexivity. Qed.
Lemma Tr_crash {A B} L la (er : A -> B) f : Tr L (crash f) la er (Fault f).
Proof. intros F w _. reflexivity. Qed.

Lemma Acc_live w i L : Acc w L -> In i L -> ~ In i (m_freed w) /\ (i < m_next w)%nat.
Proof.
  intros H Hi. apply (count_occ_In Nat.eq_dec) in Hi. specialize (H i). destruct (Nat.ltb_spec i (m_next w)); [|lia].
  split; [|assumption]. intros Hf. apply (count_occ_In Nat.eq_dec) in Hf. lia.
Qed.

Lemma touch_ok b : Tr (olab b) (touch b) (fun _ => olab b) (fun _ => tt) (Ok tt).
Proof.
  intros F w HA. destruct b as [i|]; cbn [touch olab] in *; [|exists tt, w; auto].
  destruct (in_dec _ _ _) as [Hi|_]; [|exists tt, w; auto].
  destruct (Acc_live w i _ HA); [left; reflexivity|contradiction].
Qed.
Lemma release_ok b : U (release b) (olab b).
Proof.
  unfold U, release. eapply (Tr_seq _ _ []); [apply touch_ok|now rewrite app_nil_r|]. intros a _. rewrite app_nil_r.
  intros F w HA. eexists tt, _. split; [reflexivity|]. split; [reflexivity|]. intros i. cbn [m_freed m_next none app].
  specialize (HA i). destruct b; cbn [olab] in *; rewrite ?count_occ_app in *; cbn [count_occ] in *; destruct (i <? m_next w); try destruct (Nat.eq_dec _ _); cbn in *; lia.
Qed.
Lemma alloc_ok : Tr [] alloc (fun i => [i]) (fun _ => tt) (Ok tt).
Proof.
  intros F w HA. eexists _, _. split; [reflexivity|]. split; [reflexivity|]. intros i. cbn [m_freed m_next app] in *.
  specialize (HA i). cbn [count_occ]. destruct (Nat.eq_dec _ _) as [<-|Ne].
  - rewrite Nat.ltb_irrefl in HA. destruct (Nat.ltb_spec (m_next w) (S (m_next w))); lia.
  - destruct (Nat.ltb_spec i (S (m_next w))), (Nat.ltb_spec i (m_next w)); lia.
Qed.
Lemma each_ok {A} (f : A -> M unit) lx l : (forall x, In x l -> U (f x) (lx x)) -> U (each f l) (flat_map lx l).
Proof.
  induction l as [|x l IH]; intros H; cbn [each flat_map].
  - unfold U. apply Tr_ret'; [reflexivity|]. intros i. reflexivity.
  - unfold U. eapply Tr_seq; [apply H; left; reflexivity|intros i; reflexivity|]. intros a _. cbn [none app]. apply IH. intros y Hy. apply H. right. exact Hy.
Qed.

Lemma U_seq {C D} L L1 R (m : M unit) (f : unit -> M C) lc (er' : C -> D) s :
  U m L1 -> same L (L1 ++ R) -> (Tr R (f tt) lc er' s) -> Tr L (bind m f) lc er' s.
Proof. intros H E H2. eapply Tr_seq; [exact H|exact E|]. intros [] _. exact H2. Qed.
Lemma touch_seq {C D} L b R (f : unit -> M C) lc (er' : C -> D) s :
  same L (olab b ++ R) -> Tr (olab b ++ R) (f tt) lc er' s -> Tr L (bind (touch b) f) lc er' s.
Proof. intros E H2. eapply Tr_seq; [apply touch_ok|exact E|]. intros [] _. exact H2. Qed.

(** Drop *)
Section Drop.
Variable g : lval -> M unit.
Definition gok (v : lval) : Prop := U (g v) (labs v).

Lemma vec_drop_ok b l : (forall x, In x l -> gok x) -> U (vec_drop g (b, l)) (olab b ++ flat_map labs l).
Proof.
  intros H. unfold U, vec_drop. eapply U_seq; [apply (each_ok _ labs); exact H| |apply release_ok].
  intros i. cbn [fst snd]. rewrite !count_occ_app. lia.
Qed.
Lemma map_drop_ok b l : (forall e, In e l -> gok (snd e)) -> U (map_drop g (b, l)) (olab b ++ flat_map elabs l).
Proof.
  intros H. unfold U, map_drop. eapply U_seq; [apply (each_ok _ elabs)| |apply release_ok].
  - intros [[ki n] c] He. apply H in He. unfold U, elabs. eapply U_seq; [apply release_ok| |exact He]. intros i. reflexivity.
  - intros i. cbn [fst snd]. rewrite !count_occ_app. lia.
Qed.

Hypothesis Hleaf : forall i x, gok (LLeaf i x).

Lemma push_children_eq l st : push_children l st = rev l ++ st.
Proof. revert st. induction l as [|c l IH]; intros st; cbn; [reflexivity|]. rewrite IH, <- app_assoc. reflexivity. Qed.
Lemma push_entries_ok l st :
  Tr (flat_map elabs l ++ flat_map labs st) (push_entries l st) (flat_map labs) (fun st' => st') (Ok (rev (map snd l) ++ st)).
Proof.
  revert st. induction l as [|[[ki n] c] l IH]; intros st; cbn [push_entries].
  - apply Tr_ret'; [reflexivity|]. intros i. reflexivity.
  - eapply U_seq; [apply release_ok| |].
    2:{ eapply Tr_same; [cbn [map rev]; rewrite <- app_assoc; cbn [app]; apply IH|]. intros i. reflexivity. }
    same.
Qed.

Lemma list_sum_app' l l' : list_sum (l ++ l') = list_sum l + list_sum l'.
Proof. apply list_sum_app. Qed.
Lemma list_sum_rev l : list_sum (rev l) = list_sum l.
Proof. induction l as [|x l IH]; [reflexivity|]. cbn [rev]. rewrite list_sum_app', IH. unfold list_sum. cbn [fold_right]. lia. Qed.
Lemma cnt_flat_rev {A} (f : A -> list nat) l i : cnt (flat_map f (rev l)) i = cnt (flat_map f l) i.
Proof. induction l; cbn; [reflexivity|]. rewrite flat_map_app, !count_occ_app. cbn. rewrite app_nil_r. lia. Qed.

Lemma safely_loop_ok fuel : forall st, list_sum (map nodes st) < fuel -> U (safely_loop g fuel st) (flat_map labs st).
Proof.
  induction fuel as [|f IH]; intros st Hf; [lia|]. cbn [safely_loop]. destruct st as [|v st].
  { apply Tr_ret'; [reflexivity|]. intros i. reflexivity. }
  cbn [map list_sum nodes] in Hf. change (list_sum (nodes v :: map nodes st)) with (nodes v + list_sum (map nodes st)) in Hf. destruct v as [j x|b l|b l]; cbn [nodes] in Hf.
  - unfold U. eapply U_seq; [apply Hleaf|intros i; reflexivity|]. apply IH. lia.
  - unfold take_array, manually_drop. cbn [fst snd].
    eapply (Tr_seq _ [] _ _ none _ (fun v => v)); [apply Tr_ret'; [reflexivity|intros i; reflexivity]|intros i; reflexivity|]. intros a ->.
    cbn [none app fst snd]. eapply (touch_seq _ b (flat_map labs l ++ flat_map labs st)).
    { intros i. cbn [flat_map labs]. now rewrite app_assoc. }
    eapply (U_seq _ _ (flat_map labs l ++ flat_map labs st)); [apply (vec_drop_ok b []); intros ? []|cbn [flat_map]; rewrite app_nil_r; intros i; reflexivity|].
    rewrite push_children_eq. eapply Tr_same; [apply IH|].
    + rewrite map_app, list_sum_app', map_rev, list_sum_rev. lia.
    + intros i. rewrite flat_map_app, !count_occ_app, cnt_flat_rev. reflexivity.
  - unfold take_object, manually_drop. cbn [fst snd].
    eapply (Tr_seq _ [] _ _ none _ (fun v => v)); [apply Tr_ret'; [reflexivity|intros i; reflexivity]|intros i; reflexivity|]. intros a ->.
    cbn [none app fst snd]. eapply (touch_seq _ b (flat_map elabs l ++ flat_map labs st)).
    { intros i. cbn [flat_map]. rewrite labs_obj. now rewrite app_assoc. }
    eapply (Tr_seq _ _ (olab b)); [apply (push_entries_ok l st)| |].
    { intros i. rewrite !count_occ_app. lia. }
    intros a ->. eapply (U_seq _ _ (flat_map labs (rev (map snd l) ++ st))); [apply (map_drop_ok b []); intros ? []| |].
    { intros i. cbn [flat_map]. rewrite app_nil_r, !count_occ_app. lia. }
    apply IH. rewrite map_app, list_sum_app', map_rev, list_sum_rev, map_map. lia.
Qed.
Lemma safely_ok v : U (safely g v) (labs v).
Proof.
  destruct v as [i x|b l|b l]; cbn [safely]; [apply Hleaf| |];
  (eapply Tr_same; [apply safely_loop_ok; unfold list_sum at 1; cbn [map fold_right]; lia|]; intros i; cbn [flat_map]; now rewrite app_nil_r).
Qed.
Lemma array_drop_ok b l : Tr (olab b ++ flat_map labs l) (array_drop g (b, l)) (fun v => olab (fst v)) (fun v => v) (Ok (b, [])).
Proof.
  unfold array_drop. eapply touch_seq; [intros i; reflexivity|]. cbn [fst snd].
  eapply (U_seq _ _ (olab b)); [apply (each_ok _ labs); intros x _; apply safely_ok|same|]. apply Tr_ret'; [reflexivity|]. same.
Qed.
Lemma object_drop_ok b l : Tr (olab b ++ flat_map elabs l) (object_drop g (b, l)) none (fun v => v) (Ok (None, [])).
Proof.
  unfold object_drop. eapply touch_seq; [intros i; reflexivity|]. cbn [fst snd].
  eapply (U_seq _ _ (olab b)); [apply (each_ok _ elabs)| |].
  - intros [[ki n] c] He. unfold U. eapply U_seq; [apply safely_ok| |apply release_ok]. intros i. unfold elabs. cbn [fst snd olab]. rewrite count_occ_app. cbn [count_occ]. destruct (Nat.eq_dec ki i); lia.
  - intros i. rewrite !count_occ_app. lia.
  - eapply (U_seq _ _ []); [apply (map_drop_ok b []); intros ? []|cbn [flat_map]; intros i; rewrite !app_nil_r; reflexivity|]. apply Tr_ret'; [reflexivity|]. intros i. reflexivity.
Qed.
End Drop.

Lemma glue_ok k v : (4 <= k)%nat -> U (glue k v) (labs v).
Proof.
  intros Hk. destruct k as [|[|[|[|k]]]]; try lia. cbn [glue].
  assert (HL : forall i x, gok (glue (S k)) (LLeaf i x)) by (intros i x; unfold gok; cbn [glue labs]; apply release_ok).
  destruct v as [i x|b l|b l]; [apply release_ok| |].
  - unfold U. eapply (Tr_seq _ _ []); [apply array_drop_ok; exact HL|now rewrite app_nil_r|].
    intros a ->. cbn [fst]. eapply Tr_same; [apply (vec_drop_ok _ b []); intros ? []|]. intros i. reflexivity.
  - unfold U. eapply (Tr_seq _ _ []); [apply object_drop_ok; exact HL|now rewrite app_nil_r|].
    intros a ->. cbn [none]. eapply Tr_same; [apply (map_drop_ok _ None []); intros ? []|]. intros i. reflexivity.
Qed.
