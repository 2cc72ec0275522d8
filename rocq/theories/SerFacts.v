(** The serializer's loop writes the rendering of the described tree, for every
    implementation of the traits. *)
From Coq Require Import String ZArith List Bool Lia Floats.SpecFloat.
From Verif Require Import Base Utf8 Utf8Facts F64 Types Ser SerSpec EscFacts.
Import ListNotations.
Open Scope Z_scope.

Scheme Describes_mut := Minimality for Describes Sort Prop
  with FragDescribes_mut := Minimality for FragDescribes Sort Prop
  with SeqDescribes_mut := Minimality for SeqDescribes Sort Prop
  with MapDescribes_mut := Minimality for MapDescribes Sort Prop.
Combined Scheme Describes_mutind from Describes_mut, FragDescribes_mut, SeqDescribes_mut, MapDescribes_mut.

Section Loop.
Context {St D SQ MP : Type}.
Variable I : siface St D SQ MP.
Variable ryu : f64 -> bytes.
Notation rend := (render itoa ryu).
Notation loop := (ser_loop I ryu).

(** What happens after a scalar, or a finished container, has been written. *)
Definition cont (fuel : nat) (r : res (sstep (D := D) (SQ := SQ) (MP := MP)) * St) : res bytes * St :=
  match r with
  | (Ok (SReturn out'), st2) => (Ok out', st2)
  | (Ok (SBegin d' stack' out'), st2) => loop fuel d' stack' out' st2
  | (Err, st2) => (Err, st2)
  | (Fault e, st2) => (Fault e, st2)
  end.
Lemma loop_S n d stack out st :
  loop (S n) d stack out st =
  match i_begin I d st with
  | (Ok f, st1) => cont n (ser_turn I ryu f stack out st1)
  | (Err, st1) => (Err, st1)
  | (Fault e, st1) => son_fault I e stack st1
  end.
Proof. reflexivity. Qed.
Lemma sunwind_not_ok {A} ls : forall st (a : A) st', @sunwind _ _ _ _ I A ls st <> (Ok a, st').
Proof.
  induction ls as [|l ls IH]; intros st a st'; cbn [sunwind]; [discriminate|].
  destruct (sdrop I l st) as [[u| |[]] st1]; try apply IH; discriminate.
Qed.
Lemma son_fault_not_ok {A} f ls st (a : A) st' : @son_fault _ _ _ _ I A f ls st <> (Ok a, st').
Proof. destruct f; cbn [son_fault]; try discriminate. apply sunwind_not_ok. Qed.
Lemma cont_fault n f ls st o st' : cont n (son_fault I f ls st) <> (Ok o, st').
Proof.
  destruct (son_fault I f ls st) as [[r| |e] st1] eqn:E; cbn [cont]; try discriminate. destruct (son_fault_not_ok _ _ _ _ _ E).
Qed.

Definition elems_tail (l : list stree) : bytes := flat_map (fun t => 44 :: rend t) l.
Definition member (kt : bytes * stree) : bytes := quote (fst kt) ++ 58 :: rend (snd kt).
Definition members_tail (l : list (bytes * stree)) : bytes := flat_map (fun kt => 44 :: member kt) l.
Lemma commas_tail {A} (f : A -> bytes) x l : commas (map f (x :: l)) = f x ++ flat_map (fun y => 44 :: f y) l.
Proof.
  revert x. induction l as [|y l IH]; intros x; [symmetry; apply app_nil_r|].
  change (commas (map f (x :: y :: l))) with (f x ++ 44 :: commas (map f (y :: l))). rewrite IH. reflexivity.
Qed.
Definition nodes_l (l : list stree) : nat := list_sum (map nodes l).
Definition nodes_m (l : list (bytes * stree)) : nat := list_sum (map (fun kt => nodes (snd kt)) l).

(** ** A described tree is written *)
Definition Pd (d : D) (st : St) (t : stree) (st' : St) : Prop :=
  strs_ok t = true -> forall fuel stack out, loop (nodes t + fuel) d stack out st = cont fuel (ser_pop I stack (out ++ rend t) st').
Definition Pf (f : fragment SQ MP) (st : St) (t : stree) (st' : St) : Prop :=
  strs_ok t = true ->
  forall fuel stack out, cont (pred (nodes t) + fuel) (ser_turn I ryu f stack out st) = cont fuel (ser_pop I stack (out ++ rend t) st').
Definition Pq (q : SQ) (st : St) (l : list stree) (st' : St) : Prop := forallb strs_ok l = true ->
  (forall fuel stack out, cont (nodes_l l + fuel) (ser_pop I (SLSeq q :: stack) out st) =
    cont fuel (ser_pop I stack (out ++ elems_tail l ++ [93]) st')) /\
  (forall fuel stack out, cont (nodes_l l + fuel) (ser_turn I ryu (FSeq q) stack out st) =
    cont fuel (ser_pop I stack (out ++ 91 :: commas (map rend l) ++ [93]) st')).
Definition Pm (m : MP) (st : St) (l : list (bytes * stree)) (st' : St) : Prop := forallb (fun kt => str_ok (fst kt) && strs_ok (snd kt)) l = true ->
  (forall fuel stack out, cont (nodes_m l + fuel) (ser_pop I (SLMap m :: stack) out st) =
    cont fuel (ser_pop I stack (out ++ members_tail l ++ [125]) st')) /\
  (forall fuel stack out, cont (nodes_m l + fuel) (ser_turn I ryu (FMap m) stack out st) =
    cont fuel (ser_pop I stack (out ++ 123 :: commas (map member l) ++ [125]) st')).

Lemma nodes_pos t : (1 <= nodes t)%nat.
Proof. destruct t; cbn [nodes]; lia. Qed.

Lemma described_is_written :
  (forall d st t st', Describes I d st t st' -> Pd d st t st') /\
  (forall f st t st', FragDescribes I f st t st' -> Pf f st t st') /\
  (forall q st l st', SeqDescribes I q st l st' -> Pq q st l st') /\
  (forall m st l st', MapDescribes I m st l st' -> Pm m st l st').
Proof.
  apply (Describes_mutind St D SQ MP I Pd Pf Pq Pm).
  - intros d st f st1 t st2 HB _ IH HS fuel stack out. unfold Pf in IH. pose proof (nodes_pos t).
    replace (nodes t + fuel)%nat with (S (pred (nodes t) + fuel)) by lia. rewrite loop_S, HB. apply IH, HS.
  - intros st _ fuel stack out. reflexivity.
  - intros b st _ fuel stack out. destruct b; reflexivity.
  - intros s st HS fuel stack out. cbn [ser_turn nodes pred Nat.add render]. rewrite escape_str_eq by exact HS. reflexivity.
  - intros n st _ fuel stack out. reflexivity.
  - intros n st _ fuel stack out. reflexivity.
  - intros f st _ fuel stack out. reflexivity.
  - intros q st l st' _ IH HS fuel stack out. apply IH, HS.
  - intros m st l st' _ IH HS fuel stack out. apply IH, HS.
  - intros q st q' st1 r st2 HN HD Hr _. split; intros fuel stack out; cbn [nodes_l map list_sum fold_right Nat.add ser_pop ser_turn]; rewrite HN, HD; destruct r; (reflexivity || discriminate).
  - intros q st d q' st1 t st2 l st3 HN _ IHd _ IH1 HS. cbn [forallb] in HS. apply andb_true_iff in HS. destruct HS as [HS1 HS2].
    specialize (IHd HS1). destruct (IH1 HS2) as [IH1' _]. clear IH1. rename IH1' into IH1. unfold Pd in IHd.
    assert (HL : forall fuel, (nodes_l (t :: l) + fuel = nodes t + (nodes_l l + fuel))%nat) by (intros; unfold nodes_l; cbn [map list_sum fold_right]; unfold list_sum; lia).
    split; intros fuel stack out; rewrite HL; cbn [ser_pop ser_turn]; rewrite HN; cbn [cont]; rewrite IHd, IH1.
    + unfold elems_tail. cbn [flat_map]. repeat (rewrite <- app_assoc; cbn [app]). reflexivity.
    + rewrite commas_tail. unfold elems_tail. repeat (rewrite <- app_assoc; cbn [app]). reflexivity.
  - intros m st m' st1 r st2 HN HD Hr _. split; intros fuel stack out; cbn [nodes_m map list_sum fold_right Nat.add ser_pop ser_turn]; rewrite HN, HD; destruct r; (reflexivity || discriminate).
  - intros m st k d m' st1 t st2 l st3 HN _ IHd _ IH1 HS. cbn [forallb fst snd] in HS. apply andb_true_iff in HS. destruct HS as [HS1 HS2]. apply andb_true_iff in HS1. destruct HS1 as [HK HS1].
    specialize (IHd HS1). destruct (IH1 HS2) as [IH1' _]. clear IH1. rename IH1' into IH1. unfold Pd in IHd.
    assert (HL : forall fuel, (nodes_m ((k, t) :: l) + fuel = nodes t + (nodes_m l + fuel))%nat) by (intros; unfold nodes_m; cbn [map list_sum fold_right snd]; unfold list_sum; lia).
    split; intros fuel stack out; rewrite HL; cbn [ser_pop ser_turn]; rewrite HN, escape_str_eq by exact HK; cbn [bind cont]; rewrite IHd, IH1.
    + unfold members_tail, member. cbn [flat_map fst snd]. repeat (rewrite <- app_assoc; cbn [app]). reflexivity.
    + rewrite commas_tail. unfold members_tail, member. cbn [fst snd]. repeat (rewrite <- app_assoc; cbn [app]). reflexivity.
Qed.

Theorem described_written d st t st' fuel : Describes I d st t st' -> strs_ok t = true -> (nodes t <= fuel)%nat ->
  to_string_impl I ryu fuel d st = (Ok (rend t), st').
Proof.
  intros H HS HF. unfold to_string_impl. replace fuel with (nodes t + (fuel - nodes t))%nat by lia.
  rewrite (proj1 described_is_written _ _ _ _ H HS). reflexivity.
Qed.

Hypothesis HV : strs_valid I.
Lemma described_strs :
  (forall d st t st', Describes I d st t st' -> strs_ok t = true) /\
  (forall f st t st', FragDescribes I f st t st' -> (forall s, f = FStr s -> str_ok s = true) -> strs_ok t = true) /\
  (forall q st l st', SeqDescribes I q st l st' -> forallb strs_ok l = true) /\
  (forall m st l st', MapDescribes I m st l st' -> forallb (fun kt => str_ok (fst kt) && strs_ok (snd kt)) l = true).
Proof.
  apply (Describes_mutind St D SQ MP I (fun d st t st' => strs_ok t = true) (fun f st t st' => (forall s, f = FStr s -> str_ok s = true) -> strs_ok t = true)
    (fun q st l st' => forallb strs_ok l = true) (fun m st l st' => forallb (fun kt => str_ok (fst kt) && strs_ok (snd kt)) l = true)); try (intros; reflexivity).
  - intros d st f st1 t st2 HB _ IH. apply IH. intros s ->. eapply (proj1 HV), HB.
  - intros s st H. apply H. reflexivity.
  - intros q st l st' _ H _. exact H.
  - intros q st l st' _ H _. exact H.
  - intros q st d q' st1 t st2 l st3 HN _ IHd _ IH. cbn [forallb]. rewrite IHd, IH. reflexivity.
  - intros m st k d m' st1 t st2 l st3 HN _ IHd _ IH. cbn [forallb fst snd]. rewrite IHd, IH, (proj2 HV _ _ _ _ _ _ HN). reflexivity.
Qed.
Theorem describes_written d st t st' fuel : Describes I d st t st' -> (nodes t <= fuel)%nat ->
  to_string_impl I ryu fuel d st = (Ok (rend t), st').
Proof. intros H. apply described_written; [exact H|]. eapply (proj1 described_strs), H. Qed.

(** ** What is written was described *)
Definition Done (fuel fuel' : nat) (stack : list slayer) (out : bytes) (st : St) (o : bytes) (stf : St) : Prop :=
  (fuel' <= fuel)%nat /\ cont fuel' (ser_pop I stack out st) = (Ok o, stf).

Lemma written_was_described fuel :
  (forall d stack out st o stf, loop fuel d stack out st = (Ok o, stf) ->
     exists t st1 fuel', Describes I d st t st1 /\ fuel = (nodes t + fuel')%nat /\ cont fuel' (ser_pop I stack (out ++ rend t) st1) = (Ok o, stf)) /\
  (forall q stack out st o stf, cont fuel (ser_pop I (SLSeq q :: stack) out st) = (Ok o, stf) ->
     exists l st1 fuel', SeqDescribes I q st l st1 /\ fuel = (nodes_l l + fuel')%nat /\ cont fuel' (ser_pop I stack (out ++ elems_tail l ++ [93]) st1) = (Ok o, stf)) /\
  (forall m stack out st o stf, cont fuel (ser_pop I (SLMap m :: stack) out st) = (Ok o, stf) ->
     exists l st1 fuel', MapDescribes I m st l st1 /\ fuel = (nodes_m l + fuel')%nat /\ cont fuel' (ser_pop I stack (out ++ members_tail l ++ [125]) st1) = (Ok o, stf)).
Proof.
  induction fuel as [fuel IH] using (well_founded_induction lt_wf).
  assert (HL : forall d stack out st o stf, loop fuel d stack out st = (Ok o, stf) ->
     exists t st1 fuel', Describes I d st t st1 /\ fuel = (nodes t + fuel')%nat /\ cont fuel' (ser_pop I stack (out ++ rend t) st1) = (Ok o, stf)).
  { destruct fuel as [|n]; intros d stack out st o stf H; [discriminate|]. rewrite loop_S in H.
    destruct (i_begin I d st) as [[f| |] st1] eqn:HB; [|discriminate|destruct (son_fault_not_ok _ _ _ _ _ H)].
    destruct f as [|b|s|z|z|f|q|m]; cbn [ser_turn ser_scalar] in H.
    - exists STNull, st1, n. split; [econstructor; [exact HB|constructor]|]. split; [reflexivity|exact H].
    - exists (STBool b), st1, n. split; [econstructor; [exact HB|constructor]|]. split; [reflexivity|]. destruct b; exact H.
    - rewrite escape_str_eq in H by (eapply (proj1 HV), HB). exists (STStr s), st1, n. split; [econstructor; [exact HB|constructor]|]. split; [reflexivity|exact H].
    - exists (STU64 z), st1, n. split; [econstructor; [exact HB|constructor]|]. split; [reflexivity|exact H].
    - exists (STI64 z), st1, n. split; [econstructor; [exact HB|constructor]|]. split; [reflexivity|exact H].
    - exists (STF64 f), st1, n. split; [econstructor; [exact HB|constructor]|]. split; [reflexivity|exact H].
    - destruct (i_seq_next I q st1) as [[[[d'|]| |] q'] st2] eqn:HN; try discriminate; [| |destruct (cont_fault _ _ _ _ _ _ H)].
      + cbn [cont] in H. destruct (IH n ltac:(lia)) as (IHd & _ & _). apply IHd in H. destruct H as (t & st3 & n1 & HD & -> & H).
        destruct (IH n1 ltac:(pose proof (nodes_pos t); lia)) as (_ & IHq & _). apply IHq in H. destruct H as (l & st4 & n2 & HQ & -> & H).
        exists (STSeq (t :: l)), st4, n2. split; [econstructor; [exact HB|constructor; econstructor; eassumption]|]. split.
        * cbn [nodes map list_sum fold_right]. unfold nodes_l, list_sum. lia.
        * rewrite <- H. cbn [render]. change (map (render itoa ryu) (t :: l)) with (map rend (t :: l)). rewrite commas_tail. unfold elems_tail. repeat (rewrite <- app_assoc; cbn [app]). reflexivity.
      + destruct (i_seq_drop I q' st2) as [[u| |e] st3] eqn:HX; [| |destruct (cont_fault _ _ _ _ _ _ H)];
          (exists (STSeq []), st3, n; split; [econstructor; [exact HB|constructor; econstructor; [exact HN|exact HX|reflexivity]]|]; split; [reflexivity|exact H]).
    - destruct (i_map_next I m st1) as [[[[[k d']|]| |] m'] st2] eqn:HN; try discriminate; [| |destruct (cont_fault _ _ _ _ _ _ H)].
      + pose proof (proj2 HV _ _ _ _ _ _ HN) as HK. rewrite escape_str_eq in H by exact HK. cbn [bind cont] in H.
        destruct (IH n ltac:(lia)) as (IHd & _ & _). apply IHd in H. destruct H as (t & st3 & n1 & HD & -> & H).
        destruct (IH n1 ltac:(pose proof (nodes_pos t); lia)) as (_ & _ & IHm). apply IHm in H. destruct H as (l & st4 & n2 & HQ & -> & H).
        exists (STMap ((k, t) :: l)), st4, n2. split; [econstructor; [exact HB|constructor; econstructor; eassumption]|]. split.
        * cbn [nodes map list_sum fold_right snd]. unfold nodes_m, list_sum. lia.
        * rewrite <- H. cbn [render]. rewrite commas_tail. unfold members_tail, member. cbn [fst snd]. repeat (rewrite <- app_assoc; cbn [app]). reflexivity.
      + destruct (i_map_drop I m' st2) as [[u| |e] st3] eqn:HX; [| |destruct (cont_fault _ _ _ _ _ _ H)];
          (exists (STMap []), st3, n; split; [econstructor; [exact HB|constructor; econstructor; [exact HN|exact HX|reflexivity]]|]; split; [reflexivity|exact H]). }
  split; [exact HL|]. split.
  - intros q stack out st o stf H. cbn [ser_pop] in H.
    destruct (i_seq_next I q st) as [[[[d'|]| |] q'] st2] eqn:HN; try discriminate; [| |destruct (cont_fault _ _ _ _ _ _ H)].
    + cbn [cont] in H. apply HL in H. destruct H as (t & st3 & n1 & HD & -> & H).
      destruct (IH n1 ltac:(pose proof (nodes_pos t); lia)) as (_ & IHq & _). apply IHq in H. destruct H as (l & st4 & n2 & HQ & -> & H).
      exists (t :: l), st4, n2. split; [econstructor; eassumption|]. split.
      * unfold nodes_l. cbn [map list_sum fold_right]. unfold list_sum. lia.
      * rewrite <- H. unfold elems_tail. cbn [flat_map]. repeat (rewrite <- app_assoc; cbn [app]). reflexivity.
    + destruct (i_seq_drop I q' st2) as [[u| |e] st3] eqn:HX; [| |destruct (cont_fault _ _ _ _ _ _ H)];
        (exists [], st3, fuel; split; [econstructor; [exact HN|exact HX|reflexivity]|]; split; [reflexivity|exact H]).
  - intros m stack out st o stf H. cbn [ser_pop] in H.
    destruct (i_map_next I m st) as [[[[[k d']|]| |] m'] st2] eqn:HN; try discriminate; [| |destruct (cont_fault _ _ _ _ _ _ H)].
    + pose proof (proj2 HV _ _ _ _ _ _ HN) as HK. rewrite escape_str_eq in H by exact HK. cbn [bind cont] in H.
      apply HL in H. destruct H as (t & st3 & n1 & HD & -> & H).
      destruct (IH n1 ltac:(pose proof (nodes_pos t); lia)) as (_ & _ & IHm). apply IHm in H. destruct H as (l & st4 & n2 & HQ & -> & H).
      exists ((k, t) :: l), st4, n2. split; [econstructor; eassumption|]. split.
      * unfold nodes_m. cbn [map list_sum fold_right snd]. unfold list_sum. lia.
      * rewrite <- H. unfold members_tail, member. cbn [flat_map fst snd]. repeat (rewrite <- app_assoc; cbn [app]). reflexivity.
    + destruct (i_map_drop I m' st2) as [[u| |e] st3] eqn:HX; [| |destruct (cont_fault _ _ _ _ _ _ H)];
        (exists [], st3, fuel; split; [econstructor; [exact HN|exact HX|reflexivity]|]; split; [reflexivity|exact H]).
Qed.
Theorem written_describes fuel d st o st' :
  to_string_impl I ryu fuel d st = (Ok o, st') -> exists t, Describes I d st t st' /\ (nodes t <= fuel)%nat /\ o = rend t.
Proof.
  intros H. apply (proj1 (written_was_described fuel)) in H. destruct H as (t & st1 & n & HD & -> & H).
  cbn [ser_pop cont app] in H. injection H as <- <-. exists t. split; [exact HD|]. split; [lia|reflexivity].
Qed.

(** ** Only the budget can run out *)
Hypothesis HM : methods_return I.
Lemma pop_total stack : forall out st, exists r st', ser_pop I stack out st = (Ok r, st').
Proof.
  induction stack as [|[q|m] stack IH]; intros out st; cbn [ser_pop]; [eauto| |].
  - destruct HM as (_ & H & _ & HD & _). destruct (H q st) as (o & q' & st1 & ->). destruct o; [eauto|].
    destruct (HD q' st1) as (r & st2 & -> & Hr). destruct r; [apply IH|apply IH|discriminate].
  - destruct HM as (_ & _ & H & _ & HD). destruct (H m st) as ([[k d]|] & m' & st1 & EN); rewrite EN.
    + rewrite escape_str_eq by (eapply (proj2 HV), EN). eauto.
    + destruct (HD m' st1) as (r & st2 & -> & Hr). destruct r; [apply IH|apply IH|discriminate].
Qed.
Theorem loop_total fuel : forall d stack out st,
  (exists o, fst (loop fuel d stack out st) = Ok o) \/ fst (loop fuel d stack out st) = Fault FFuel.
Proof.
  induction fuel as [|n IH]; intros d stack out st; [right; reflexivity|]. rewrite loop_S.
  destruct HM as (H & H2 & H3 & H4 & H5). destruct (H d st) as (f & st1 & HB). rewrite HB.
  assert (exists r st', ser_turn I ryu f stack out st1 = (Ok r, st')) as (r & st2 & ->).
  { destruct f as [|b|s|z|z|f|q|m]; cbn [ser_turn ser_scalar]; try apply pop_total.
    - rewrite escape_str_eq by (eapply (proj1 HV), HB). apply pop_total.
    - destruct (H2 q st1) as (o & q' & st2 & ->). destruct o; [eauto|].
      destruct (H4 q' st2) as (r & st3 & -> & Hr). destruct r; [apply pop_total|apply pop_total|discriminate].
    - destruct (H3 m st1) as ([[k d']|] & m' & st2 & EN); rewrite EN.
      + rewrite escape_str_eq by (eapply (proj2 HV), EN). eauto.
      + destruct (H5 m' st2) as (r & st3 & -> & Hr). destruct r; [apply pop_total|apply pop_total|discriminate]. }
  destruct r; cbn [cont fst]; [eauto|apply IH].
Qed.
End Loop.
