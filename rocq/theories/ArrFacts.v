(** Invariant of ArrOwn. *)
From Coq Require Import List Bool Arith Lia Sorted Permutation.
From Verif Require Import Base ArrOwn ArrSpec.
Import ListNotations.

Section F.
Variable N : nat.
Variable bomb : nat -> bool.
Notation drop_one := (drop_one bomb).
Notation drop_array := (drop_array bomb).
Notation drop_loop := (drop_loop bomb).

Definition harmless : Prop := forall x, bomb x = false.
Definition tame (r : res unit) : Prop :=
  r <> Fault FUB /\ (harmless -> forall f, r <> Fault f) /\ (r = Fault FAbort \/ r = Fault FPanic \/ r = Ok tt).

Lemma drop_one_ok x d : ~ In x d -> drop_one x d = (if bomb x then Fault FPanic else Ok tt, d ++ [x]).
Proof. intros H. unfold ArrOwn.drop_one. destruct in_dec; tauto. Qed.

Lemma drop_array_ok l : forall d, NoDup (d ++ l) -> exists r, drop_array l d = (r, d ++ l) /\ tame r.
Proof.
  induction l as [|x l IH]; intros d H; cbn [ArrOwn.drop_array].
  - rewrite app_nil_r. exists (Ok tt). unfold tame. repeat split; try congruence; auto.
  - rewrite drop_one_ok by (intros A; apply NoDup_remove_2 in H; apply H, in_or_app; auto).
    assert (H2 : NoDup ((d ++ [x]) ++ l)) by (rewrite <- app_assoc; exact H).
    destruct (IH _ H2) as (r & E & T1 & T2 & T3). rewrite <- app_assoc in E. cbn [app] in E.
    destruct (bomb x) eqn:B; rewrite E.
    + assert (~ harmless) by (intros G; rewrite G in B; discriminate).
      destruct T3 as [-> | [-> | ->]]; cbn [cleanup]; eexists; (split; [reflexivity|]); unfold tame; repeat split; try congruence; try tauto; auto.
    + exists r. split; [reflexivity|]. unfold tame. auto.
Qed.

Lemma drop_opt_ok o d : NoDup (d ++ olist o) -> exists r, drop_opt bomb o d = (r, d ++ olist o) /\ tame r.
Proof.
  destruct o as [x|]; cbn [olist drop_opt]; intros H.
  - rewrite drop_one_ok by (intros A; apply NoDup_remove_2 in H; apply H, in_or_app; auto).
    eexists. split; [reflexivity|]. unfold tame. destruct (bomb x) eqn:B; repeat split; try congruence; auto.
  - rewrite app_nil_r. eexists. split; [reflexivity|]. unfold tame. repeat split; try congruence; auto.
Qed.

Lemma drop_loop_ok l : forall d, NoDup (d ++ l) ->
  exists r k, drop_loop (map Val l) d = (r, d ++ firstn k l) /\ tame r /\ (r = Ok tt -> firstn k l = l).
Proof.
  induction l as [|x l IH]; intros d H; cbn [ArrOwn.drop_loop map].
  - exists (Ok tt), 0. rewrite app_nil_r. repeat split; try congruence; auto.
  - rewrite drop_one_ok by (intros A; apply NoDup_remove_2 in H; apply H, in_or_app; auto).
    assert (H2 : NoDup ((d ++ [x]) ++ l)) by (rewrite <- app_assoc; exact H).
    destruct (bomb x) eqn:B.
    + exists (Fault FPanic), 1. cbn [firstn]. repeat split; try congruence; auto.
    + destruct (IH _ H2) as (r & k & E & T & U). exists r, (S k). rewrite E. cbn [firstn]. rewrite <- app_assoc. cbn [app].
      split; [reflexivity|]. split; [exact T|]. intros R. rewrite (U R). reflexivity.
Qed.

Lemma read_array_vals l : read_array (map Val l) = Some l.
Proof. induction l as [|x l IH]; cbn; [reflexivity|]. rewrite IH. reflexivity. Qed.

(** The builder b holds the elements vs in its array. *)
Definition holds (b : abld) (vs : list nat) : Prop :=
  length (ab_array b) = N /\ ab_len b = length vs /\ firstn (length vs) (ab_array b) = map Val vs.

Lemma holds_len b vs : holds b vs -> length vs <= N.
Proof.
  intros (A & B & C). apply (f_equal (@length mslot)) in C. rewrite firstn_length, map_length in C. lia.
Qed.

Lemma holds_full b vs : holds b vs -> length vs = N -> ab_array b = map Val vs.
Proof. intros (A & B & C) H. rewrite <- C. symmetry. apply firstn_all2. lia. Qed.

Definition optlt (vs : list nat) (o : option nat) : list nat := vs ++ olist o.

Lemma firstn_short {A} (l : list A) n : length l <= n -> firstn n l = l.
Proof. intros. apply firstn_all2. lia. Qed.

Lemma ab_shift_ok b vs d : holds b vs -> NoDup (d ++ vs ++ olist (ab_element b)) ->
  exists r b' vs' d', ab_shift bomb b d = (r, b', d') /\ holds b' vs' /\ ab_element b' = None /\
    vs' = firstn N (vs ++ olist (ab_element b)) /\ r <> Fault FUB /\ (harmless -> forall f, r <> Fault f) /\
    (r = Ok tt <-> length (vs ++ olist (ab_element b)) <= N) /\
    (exists dr, d' = d ++ dr /\ Permutation (dr ++ vs') (vs ++ olist (ab_element b))) /\
    (r = Ok tt -> d' = d).
Proof.
  intros H ND. pose proof (holds_len _ _ H) as HL. unfold ab_shift. destruct b as [arr len [e|]]; cbn [ab_element ab_array ab_len olist] in *.
  - destruct H as (A & B & C). cbn [ab_array ab_len] in *. destruct (len <? length arr) eqn:L.
    + apply Nat.ltb_lt in L. exists (Ok tt), (mkab (firstn len arr ++ Val e :: skipn (S len) arr) (S len) None), (vs ++ [e]), d.
      assert (LL : length (firstn len arr) = len) by (rewrite firstn_length; lia).
      split; [reflexivity|]. split; [|split; [reflexivity|]]; [|split; [|split; [congruence|split; [congruence|split; [|split; [|reflexivity]]]]]].
      * unfold holds. cbn [ab_array ab_len]. rewrite !app_length. cbn [length]. rewrite skipn_length, LL.
        split; [lia|split; [lia|]]. rewrite B at 1. rewrite firstn_app, firstn_firstn, firstn_length.
        replace (Nat.min (length vs + 1) (length vs)) with (length vs) by lia.
        rewrite C, map_app. f_equal.
        replace (length vs + 1 - Nat.min (length vs) (length arr)) with 1 by lia. reflexivity.
      * symmetry. apply firstn_short. rewrite app_length. cbn [length]. lia.
      * rewrite app_length. cbn [length]. split; [lia|reflexivity].
      * exists []. rewrite app_nil_r. split; [reflexivity|]. apply Permutation_refl.
    + apply Nat.ltb_ge in L.
      assert (Nin : ~ In e d). { intros A1. rewrite app_assoc in ND. apply NoDup_remove_2 in ND. apply ND. apply in_or_app. left. apply in_or_app. auto. }
      rewrite drop_one_ok by exact Nin.
      assert (F : firstn N (vs ++ [e]) = vs). { rewrite firstn_app. replace (N - length vs) with 0 by lia. cbn [firstn]. rewrite app_nil_r. apply firstn_short. lia. }
      assert (W : ~ length (vs ++ [e]) <= N) by (rewrite app_length; cbn [length]; lia).
      destruct (bomb e) eqn:Be; eexists _, _, vs, _; (split; [reflexivity|]); cbn [ab_element ab_array ab_len];
        (split; [split; [exact A|split; [exact B|exact C]]|split; [reflexivity|split; [symmetry; exact F|split; [congruence|split; [|split; [|split; [|congruence]]]]]]]).
      * intros G. rewrite G in Be. discriminate.
      * split; [congruence|intros; contradiction].
      * exists [e]. split; [reflexivity|]. apply Permutation_app_comm.
      * congruence.
      * split; [congruence|intros; contradiction].
      * exists [e]. split; [reflexivity|]. apply Permutation_app_comm.
  - rewrite app_nil_r in *. exists (Ok tt), (mkab arr len None), vs, d. split; [reflexivity|]. split; [exact H|].
    split; [reflexivity|]. split; [symmetry; apply firstn_short; exact HL|]. split; [congruence|]. split; [congruence|].
    split; [split; auto|]. split; [|reflexivity]. exists []. rewrite app_nil_r. split; [reflexivity|]. apply Permutation_refl.
Qed.

Definition all_of (s : astate) (vs : list nat) (cur : option nat) : list nat :=
  a_dropped s ++ a_taken s ++ outl (a_out s) ++ vs ++ olist cur.

(** lossy: elements may have been lost. *)
Record Inv (lossy : bool) (k : seen) (s : astate) : Prop := {
  i_next : sn_next k = a_next s;
  i_out : forall l, a_out s = Some l -> length l = N /\ StronglySorted lt l;
  i_bld : match a_bld s with
          | Some b => holds b (sn_kept k) /\ ab_element b = sn_cur k /\ StronglySorted lt (sn_kept k ++ olist (sn_cur k))
          | None => True end;
  i_nodup : NoDup (match a_bld s with Some _ => all_of s (sn_kept k) (sn_cur k) | None => all_of s [] None end);
  i_bound : Forall (fun x => x < a_next s) (match a_bld s with Some _ => all_of s (sn_kept k) (sn_cur k) | None => all_of s [] None end);
  i_all : lossy = false -> forall x, x < a_next s -> In x (match a_bld s with Some _ => all_of s (sn_kept k) (sn_cur k) | None => all_of s [] None end)
}.

Lemma sorted_firstn l n : StronglySorted lt l -> StronglySorted lt (firstn n l).
Proof.
  intros H. revert n. induction H as [|x l H IH F]; intros [|n]; cbn [firstn]; try constructor; auto.
  rewrite Forall_forall in *. intros y Hy. apply F. rewrite <- (firstn_skipn n l). apply in_or_app. auto.
Qed.
Lemma sorted_app_l l m : StronglySorted lt (l ++ m) -> StronglySorted lt l.
Proof. intros H. replace l with (firstn (length l) (l ++ m)). apply sorted_firstn, H. rewrite firstn_app, firstn_all, Nat.sub_diag. cbn. apply app_nil_r. Qed.
Lemma sorted_snoc l x : StronglySorted lt l -> Forall (fun y => y < x) l -> StronglySorted lt (l ++ [x]).
Proof.
  induction 1 as [|y l H IH F]; cbn [app]; intros G; [repeat constructor|]. inversion G; subst. constructor; [auto|].
  apply Forall_app. split; [exact F|]. constructor; auto.
Qed.

(** Rearranging and losing. *)
Lemma move_ok (n : nat) lossy (l l' : list nat) :
  Permutation l l' -> NoDup l -> Forall (fun x => x < n) l -> (lossy = false -> forall x, x < n -> In x l) ->
  NoDup l' /\ Forall (fun x => x < n) l' /\ (lossy = false -> forall x, x < n -> In x l').
Proof.
  intros P A B C. split; [eapply Permutation_NoDup; eauto|]. split; [eapply Permutation_Forall; eauto|].
  intros H x Hx. eapply Permutation_in; eauto.
Qed.
Lemma NoDup_app_l {A} (l m : list A) : NoDup (l ++ m) -> NoDup l.
Proof. induction l as [|x l IH]; cbn [app]; intros H; [constructor|]. inversion H; subst. constructor; auto. intros G. apply H2, in_or_app. auto. Qed.
Lemma NoDup_app_snoc_aux {A} (l : list A) x : NoDup l -> ~ In x l -> NoDup (l ++ [x]).
Proof. intros H G. eapply Permutation_NoDup; [apply Permutation_app_comm|]. cbn. constructor; auto. Qed.
Lemma lose_ok (n : nat) (l l' m : list nat) :
  Permutation l (l' ++ m) -> NoDup l -> Forall (fun x => x < n) l -> NoDup l' /\ Forall (fun x => x < n) l'.
Proof.
  intros P A B. split.
  - apply (Permutation_NoDup P) in A. eapply NoDup_app_l; eauto.
  - apply (Permutation_Forall P) in B. apply Forall_app in B. tauto.
Qed.

Lemma ab_drop_ok b vs d : holds b vs -> NoDup (d ++ vs ++ olist (ab_element b)) ->
  exists r dr rest, ab_drop bomb b d = (r, d ++ dr) /\ Permutation (dr ++ rest) (vs ++ olist (ab_element b)) /\
    tame r /\ (r = Ok tt -> rest = []).
Proof.
  intros H ND. pose proof (holds_len _ _ H) as HL. destruct H as (A & B & C). unfold ab_drop. rewrite A, B, C.
  replace (length vs <=? N) with true by (symmetry; apply Nat.leb_le; exact HL).
  assert (ND1 : NoDup (d ++ vs)) by (rewrite app_assoc in ND; eapply NoDup_app_l; eauto).
  destruct (drop_loop_ok vs d ND1) as (r & k & E & T & U). rewrite E.
  assert (ND2 : NoDup ((d ++ firstn k vs) ++ olist (ab_element b))).
  { apply (NoDup_app_l _ (skipn k vs)). eapply Permutation_NoDup; [|exact ND].
    apply (Permutation_count_occ Nat.eq_dec). intros x. rewrite <- (firstn_skipn k vs) at 1. rewrite !count_occ_app. lia. }
  destruct (drop_opt_ok _ _ ND2) as (r2 & E2 & T2).
  destruct T as (T0 & T1 & [R | [R | R]]); subst r.
  - exists (Fault FAbort), (firstn k vs), (skipn k vs ++ olist (ab_element b)). split; [reflexivity|]. rewrite app_assoc, firstn_skipn.
    split; [apply Permutation_refl|]. split; [unfold tame; auto|congruence].
  - rewrite E2. destruct T2 as (T20 & T21 & T22). destruct T22 as [R | [R | R]]; subst r2; cbn [cleanup]; rewrite <- app_assoc;
      (eexists _, (firstn k vs ++ olist (ab_element b)), (skipn k vs); split; [reflexivity|]; split;
       [apply (Permutation_count_occ Nat.eq_dec); intros x; rewrite <- (firstn_skipn k vs) at 3; rewrite !count_occ_app; lia|]; split; [|congruence]);
      unfold tame; (split; [congruence|]); (split; [|auto]); intros G; exfalso; apply (T1 G FPanic); reflexivity.
  - rewrite E2, <- app_assoc. exists r2, (firstn k vs ++ olist (ab_element b)), []. split; [reflexivity|]. rewrite (U eq_refl), app_nil_r.
    split; [apply Permutation_refl|]. split; [exact T2|reflexivity].
Qed.

Lemma ab_finish_ok b vs out d rest : holds b vs -> StronglySorted lt (vs ++ olist (ab_element b)) ->
  NoDup (d ++ rest ++ outl out ++ vs ++ olist (ab_element b)) ->
  exists r b' out' d', ab_finish N bomb b out d = (r, b', out', d') /\ ab_element b' = None /\
    holds b' (match r with Ok _ => [] | _ => firstn N (vs ++ olist (ab_element b)) end) /\
    r <> Fault FUB /\ (harmless -> (r = Ok tt <-> length (vs ++ olist (ab_element b)) = N) /\ forall f, r <> Fault f) /\
    (r = Ok tt -> out' = Some (vs ++ olist (ab_element b)) /\ length (vs ++ olist (ab_element b)) = N) /\
    (r <> Ok tt -> out' = out \/ out' = None) /\
    Permutation (d' ++ outl out' ++ match r with Ok _ => [] | _ => firstn N (vs ++ olist (ab_element b)) end)
                (d ++ outl out ++ vs ++ olist (ab_element b)).
Proof.
  intros H HS ND. unfold ab_finish.
  assert (ND1 : NoDup (d ++ vs ++ olist (ab_element b))).
  { apply (NoDup_app_l _ (rest ++ outl out)). eapply Permutation_NoDup; [|exact ND].
    apply (Permutation_count_occ Nat.eq_dec). intros x. rewrite !count_occ_app. lia. }
  destruct (ab_shift_ok b vs d H ND1) as (r & b1 & vs1 & d1 & E & H1 & E1 & V1 & R1 & R2 & R3 & (dr & D1 & D2) & D3).
  rewrite E. set (w := vs ++ olist (ab_element b)) in *.
  assert (PP : Permutation (d1 ++ outl out ++ vs1) (d ++ outl out ++ w)).
  { apply (Permutation_count_occ Nat.eq_dec). intros x. apply (Permutation_count_occ Nat.eq_dec) with (x := x) in D2.
    subst d1. rewrite !count_occ_app in *. lia. }
  assert (HL : length vs1 <= N) by (eapply holds_len; eauto).
  destruct r as [[]| |f].
  - specialize (D3 eq_refl). clear D1. subst d1. assert (LW : length w <= N) by (apply R3; reflexivity).
    rewrite (firstn_short w N LW) in V1. subst vs1. replace (ab_len b1) with (length w) by (symmetry; apply H1).
    destruct (length w <? N) eqn:L.
    + apply Nat.ltb_lt in L. exists Err, b1, out, d. split; [reflexivity|]. split; [exact E1|].
      rewrite (firstn_short w N LW). split; [exact H1|]. split; [congruence|].
      split; [intros _; split; [split; [congruence|lia]|congruence]|]. split; [congruence|]. split; [auto|]. apply Permutation_refl.
    + apply Nat.ltb_ge in L. assert (LN : length w = N) by lia.
      assert (ND2 : NoDup (d ++ outl out)).
      { apply (NoDup_app_l _ (rest ++ w)). eapply Permutation_NoDup; [|exact ND].
        apply (Permutation_count_occ Nat.eq_dec). intros x. rewrite !count_occ_app. lia. }
      assert (DA : exists r, (match out with Some l => drop_array l d | None => (Ok tt, d) end) = (r, d ++ outl out) /\ tame r).
      { destruct out as [l|]; cbn [outl] in *; [apply drop_array_ok; exact ND2|]. exists (Ok tt). rewrite app_nil_r. split; [reflexivity|].
        split; [congruence|]. split; [congruence|]. auto. }
      destruct DA as (r & -> & T0 & T1 & T2). rewrite (holds_full _ _ H1 LN), read_array_vals. rewrite (firstn_short w N LW) in *.
      destruct T2 as [-> | [-> | ->]].
      * eexists _, _, _, _. split; [reflexivity|]. split; [exact E1|]. split; [exact H1|]. split; [congruence|].
        split; [intros G; exfalso; eapply T1; [exact G|reflexivity]|]. split; [congruence|]. split; [auto|]. cbn [outl]. rewrite <- app_assoc. apply Permutation_refl.
      * eexists _, _, _, _. split; [reflexivity|]. split; [exact E1|]. split; [exact H1|]. split; [congruence|].
        split; [intros G; exfalso; eapply T1; [exact G|reflexivity]|]. split; [congruence|]. split; [auto|]. cbn [outl]. rewrite <- app_assoc. apply Permutation_refl.
      * eexists _, _, _, _. split; [reflexivity|]. split; [exact E1|]. cbn [outl].
        split; [unfold holds; cbn [ab_array ab_len length firstn map]; rewrite map_length; auto|].
        split; [congruence|]. split; [intros _; split; [tauto|congruence]|]. split; [auto|]. split; [congruence|]. rewrite app_nil_r, <- app_assoc. apply Permutation_refl.
  - assert (LW : ~ length w <= N) by (intros G; apply R3 in G; discriminate).
    eexists _, _, _, _. split; [reflexivity|]. split; [exact E1|]. rewrite <- V1. split; [exact H1|]. split; [congruence|].
    split; [intros _; split; [split; [congruence|lia]|congruence]|]. split; [congruence|]. split; [auto|]. exact PP.
  - eexists _, _, _, _. split; [reflexivity|]. split; [exact E1|]. rewrite <- V1. split; [exact H1|]. split; [congruence|].
    split; [intros G; exfalso; eapply R2; [exact G|reflexivity]|]. split; [congruence|]. split; [auto|]. exact PP.
Qed.

Ltac perm := apply (Permutation_count_occ Nat.eq_dec); intros ?x;
  repeat match goal with H : Permutation _ _ |- _ => apply (Permutation_count_occ Nat.eq_dec) with (x := x) in H end;
  unfold all_of, outl in *; cbn [olist a_dropped a_taken a_out app] in *; rewrite ?count_occ_app in *; cbn [count_occ] in *; lia.

Lemma inv_init : Inv false (mkseen 0 [] None) a_init.
Proof.
  constructor; cbn; try constructor; try congruence. intros _ x Hx. lia.
Qed.

(** New state from a rearrangement of the elements. *)
Lemma inv_move lossy k s k' s' :
  Inv lossy k s -> sn_next k' = a_next s' -> a_next s' = a_next s ->
  (forall l, a_out s' = Some l -> length l = N /\ StronglySorted lt l) ->
  match a_bld s' with
  | Some b => holds b (sn_kept k') /\ ab_element b = sn_cur k' /\ StronglySorted lt (sn_kept k' ++ olist (sn_cur k'))
  | None => True end ->
  Permutation (match a_bld s with Some _ => all_of s (sn_kept k) (sn_cur k) | None => all_of s [] None end)
              (match a_bld s' with Some _ => all_of s' (sn_kept k') (sn_cur k') | None => all_of s' [] None end) ->
  Inv lossy k' s'.
Proof.
  intros [I1 I2 I3 I4 I5 I6] E1 E2 O B P. destruct (move_ok _ _ _ _ P I4 I5 I6) as (A1 & A2 & A3).
  constructor; auto; rewrite E2; auto.
Qed.
Lemma inv_lose lossy k s k' s' rest :
  Inv lossy k s -> sn_next k' = a_next s' -> a_next s' = a_next s ->
  (forall l, a_out s' = Some l -> length l = N /\ StronglySorted lt l) ->
  a_bld s' = None ->
  Permutation (match a_bld s with Some _ => all_of s (sn_kept k) (sn_cur k) | None => all_of s [] None end)
              (all_of s' [] None ++ rest) ->
  Inv true k' s'.
Proof.
  intros [I1 I2 I3 I4 I5 I6] E1 E2 O B P. destruct (lose_ok _ _ _ _ P I4 I5) as (A1 & A2).
  constructor; auto; rewrite B; try rewrite E2; auto. discriminate.
Qed.

Lemma astep_ok lossy k s op r s' : Inv lossy k s -> astep N bomb op s = Some (r, s') ->
  Inv (lossy || loses (op, r)) (see N k (op, r)) s' /\ r <> Fault FUB /\ (harmless -> forall f, r <> Fault f) /\
  (op = AFinish -> (r = Ok tt -> a_out s' = Some (sn_kept k ++ olist (sn_cur k)) /\ length (sn_kept k ++ olist (sn_cur k)) = N) /\
                   (harmless -> r = Ok tt <-> length (sn_kept k ++ olist (sn_cur k)) = N)) /\
  (op = AElement -> r = Ok tt <-> length (sn_kept k ++ olist (sn_cur k)) <= N).
Proof.
  intros HI. pose proof HI as [I1 I2 I3 I4 I5 I6]. destruct s as [out [b|] d tk n]; destruct k as [kn kept cur];
    cbn [a_out a_bld a_dropped a_taken a_next sn_next sn_kept sn_cur] in *; unfold all_of in I4, I5, I6; cbn [a_out a_bld a_dropped a_taken a_next] in I4, I5, I6;
    unfold astep; subst kn.
  - destruct I3 as (HH & HE & HS). destruct op; try discriminate; rewrite ?orb_false_r.
    + (* element *)
      assert (ND1 : NoDup (d ++ kept ++ olist (ab_element b))).
      { rewrite HE. apply (NoDup_app_l _ (tk ++ outl out)). eapply Permutation_NoDup; [|exact I4]. perm. }
      destruct (ab_shift_ok b kept d HH ND1) as (r1 & b1 & vs1 & d1 & E & H1 & E1 & V1 & R1 & R2 & R3 & (dr & D1 & D2) & D3).
      rewrite E. intros [= <- <-]. cbn [loses see]. rewrite ?orb_false_r. rewrite HE in *.
      split; [|split; [exact R1|split; [exact R2|split; [discriminate|intros _; exact R3]]]].
      eapply inv_move; [exact HI|reflexivity|reflexivity|exact I2| |]; cbn [a_bld sn_kept sn_cur a_out].
      * rewrite <- V1, E1. split; [exact H1|split; [reflexivity|]]. cbn [olist]. rewrite app_nil_r, V1. apply sorted_firstn, HS.
      * rewrite <- V1. subst d1. perm.
    + (* assign *)
      assert (ND1 : NoDup (d ++ olist (ab_element b))).
      { rewrite HE. apply (NoDup_app_l _ (tk ++ outl out ++ kept)). eapply Permutation_NoDup; [|exact I4]. perm. }
      destruct (drop_opt_ok _ _ ND1) as (r1 & E & T0 & T1 & T2). rewrite E. cbn [fst snd]. intros [= <- <-]. cbn [loses see]. rewrite ?orb_false_r.
      split; [|split; [exact T0|split; [exact T1|split; [discriminate|discriminate]]]]. rewrite HE.
      assert (P : Permutation (d ++ tk ++ outl out ++ kept ++ olist cur ++ [n]) ((d ++ olist cur) ++ tk ++ outl out ++ kept ++ [n])) by perm.
      assert (NDn : NoDup (d ++ tk ++ outl out ++ kept ++ olist cur ++ [n])).
      { rewrite !app_assoc in *. apply NoDup_app_snoc_aux; [exact I4|]. intros G. rewrite Forall_forall in I5. apply I5 in G. lia. }
      assert (Bn : Forall (fun x => x < S n) (d ++ tk ++ outl out ++ kept ++ olist cur ++ [n])).
      { rewrite !app_assoc in *. apply Forall_app. split; [|constructor; auto]. eapply Forall_impl; [|exact I5]. cbn. lia. }
      destruct (move_ok (S n) lossy _ _ P NDn Bn) as (A1 & A2 & A3).
      { intros L x Hx. destruct (Nat.eq_dec x n) as [->|Nx].
        - rewrite !app_assoc. apply in_or_app. right. left. reflexivity.
        - rewrite !app_assoc in *. apply in_or_app. left. apply I6; [exact L|lia]. }
      constructor; cbn [a_out a_bld a_dropped a_taken a_next sn_next sn_kept sn_cur]; unfold all_of; cbn [a_out a_bld a_dropped a_taken a_next]; auto.
      split; [exact HH|split; [reflexivity|]]. cbn [olist]. apply sorted_snoc; [eapply sorted_app_l; exact HS|].
      rewrite !Forall_app in I5. tauto.
    + (* take *)
      intros [= <- <-]. cbn [loses see]. rewrite ?orb_false_r. split; [|split; [congruence|split; [congruence|split; [discriminate|discriminate]]]].
      eapply inv_move; [exact HI|reflexivity|reflexivity|exact I2| |]; cbn [a_bld sn_kept sn_cur a_out].
      * split; [exact HH|split; [reflexivity|]]. cbn [olist]. rewrite app_nil_r. eapply sorted_app_l; exact HS.
      * rewrite HE. fold (olist cur). perm.
    + (* finish *)
      assert (ND1 : NoDup (d ++ tk ++ outl out ++ kept ++ olist (ab_element b))) by (rewrite HE; exact I4).
      assert (HS1 : StronglySorted lt (kept ++ olist (ab_element b))) by (rewrite HE; exact HS).
      destruct (ab_finish_ok b kept out d tk HH HS1 ND1) as (r1 & b1 & out1 & d1 & E & E1 & H1 & R1 & R2 & R3 & R4 & P).
      rewrite E. intros [= <- <-]. rewrite HE in *.
      split; [|split; [exact R1|split; [intros G; apply R2; exact G|split; [|discriminate]]]]; [|intros _; cbn [a_out]; split; [exact R3|intros G; apply R2; exact G]].
      cbn [loses]. rewrite ?orb_false_r.
      set (k' := see N (mkseen n kept cur) (AFinish, r1)) in *.
      assert (K : k' = mkseen n (match r1 with Ok _ => [] | _ => firstn N (kept ++ olist cur) end) None) by (subst k'; destruct r1; reflexivity).
      rewrite K. eapply inv_move; [exact HI|reflexivity|reflexivity| | |]; cbn [a_bld sn_kept sn_cur a_out].
      * intros l Hl. destruct r1 as [[]| |].
        -- destruct (R3 eq_refl) as (O1 & O2). rewrite O1 in Hl. injection Hl as <-. auto.
        -- destruct R4 as [O | O]; [discriminate| |]; rewrite O in Hl; [auto|discriminate].
        -- destruct R4 as [O | O]; [discriminate| |]; rewrite O in Hl; [auto|discriminate].
      * split; [exact H1|split; [exact E1|]]. cbn [olist]. rewrite app_nil_r. destruct r1; [constructor| |]; apply sorted_firstn, HS.
      * perm.
    + (* close *)
      assert (ND1 : NoDup (d ++ kept ++ olist (ab_element b))).
      { rewrite HE. apply (NoDup_app_l _ (tk ++ outl out)). eapply Permutation_NoDup; [|exact I4]. perm. }
      destruct (ab_drop_ok b kept d HH ND1) as (r1 & dr & rest & E & P & (T0 & T1 & T2) & RR). rewrite E. cbn [fst snd]. intros [= <- <-]. rewrite HE in *.
      split; [|split; [exact T0|split; [exact T1|split; [discriminate|discriminate]]]].
      replace (see N (mkseen n kept cur) (AClose, r1)) with (mkseen n kept cur) by reflexivity.
      destruct T2 as [-> | [-> | ->]]; cbn [loses]; rewrite ?orb_false_r, ?orb_true_r.
      * eapply inv_lose with (rest := rest); [exact HI|reflexivity|reflexivity|exact I2|reflexivity|]. cbn [a_bld sn_kept sn_cur]. perm.
      * eapply inv_lose with (rest := rest); [exact HI|reflexivity|reflexivity|exact I2|reflexivity|]. cbn [a_bld sn_kept sn_cur]. perm.
      * rewrite (RR eq_refl), app_nil_r in P. eapply inv_move; [exact HI|reflexivity|reflexivity|exact I2|exact Logic.I|]. cbn [a_bld sn_kept sn_cur]. perm.
    + (* forget *)
      intros [= <- <-]. cbn [loses]. rewrite orb_true_r. split; [|split; [congruence|split; [congruence|split; [discriminate|discriminate]]]].
      eapply inv_lose with (rest := kept ++ olist cur); [exact HI|reflexivity|reflexivity|exact I2|reflexivity|]. cbn [a_bld sn_kept sn_cur]. perm.
  - destruct op; try discriminate; rewrite ?orb_false_r.
    + (* open *)
      intros [= <- <-]. cbn [loses see]. rewrite ?orb_false_r. split; [|split; [congruence|split; [congruence|split; [discriminate|discriminate]]]].
      eapply inv_move; [exact HI|reflexivity|reflexivity|exact I2| |]; cbn [a_bld sn_kept sn_cur a_out].
      * split; [|split; [reflexivity|constructor]]. unfold holds. cbn [ab_array ab_len length firstn map]. rewrite repeat_length. auto.
      * perm.
    + (* take out *)
      intros [= <- <-]. cbn [loses see]. rewrite ?orb_false_r. split; [|split; [congruence|split; [congruence|split; [discriminate|discriminate]]]].
      eapply inv_move; [exact HI|reflexivity|reflexivity|discriminate|exact Logic.I|]. cbn [a_bld sn_kept sn_cur a_out]. perm.
    + (* clear *)
      assert (ND1 : NoDup (d ++ outl out)).
      { apply (NoDup_app_l _ tk). eapply Permutation_NoDup; [|exact I4]. perm. }
      assert (DA : exists r, (match out with Some l => drop_array l d | None => (Ok tt, d) end) = (r, d ++ outl out) /\ tame r).
      { destruct out as [l|]; cbn [outl] in *; [apply drop_array_ok; exact ND1|]. exists (Ok tt). rewrite app_nil_r. split; [reflexivity|].
        split; [congruence|]. split; [congruence|]. auto. }
      destruct DA as (r1 & -> & T0 & T1 & T2). cbn [fst snd]. intros [= <- <-]. cbn [loses see]. rewrite ?orb_false_r.
      split; [|split; [exact T0|split; [exact T1|split; [discriminate|discriminate]]]].
      eapply inv_move; [exact HI|reflexivity|reflexivity|discriminate|exact Logic.I|]. cbn [a_bld sn_kept sn_cur a_out]. perm.
Qed.
End F.
