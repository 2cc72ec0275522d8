(** C54: Box<T> for every user-defined T. *)
From Coq Require Import List Bool Arith Lia Permutation.
From Verif Require Import Base ArrOwn ArrSpec ArrFacts BoxOwn BoxSpec BoxFacts.
Import ListNotations.

Record BInv (forgot : bool) (s : option bld * world) (own : list nat) : Prop := {
  v_acct : Acct (snd s) [];
  v_place : match fst s with
            | None => own = [] /\ exists v st, cellat (snd s) 0 v st /\ In 0 st
            | Some b => exists st, chain (snd s) b 0 st own /\ In 0 st
            end;
  v_blds : NoDup (w_bdropped (snd s) ++ match fst s with Some b => user_builder b | None => [] end);
  v_bound : Forall (fun i => i < w_blds (snd s)) (w_bdropped (snd s) ++ match fst s with Some b => user_builder b | None => [] end);
  v_all : forgot = false -> forall i, i < w_blds (snd s) -> In i (w_bdropped (snd s) ++ match fst s with Some b => user_builder b | None => [] end);
  v_own : forgot = false -> forall k, 0 < k -> k < length (w_heap (snd s)) -> In k own \/ dead (snd s) k
}.

Lemma binv_init : BInv false (None, w_init) [].
Proof.
  constructor; cbn [fst snd].
  - intros x. cbn. destruct x; reflexivity.
  - split; [reflexivity|]. exists None, [0]. split; [reflexivity|left; reflexivity].
  - constructor.
  - constructor.
  - cbn. intros _ i Hi. lia.
  - cbn. intros _ k H1 H2. lia.
Qed.

Definition forget_op (op : xop) : bool := match op with XForget => true | _ => false end.

Lemma Al_inv w w' own : Al 0 own w w' -> (forall k, 0 < k -> k < length (w_heap w) -> dead w k) -> forall k, 0 < k -> k < length (w_heap w') -> In k own \/ dead w' k.
Proof.
  intros [A B C D] H k H1 H2. destruct (Nat.lt_ge_cases k (length (w_heap w))); [|auto]. right. unfold dead. rewrite B by lia. apply H; lia.
Qed.

Lemma xstep_ok bomb U n forgot s own op r s' : BInv forgot s own -> xstep bomb U n op s = Some (r, s') ->
  (ures r \/ r = Fault FAbort) /\ (r <> Fault FAbort -> exists own', BInv (forgot || forget_op op) s' own').
Proof.
  intros [V1 V2 V3 V4 V5 V6]. destruct s as [ob w]. cbn [fst snd] in *. unfold xstep. destruct ob as [b|]; destruct op; try discriminate; cbn [forget_op]; rewrite ?orb_false_r.
  - (* element *) destruct V2 as (st & Ch & I). destruct (belement_ok bomb U b w 0 st own Ch V1 V3) as (r1 & w1 & E & R & Ch1 & [F1 F2 F3 F4] & A1). rewrite E. intros [= <- <-].
    split; [left; exact R|]. intros _. exists own. constructor; cbn [fst snd]; rewrite ?F3, ?F4; auto.
    + exists st. auto.
    + intros Hf k H1 H2. rewrite F1 in H2. destruct (V6 Hf k H1 H2) as [G|G]; [left; exact G|].
      destruct (in_dec Nat.eq_dec k own) as [Gi|Gi]; [left; exact Gi|]. right. unfold dead. rewrite F2; [exact G|]. cbn [In]. intuition lia.
  - (* finish *) destruct V2 as (st & Ch & I). destruct (bfinish_ok bomb U b w 0 st own Ch V1 V3) as (r1 & b1 & w1 & E & R & P). rewrite E. intros [= <- <-].
    split; [exact R|]. intros NA. destruct (P NA) as ((own1 & Ch1 & Inc & Ded) & L1 & F1 & B1 & B2 & A1). exists own1. constructor; cbn [fst snd]; rewrite ?B1, ?B2; auto.
    + exists st. auto.
    + intros Hf k H1 H2. rewrite L1 in H2. destruct (V6 Hf k H1 H2) as [G|G]; [auto|].
      destruct (in_dec Nat.eq_dec k own) as [Gi|Gi]; [auto|]. right. unfold dead. rewrite F1; [exact G|]. cbn [In]. intuition lia.
  - (* close *) destruct V2 as (st & Ch & I). destruct (bdrop_ok bomb U b w 0 st own Ch V1 V3) as (r1 & w1 & E & R & P). rewrite E. intros [= <- <-].
    split; [destruct R as [[-> | ->] | ->]; unfold ures; eauto|]. intros NA. destruct (P NA) as ((v1 & pre & C1) & Ded & L1 & F1 & B1 & B2 & A1). exists []. constructor; cbn [fst snd]; rewrite ?app_nil_r, ?B1, ?B2; auto.
    + split; [reflexivity|]. exists v1, (pre ++ st). split; [exact C1|]. apply in_or_app. auto.
    + intros Hf k H1 H2. rewrite L1 in H2. right. destruct (V6 Hf k H1 H2) as [G|G]; [auto|].
      destruct (in_dec Nat.eq_dec k own) as [Gi|Gi]; [auto|]. unfold dead. rewrite F1; [exact G|]. cbn [In]. intuition lia.
  - (* forget *) intros [= <- <-]. split; [left; left; eauto|]. intros _. exists []. rewrite orb_true_r.
    destruct V2 as (st & Ch & I). destruct (chain_cell _ _ _ _ _ Ch) as (v & pre & C). constructor; cbn [fst snd]; rewrite ?app_nil_r; auto; try discriminate.
    + split; [reflexivity|]. exists v, (pre ++ st). split; [exact C|]. apply in_or_app. auto.
    + apply NoDup_app_l in V3. exact V3.
    + apply Forall_app in V4. tauto.
  - (* open *) destruct V2 as (-> & v & st & C & I). destruct (pop_in _ _ I) as (sp & P0).
    destruct (bopen_ok bomb U n w 0 0 v st (0 :: sp) C P0 V1) as (r1 & w1 & E & R & P). rewrite E. intros [= <- <-].
    split; [destruct R as [[(a & ->) | [-> | ->]] | ->]; cbn [lift]; unfold ures; eauto|]. intros NA.
    assert (NA1 : r1 <> Fault FAbort) by (destruct R as [[(a & ->) | [-> | ->]] | ->]; cbn [lift] in NA; congruence).
    destruct (P NA1) as (A1 & Q). rewrite app_nil_r in *. destruct r1 as [b|  |f].
    + destruct Q as (own1 & Ch1 & G & Ow & Bb & Bn). exists own1. pose proof (al_bdropped _ _ _ _ G) as BD. constructor; cbn [fst snd]; rewrite ?Bb, ?Bn, ?BD; auto.
      * exists (0 :: sp). split; [exact Ch1|left; reflexivity].
      * eapply Permutation_NoDup; [apply Permutation_app_comm|]. cbn [app]. constructor; [|exact V3]. rewrite Forall_forall in V4. intros Hi. apply V4 in Hi. lia.
      * apply Forall_app. split; [|constructor; [lia|constructor]]. eapply Forall_impl; [|exact V4]. cbn. lia.
      * intros Hf i Hi. apply in_or_app. destruct (Nat.eq_dec i (w_blds w)) as [->|Ne]; [right; left; reflexivity|]. left. apply V5; [exact Hf|lia].
      * intros Hf. apply (Al_inv _ _ _ G). intros k H1 H2. destruct (V6 Hf k H1 H2) as [[]|D]. exact D.
    + destruct Q as ((v1 & pre & C1 & _) & G & Bn). exists []. pose proof (al_bdropped _ _ _ _ G) as BD. constructor; cbn [fst snd]; rewrite ?app_nil_r, ?Bn, ?BD; auto.
      * split; [reflexivity|]. exists v1, (pre ++ 0 :: sp). split; [exact C1|]. apply in_or_app. right. left. reflexivity.
      * intros Hf. apply (Al_inv _ _ _ G). intros k H1 H2. destruct (V6 Hf k H1 H2) as [[]|D]. exact D.
    + destruct Q as ((v1 & pre & C1 & _) & G & Bn). exists []. pose proof (al_bdropped _ _ _ _ G) as BD. constructor; cbn [fst snd]; rewrite ?app_nil_r, ?Bn, ?BD; auto.
      * split; [reflexivity|]. exists v1, (pre ++ 0 :: sp). split; [exact C1|]. apply in_or_app. right. left. reflexivity.
      * intros Hf. apply (Al_inv _ _ _ G). intros k H1 H2. destruct (V6 Hf k H1 H2) as [[]|D]. exact D.
  - (* scalar *) destruct V2 as (-> & v & st & C & I). destruct (pop_in _ _ I) as (sp & P0).
    destruct (bscalar_ok bomb U n w 0 0 v st (0 :: sp) C P0 V1) as (r1 & w1 & E & R & P). rewrite E. intros [= <- <-].
    split; [exact R|]. intros NA. destruct (P NA) as (A1 & (v1 & pre & C1 & _) & G & Bn). rewrite app_nil_r in *.
    exists []. pose proof (al_bdropped _ _ _ _ G) as BD. constructor; cbn [fst snd]; rewrite ?app_nil_r, ?Bn, ?BD; auto.
    * split; [reflexivity|]. exists v1, (pre ++ 0 :: sp). split; [exact C1|]. apply in_or_app. right. left. reflexivity.
    * intros Hf. apply (Al_inv _ _ _ G). intros k H1 H2. destruct (V6 Hf k H1 H2) as [[]|D]. exact D.
  - (* take *) destruct V2 as (-> & v & st & C & I). destruct (pop_in _ _ I) as (sp & P0).
    destruct (take_ok w 0 0 v st _ _ C P0 V1) as (w1 & E & C1 & F & A1). unfold bind. rewrite E. unfold give. intros [= <- <-]. pose proof (Fr_Al _ _ _ F) as G. destruct F as [F1 F2 F3 F4].
    split; [left; left; eauto|]. intros _. exists []. rewrite app_nil_r in *. constructor; cbn [fst snd w_heap w_blds w_bdropped]; rewrite ?app_nil_r, ?F3, ?F4; auto.
    * intros x. specialize (A1 x). cbn [w_dropped w_taken w_heap w_next]. fold (olist v). rewrite count_occ_app. cbn [count_occ]. lia.
    * split; [reflexivity|]. exists None, (0 :: sp). split; [exact C1|]. left. reflexivity.
    * intros Hf. apply (Al_inv _ _ _ G). intros k H1 H2. destruct (V6 Hf k H1 H2) as [[]|D]. exact D.
  - (* clear *) destruct V2 as (-> & v & st & C & I). destruct (pop_in _ _ I) as (sp & P0).
    destruct (assign_ok bomb w 0 0 v st _ None [] C P0 V1) as (r1 & w1 & E & D & C1 & F & A1). rewrite E. intros [= <- <-]. pose proof (Fr_Al _ _ _ F) as G. destruct F as [F1 F2 F3 F4].
    split; [destruct D as [-> | ->]; unfold ures; eauto|]. intros _. exists []. rewrite app_nil_r in *. constructor; cbn [fst snd]; rewrite ?app_nil_r, ?F3, ?F4; auto.
    * split; [reflexivity|]. exists None, (0 :: sp). split; [exact C1|]. left. reflexivity.
    * intros Hf. apply (Al_inv _ _ _ G). intros k H1 H2. destruct (V6 Hf k H1 H2) as [[]|Dk]. exact Dk.
Qed.

Lemma xruns_inv bomb U n tr s : xruns bomb U n tr s -> not_aborted tr -> exists own, BInv (forgets_some tr) s own.
Proof.
  induction 1 as [|tr s op r s' H IH F E]; intros G; [exists []; apply binv_init|]. destruct (IH F) as (own & I).
  unfold not_aborted in G. apply Forall_app in G. destruct G as [_ G]. inversion G; subst. cbn [snd] in *.
  unfold forgets_some. rewrite existsb_app. cbn [existsb fst]. rewrite orb_false_r. fold (forgets_some tr). fold (forget_op op).
  destruct (xstep_ok _ _ _ _ _ _ _ _ _ I E) as (_ & K). auto.
Qed.

(** No call touches a freed cell, an invalidated reference or a dropped builder, and no
    value is dropped twice: whatever user code does and wherever it or a drop panics. *)
Theorem C54_no_undefined_behaviour bomb U n tr s op r s' :
  xruns bomb U n tr s -> not_aborted tr -> xstep bomb U n op s = Some (r, s') ->
  r = Ok tt \/ r = Err \/ r = Fault FPanic \/ r = Fault FAbort.
Proof.
  intros H G E. destruct (xruns_inv _ _ _ _ _ H G) as (own & I). destruct (xstep_ok _ _ _ _ _ _ _ _ _ I E) as (R & _).
  destruct R as [[([] & ->) | [-> | ->]] | ->]; auto.
Qed.

(** No value is at the same time in two of: the caller's variable, the hands of the user,
    the dropped ones. *)
Theorem C54_out_is_owned bomb U n tr s :
  xruns bomb U n tr s -> not_aborted tr -> NoDup (w_dropped (snd s) ++ w_taken (snd s) ++ w_out (snd s)).
Proof.
  intros H G. destruct (xruns_inv _ _ _ _ _ H G) as (own & [V1 _ _ _ _ _]). rewrite (NoDup_count_occ Nat.eq_dec). intros x. specialize (V1 x).
  rewrite !count_occ_app. cbn [count_occ] in V1.
  assert (K : count_occ Nat.eq_dec (w_out (snd s)) x <= count_occ Nat.eq_dec (contents (w_heap (snd s))) x).
  { unfold w_out, contents. destruct (w_heap (snd s)) as [|[c|] h]; cbn [nth_error flat_map vals count_occ]; try lia. rewrite count_occ_app. lia. }
  destruct (x <? w_next (snd s)); lia.
Qed.

Lemma contents_dead h : (forall k, k < length h -> nth_error h k = Some None) -> contents h = [].
Proof.
  induction h as [|a h IH]; intros H; [reflexivity|]. unfold contents. cbn [flat_map].
  assert (A := H 0 (Nat.lt_0_succ _)). injection A as ->. cbn [vals app]. apply IH. intros k Hk. apply (H (S k)). cbn. lia.
Qed.

(** Unless a builder is forgotten: when no builder is open, every value made was dropped
    once, was taken, or is in the caller's variable; every user builder was dropped once;
    and all memory was released. *)
Theorem C54_nothing_lost bomb U n tr w :
  xruns bomb U n tr (None, w) -> not_aborted tr -> forgets_some tr = false ->
  Permutation (seq 0 (w_next w)) (w_dropped w ++ w_taken w ++ w_out w) /\
  Permutation (seq 0 (w_blds w)) (w_bdropped w) /\ all_freed w.
Proof.
  intros H G Fg. destruct (xruns_inv _ _ _ _ _ H G) as (own & [V1 V2 V3 V4 V5 V6]). cbn [fst snd] in *. rewrite app_nil_r in *. destruct V2 as (-> & v & st & C & I).
  assert (AF : all_freed w). { intros k H1 H2. destruct (V6 Fg k H1 H2) as [[]|D]. exact D. }
  split; [|split; [|exact AF]].
  - apply (Permutation_count_occ Nat.eq_dec). intros x. rewrite !count_occ_app. specialize (V1 x). cbn [count_occ] in V1.
    assert (K : w_out w = contents (w_heap w)).
    { unfold w_out. unfold cellat in C. rewrite C. destruct (w_heap w) as [|a h] eqn:Eh; [discriminate|]. injection C as ->. unfold contents. cbn [flat_map vals c_val].
      replace (flat_map vals h) with (@nil nat); [rewrite app_nil_r; reflexivity|]. symmetry. apply contents_dead. intros k Hk.
      specialize (AF (S k)). rewrite Eh in AF. apply AF; cbn; lia. }
    rewrite K. replace (count_occ Nat.eq_dec (seq 0 (w_next w)) x) with (if x <? w_next w then 1 else 0); [lia|].
    destruct (x <? w_next w) eqn:E.
    + apply Nat.ltb_lt in E. symmetry. apply NoDup_count_occ'; [apply seq_NoDup|]. apply in_seq. lia.
    + apply Nat.ltb_ge in E. symmetry. apply count_occ_not_In. rewrite in_seq. lia.
  - apply NoDup_Permutation; [apply seq_NoDup|exact V3|]. intros i. rewrite in_seq. rewrite Forall_forall in V4. split.
    + intros Hi. apply V5; [exact Fg|lia].
    + intros Hi. apply V4 in Hi. lia.
Qed.

(** * The crate's own code panics only on a user visitor or builder that reports success
    and leaves its place empty. *)
Definition np {A} (m : M A) : Prop := forall w, fst (m w) <> Fault FPanic /\ fst (m w) <> Fault FAbort.
Definition na {A} (m : M A) : Prop := forall w, fst (m w) <> Fault FAbort.
Lemma np_ret {A} (a : A) : np (ret a). Proof. intros w. cbn. split; discriminate. Qed.
Lemma np_throw {A} : np (@throw A). Proof. intros w. cbn. split; discriminate. Qed.
Lemma np_bind {A B} (m : M A) (f : A -> M B) : np m -> (forall a, np (f a)) -> np (bind m f).
Proof. intros H G w. unfold bind. specialize (H w). destruct (m w) as [[a| |e] w1]; cbn [fst] in *; [apply G|split; discriminate|split; intros [= ->]; tauto]. Qed.
Lemma na_bind {A B} (m : M A) (f : A -> M B) : na m -> (forall a, na (f a)) -> na (bind m f).
Proof. intros H G w. unfold bind. specialize (H w). destruct (m w) as [[a| |e] w1]; cbn [fst] in *; [apply G|discriminate|intros [= ->]; tauto]. Qed.
Lemma np_na {A} (m : M A) : np m -> na m. Proof. intros H w. apply H. Qed.
Lemma np_touch l t : np (touch l t).
Proof. intros w. unfold touch. destruct (nth_error (w_heap w) l) as [[c|]|]; [destruct (pop_to t (c_stack c))|..]; cbn; split; discriminate. Qed.
Lemma np_reborrow l t : np (reborrow l t).
Proof. intros w. unfold reborrow. destruct (nth_error (w_heap w) l) as [[c|]|]; [destruct (pop_to t (c_stack c))|..]; cbn; split; discriminate. Qed.
Lemma np_store l v : np (store l v).
Proof. intros w. unfold store. destruct (nth_error (w_heap w) l) as [[c|]|]; cbn; split; discriminate. Qed.
Lemma np_new_cell : np new_cell. Proof. intros w. cbn. split; discriminate. Qed.
Lemma np_new_bld : np new_bld. Proof. intros w. cbn. split; discriminate. Qed.
Lemma np_drop_bld i : np (drop_bld i). Proof. intros w. cbn. split; discriminate. Qed.
Lemma np_fresh : np fresh. Proof. intros w. cbn. split; discriminate. Qed.
Lemma np_give o : np (give o). Proof. intros w. cbn. split; discriminate. Qed.
Lemma np_alive i : np (alive_bld i). Proof. intros w. unfold alive_bld. destruct in_dec; cbn; split; discriminate. Qed.
Lemma np_finally {A} (m : M A) f : np m -> np f -> np (finally m f).
Proof.
  intros H G w. unfold finally. specialize (H w). destruct (m w) as [r w1]; cbn [fst] in *. unfold leave. specialize (G w1).
  destruct r as [a| |[]]; destruct (f w1) as [[u| |[]] w2]; cbn [fst] in *; split; try discriminate; intuition congruence.
Qed.
Lemma na_finally {A} (m : M A) f : na m -> np f -> na (finally m f).
Proof.
  intros H G w. unfold finally. specialize (H w). destruct (m w) as [r w1]; cbn [fst] in *. unfold leave. specialize (G w1).
  destruct r as [a| |[]]; destruct (f w1) as [[u| |[]] w2]; cbn [fst] in *; try discriminate; intuition congruence.
Qed.
Lemma np_on_fail {A} (m : M A) f : np m -> np f -> np (on_fail m f).
Proof.
  intros H G w. unfold on_fail. specialize (H w). destruct (m w) as [r w1]; cbn [fst] in *. unfold leave. specialize (G w1).
  destruct r as [a| |[]]; destruct (f w1) as [[u| |[]] w2]; cbn [fst] in *; split; try discriminate; intuition congruence.
Qed.
Create HintDb np.
#[local] Hint Resolve np_ret np_throw np_bind np_touch np_reborrow np_store np_new_cell np_new_bld np_drop_bld np_fresh np_give np_alive np_finally np_on_fail : np.

Section Quiet.
Variables (bomb : nat -> bool) (U : nat -> list uact * uend).
Hypothesis Q : no_user_panics bomb U.
Lemma np_dropv o : np (dropv bomb o).
Proof.
  intros w. unfold dropv. destruct o as [x|]; cbn [drop_opt]; [|split; discriminate].
  unfold drop_one. destruct in_dec; [split; discriminate|]. rewrite (proj1 Q). split; discriminate.
Qed.
Hint Resolve np_dropv : np.
Lemma np_assign l t v : np (assign bomb l t v).
Proof. unfold assign. auto 10 with np. Qed.
Lemma np_take l t : np (take l t).
Proof. unfold take. auto 10 with np. Qed.
Lemma np_free l t : np (free bomb l t).
Proof. unfold free. apply np_bind; [apply np_touch|]. intros old. apply np_bind; [intros w; cbn; split; discriminate|]. intros. apply np_dropv. Qed.
Hint Resolve np_assign np_take np_free : np.
Lemma np_user l t : np (user_call bomb U l t).
Proof.
  intros w. unfold user_call. pose proof (proj2 Q (w_calls w)) as E. destruct (U (w_calls w)) as [s e]. cbn [snd] in E.
  assert (K : np (bind (uacts_run bomb l t s) (fun _ => match e with UOk => ret tt | UErr => throw | UPanic => crash FPanic end))).
  { apply np_bind; [|intros _; destruct e; try congruence; auto with np]. clear E. induction s as [|a s IH]; cbn [uacts_run]; [apply np_ret|].
    apply np_bind; [|intros; exact IH]. destruct a as [[]|]; cbn [uact_run]; auto with np.
    apply np_bind; [apply np_fresh|]. intros x w0. unfold catching. pose proof (np_assign l t (Some x) w0) as K.
    destruct (assign bomb l t (Some x) w0) as [[| |[]] w1]; cbn [fst] in *; intuition congruence. }
  apply K.
Qed.
Hint Resolve np_user : np.
Lemma np_belement b : np (belement bomb U b).
Proof. induction b; cbn [belement]; auto with np. Qed.
Lemma np_bdrop b : np (bdrop bomb U b).
Proof.
  induction b; cbn [bdrop]; auto with np. apply np_bind; [apply np_alive|]. intros _. apply np_bind; [apply np_drop_bld|]. intros _ w.
  pose proof (np_user l t w) as K. destruct (user_call bomb U l t w) as [[| |[]] w1]; cbn [fst] in *; intuition congruence.
Qed.
Lemma np_bopen n : forall l t, np (bopen bomb U n l t).
Proof.
  induction n as [|n IH]; intros l t; cbn [bopen]; [auto 10 with np|].
  apply np_bind; [apply np_reborrow|]. intros t'. apply np_bind; [apply np_new_cell|]. intros [c ct]. unfold nub_move. auto 10 with np.
Qed.
Lemma na_bscalar n : forall l t, na (bscalar bomb U n l t).
Proof.
  induction n as [|n IH]; intros l t; cbn [bscalar]; [apply np_na; auto with np|].
  apply na_bind; [apply np_na, np_reborrow|]. intros t'. apply na_bind; [apply np_na, np_new_cell|]. intros [c ct].
  apply na_bind; [apply np_na, np_reborrow|]. intros p. apply na_finally; [|apply np_free].
  apply na_bind; [apply IH|]. intros _. apply na_bind; [apply np_na, np_take|]. intros [x|]; [apply np_na, np_assign|]. intros w. cbn. discriminate.
Qed.
Lemma na_bfinish b : forall w, fst (fst (bfinish bomb U b w)) <> Fault FAbort.
Proof.
  induction b as [l t i| |l t c ct inner IH]; intros w; cbn [bfinish].
  - assert (K : na (bind (alive_bld i) (fun _ => user_call bomb U l t))) by (apply np_na; auto with np). specialize (K w).
    destruct (bind _ _ w) as [r w1]. exact K.
  - cbn. discriminate.
  - specialize (IH w). destruct (bfinish bomb U inner w) as [[r i1] w1]. cbn [fst] in IH. destruct r as [a| |f]; [|cbn; discriminate|exact IH].
    assert (K : na (bind (bdrop bomb U i1) (fun _ => bind (take c ct) (fun o => match o with None => crash FPanic | Some x => assign bomb l t (Some x) end)))).
    { apply na_bind; [apply np_na, np_bdrop|]. intros _. apply na_bind; [apply np_na, np_take|]. intros [x|]; [apply np_na, np_assign|]. intros w0. cbn. discriminate. }
    specialize (K w1). destruct (bind _ _ w1) as [r w2]. exact K.
Qed.
End Quiet.

Theorem C54_only_unwrap_panics bomb U n tr s op f s' :
  xruns bomb U n tr s -> not_aborted tr -> no_user_panics bomb U -> xstep bomb U n op s = Some (Fault f, s') ->
  f = FPanic /\ (op = XFinish \/ op = XScalar).
Proof.
  intros H G Q E. pose proof (C54_no_undefined_behaviour _ _ _ _ _ _ _ _ H G E) as R.
  assert (Hf : f = FPanic \/ f = FAbort) by (destruct R as [R | [R | [R | R]]]; try discriminate; injection R as ->; auto). clear R.
  destruct s as [ob w]. unfold xstep in E. destruct ob as [b|]; destruct op; try discriminate.
  - pose proof (np_belement bomb U Q b w) as K. destruct (belement bomb U b w) as [r w1]. injection E as -> <-. cbn [fst] in K. destruct K as [K1 K2]. destruct Hf; subst f; congruence.
  - pose proof (na_bfinish bomb U Q b w) as K. destruct (bfinish bomb U b w) as [[r b1] w1]. injection E as -> <-. cbn [fst] in K. destruct Hf; subst f; [auto|congruence].
  - pose proof (np_bdrop bomb U Q b w) as K. destruct (bdrop bomb U b w) as [r w1]. injection E as -> <-. cbn [fst] in K. destruct K as [K1 K2]. destruct Hf; subst f; congruence.
  - pose proof (np_bopen bomb U Q n 0 0 w) as K. destruct (bopen bomb U n 0 0 w) as [r w1]. injection E as E <-. cbn [fst] in K. destruct r; try discriminate. injection E as ->. destruct K as [K1 K2]. destruct Hf; subst f; congruence.
  - pose proof (na_bscalar bomb U Q n 0 0 w) as K. destruct (bscalar bomb U n 0 0 w) as [r w1]. injection E as -> <-. cbn [fst] in K. destruct Hf; subst f; [auto|congruence].
  - assert (K : np (bind (take 0 0) give)) by (apply np_bind; [apply np_take|intros; apply np_give]). specialize (K w). destruct (bind (take 0 0) give w) as [r w1]. injection E as -> <-. cbn [fst] in K. destruct K as [K1 K2]. destruct Hf; subst f; congruence.
  - pose proof (np_assign bomb U Q 0 0 None w) as K. destruct (assign bomb 0 0 None w) as [r w1]. injection E as -> <-. cbn [fst] in K. destruct K as [K1 K2]. destruct Hf; subst f; congruence.
Qed.

(** * Errors of user code come back, and `out` keeps its value. *)
Lemma user_err bomb U w l t v s : no_user_panics bomb U -> cellat w l v (t :: s) -> Acct w [] -> snd (U (w_calls w)) = UErr ->
  fst (user_call bomb U l t w) = Err.
Proof.
  intros Q C A E. destruct (user_call_ok bomb U w l t v s C A) as (r & w' & v' & E1 & R & _). pose proof (np_user bomb U Q l t w) as [K _].
  rewrite E1 in *. cbn [fst] in *. destruct R as [(a & ->) | [-> | ->]]; [|reflexivity|congruence]. exfalso.
  unfold user_call in E1. destruct (U (w_calls w)) as [acts e]. cbn [snd] in E. subst e. unfold bind in E1. destruct (uacts_run _ _ _ _ _) as [[| |] ?]; discriminate.
Qed.
Lemma belement_err bomb U b : no_user_panics bomb U -> forall w l st own, chain w b l st own -> Acct w [] -> live_blds w b -> user_builder b <> [] ->
  snd (U (w_calls w)) = UErr -> fst (belement bomb U b w) = Err.
Proof.
  intros Q. induction b as [l0 t i| |l0 t c ct inner IH]; intros w l st own HC HA HL HB HE; cbn [belement].
  - destruct (chain_user_inv _ _ _ _ _ _ _ HC) as (-> & -> & v & C). unfold bind, alive_bld.
    destruct in_dec as [G|G]; [exfalso; unfold live_blds in HL; cbn [user_builder] in HL; apply NoDup_remove_2 in HL; apply HL; rewrite app_nil_r; exact G|].
    eapply user_err; eauto.
  - contradiction HB. reflexivity.
  - destruct (chain_box_inv _ _ _ _ _ _ _ _ _ HC) as (-> & v & stc & own0 & -> & C & N1 & N2 & N3 & H & I). eapply IH; eauto.
Qed.
Lemma bfinish_err bomb U b w : fst (belement bomb U b w) = Err -> bfinish bomb U b w = (Err, b, snd (belement bomb U b w)).
Proof.
  revert w. induction b as [l0 t i| |l0 t c ct inner IH]; intros w; cbn [belement bfinish].
  - destruct (bind _ _ w) as [r w1]. cbn [fst snd]. intros ->. reflexivity.
  - discriminate.
  - intros H. rewrite (IH _ H). reflexivity.
Qed.
Lemma calls_reborrow l t w n w' : reborrow l t w = (Ok n, w') -> w_calls w' = w_calls w.
Proof. unfold reborrow. destruct (nth_error (w_heap w) l) as [[c|]|]; try discriminate. destruct (pop_to t (c_stack c)); [|discriminate]. intros [= _ <-]. reflexivity. Qed.
Lemma user_ok_inv bomb U l t w : fst (user_call bomb U l t w) = Ok tt -> snd (U (w_calls w)) = UOk.
Proof.
  unfold user_call. destruct (U (w_calls w)) as [acts e]. unfold bind, ret, throw, crash. destruct (uacts_run _ _ _ _ _) as [[| |] w1]; cbn [fst snd]; try discriminate.
  destruct e; cbn [fst]; congruence.
Qed.
Lemma bopen_ok_inv bomb U n : forall l t w b, fst (bopen bomb U n l t w) = Ok b -> snd (U (w_calls w)) = UOk.
Proof.
  induction n as [|n IH]; intros l t w b; cbn [bopen]; unfold bind at 1; destruct (reborrow l t w) as [[t1| |] w1] eqn:E1; try discriminate;
    rewrite <- (calls_reborrow _ _ _ _ _ E1).
  - unfold bind at 1. pose proof (user_ok_inv bomb U l t1 w1) as K. destruct (user_call bomb U l t1 w1) as [[[]| |] w2]; cbn [fst] in *; try discriminate. auto.
  - unfold bind at 1, new_cell. set (w2 := mkw _ _ _ _ _ _ _ _). change (w_calls w1) with (w_calls w2). clearbody w2. unfold bind at 1. destruct (reborrow _ _ w2) as [[p| |] w3] eqn:E3; try discriminate.
    rewrite <- (calls_reborrow _ _ _ _ _ E3). unfold bind at 1, on_fail.
    pose proof (IH (length (w_heap w1)) p w3) as K. destruct (bopen _ _ _ _ _ w3) as [r w4]. cbn [fst] in K. unfold leave.
    destruct r as [b1| |[]]; [intros _; eapply K; reflexivity|..]; first [discriminate | destruct (free bomb (length (w_heap w1)) (w_tags w1) w4) as [[| |[]] w5]; discriminate].
Qed.
Lemma bscalar_ok_inv' bomb U n : no_user_panics bomb U -> forall l t w r w', bscalar bomb U n l t w = (r, w') -> r = Ok tt \/ r = Fault FPanic -> snd (U (w_calls w)) = UOk.
Proof.
  intros Q. induction n as [|n IH]; intros l t w r w'; cbn [bscalar]; unfold bind at 1; pose proof (np_reborrow l t w) as [N1 _]; destruct (reborrow l t w) as [[t1| |e] w1] eqn:E1; cbn [fst] in N1;
    try (intros [= <- <-] [H|H]; congruence); rewrite <- (calls_reborrow _ _ _ _ _ E1).
  - intros E2 [-> | ->]; [apply (user_ok_inv bomb U l t1 w1); rewrite E2; reflexivity|]. destruct (np_user bomb U Q l t1 w1) as [K _]. rewrite E2 in K. contradiction K. reflexivity.
  - unfold bind at 1, new_cell. set (w2 := mkw _ _ _ _ _ _ _ _). change (w_calls w1) with (w_calls w2). clearbody w2.
    unfold bind at 1. pose proof (np_reborrow (length (w_heap w1)) (w_tags w1) w2) as [N3 _]. destruct (reborrow _ _ w2) as [[p| |e] w3] eqn:E3; cbn [fst] in N3; try (intros [= <- <-] [H|H]; congruence).
    rewrite <- (calls_reborrow _ _ _ _ _ E3). unfold finally. set (m := bind (bscalar _ _ _ _ _) _).
    assert (X : forall r w', m w3 = (r, w') -> r = Ok tt \/ r = Fault FPanic -> snd (U (w_calls w3)) = UOk).
    { intros r0 w0 X Y. subst m. unfold bind in X. destruct (bscalar bomb U n _ p w3) as [[[]| |e] w4] eqn:E4; [eapply IH; [exact E4|auto]| |]; injection X as <- <-; [destruct Y; discriminate|].
      eapply IH; [exact E4|exact Y]. }
    destruct (m w3) as [r4 w4]. specialize (X _ _ eq_refl). pose proof (np_free bomb U Q (length (w_heap w1)) (w_tags w1) w4) as [Y _]. unfold leave.
    destruct r4 as [[]| |[]]; try (intros _ _; apply X; tauto); destruct (free bomb (length (w_heap w1)) (w_tags w1) w4) as [[[]| |[]] w5]; cbn [fst] in *; intros [= <- <-] [Z|Z]; congruence.
Qed.
Lemma bscalar_ok_inv bomb U n : no_user_panics bomb U -> forall l t w, fst (bscalar bomb U n l t w) = Ok tt \/ fst (bscalar bomb U n l t w) = Fault FPanic -> snd (U (w_calls w)) = UOk.
Proof. intros Q l t w. destruct (bscalar bomb U n l t w) as [r w'] eqn:E. cbn [fst]. eapply bscalar_ok_inv'; eauto. Qed.
Lemma shape bomb U n tr b w : xruns bomb U (S n) tr (Some b, w) -> exists l t c ct inner, b = BBox l t c ct inner.
Proof.
  intros H. remember (Some b, w) as s eqn:Es. revert b w Es. induction H as [|tr s op r s' H IH F E]; intros b w Es; [discriminate|]. subst s'.
  destruct s as [[b0|] w0]; destruct op; cbn [xstep] in E; try discriminate.
  - destruct (belement bomb U b0 w0). injection E as _ <- _. eapply IH; reflexivity.
  - destruct (IH _ _ eq_refl) as (l & t & c & ct & inner & ->). cbn [bfinish] in E. destruct (bfinish bomb U inner w0) as [[[|  |] i1] w1]; [destruct (bind _ _ w1)|..]; injection E as _ <- _; eauto 10.
  - destruct (bdrop bomb U b0 w0). discriminate.
  - destruct (bopen bomb U (S n) 0 0 w0) as [r1 w1] eqn:EO. destruct r1 as [b1| |]; injection E as _ E _; try discriminate. subst b1.
    cbn [bopen] in EO. unfold bind at 1 in EO. destruct (reborrow 0 0 w0) as [[t1| |] w2]; try discriminate. unfold bind at 1, new_cell in EO. unfold bind at 1 in EO.
    destruct (reborrow _ _ _) as [[p| |] w3]; try discriminate. unfold bind at 1 in EO. destruct (on_fail _ _ w3) as [[inner| |] w4]; try discriminate.
    unfold nub_move, bind, ret in EO. injection EO as <- _. eauto 10.
  - destruct (bscalar bomb U (S n) 0 0 w0). discriminate.
  - destruct (bind _ _ w0). discriminate.
  - destruct (assign bomb 0 0 None w0). discriminate.
Qed.

Theorem C54_user_errors_come_back bomb U n tr ob w op r ob' w' :
  xruns bomb U (S n) tr (ob, w) -> not_aborted tr -> no_user_panics bomb U -> xstep bomb U (S n) op (ob, w) = Some (r, (ob', w')) ->
  snd (U (w_calls w)) = UErr ->
  match op with
  | XOpen | XScalar => True
  | XElement | XFinish => exists b, ob = Some b /\ user_builder b <> []
  | _ => False
  end ->
  r = Err /\ w_out w' = w_out w.
Proof.
  intros H G Q E UE HO. destruct (xruns_inv _ _ _ _ _ H G) as (own & [V1 V2 V3 V4 V5 V6]). cbn [fst snd] in *.
  destruct op; try contradiction; destruct ob as [b|]; cbn [xstep] in E; try discriminate; try (destruct HO as (b0 & Hb & _); discriminate).
  - (* open *) destruct V2 as (-> & v & st & C & I). destruct (pop_in _ _ I) as (sp & P0).
    destruct (bopen_ok bomb U (S n) w 0 0 v st _ C P0 V1) as (r1 & w1 & E1 & R & PP). pose proof (np_bopen bomb U Q (S n) 0 0 w) as [K1 K2]. pose proof (bopen_ok_inv bomb U (S n) 0 0 w) as K3.
    rewrite E1 in *. cbn [fst] in *. injection E as <- <- <-. destruct R as [[(b & ->) | [-> | ->]] | ->]; try congruence; [specialize (K3 b eq_refl); congruence|].
    split; [reflexivity|]. destruct PP as (_ & (v' & pre & C' & W) & _); [discriminate|]. rewrite (W (Nat.lt_0_succ _)) in C'. unfold w_out. unfold cellat in *. rewrite C, C'. reflexivity.
  - (* scalar *) destruct V2 as (-> & v & st & C & I). destruct (pop_in _ _ I) as (sp & P0).
    destruct (bscalar_ok bomb U (S n) w 0 0 v st _ C P0 V1) as (r1 & w1 & E1 & R & PP). pose proof (na_bscalar bomb U Q (S n) 0 0 w) as K1. pose proof (bscalar_ok_inv bomb U (S n) Q 0 0 w) as K3.
    rewrite E1 in *. cbn [fst] in *. injection E as <- <- <-. destruct R as [[([] & ->) | [-> | ->]] | ->]; try congruence; [specialize (K3 (or_introl eq_refl)); congruence| |specialize (K3 (or_intror eq_refl)); congruence].
    split; [reflexivity|]. destruct PP as (_ & (v' & pre & C' & W) & _); [discriminate|]. rewrite (W eq_refl (Nat.lt_0_succ _)) in C'. unfold w_out. unfold cellat in *. rewrite C, C'. reflexivity.
  - (* element *) destruct HO as (b0 & Hb & HB). injection Hb as <-. destruct (shape _ _ _ _ _ _ H) as (l & t & c & ct & inner & ->). destruct V2 as (st & Ch & I).
    pose proof (belement_err bomb U _ Q _ _ _ _ Ch V1 V3 HB UE) as K.
    destruct (chain_box_inv _ _ _ _ _ _ _ _ _ Ch) as (-> & v & stc & own0 & -> & C & N1 & N2 & N3 & H1 & I1).
    destruct (belement_ok bomb U inner w c stc own0 H1 V1 V3) as (r1 & w1 & E1 & R & _ & F & _). cbn [belement] in *. rewrite E1 in *. injection E as <- <- <-.
    split; [exact K|]. unfold w_out. rewrite (fr_nth _ _ _ F); [reflexivity|]. cbn [In]. intuition.
  - (* finish *) destruct HO as (b0 & Hb & HB). injection Hb as <-. destruct (shape _ _ _ _ _ _ H) as (l & t & c & ct & inner & ->). destruct V2 as (st & Ch & I).
    pose proof (belement_err bomb U _ Q _ _ _ _ Ch V1 V3 HB UE) as K. rewrite (bfinish_err _ _ _ _ K) in E.
    destruct (chain_box_inv _ _ _ _ _ _ _ _ _ Ch) as (-> & v & stc & own0 & -> & C & N1 & N2 & N3 & H1 & I1).
    destruct (belement_ok bomb U inner w c stc own0 H1 V1 V3) as (r1 & w1 & E1 & R & _ & F & _). cbn [belement] in *. rewrite E1 in *. injection E as <- <- <-.
    split; [reflexivity|]. unfold w_out. rewrite (fr_nth _ _ _ F); [reflexivity|]. cbn [In]. intuition.
Qed.
Fixpoint xexec bomb U n (ops : list xop) (s : option bld * world) : option (list (res unit) * (option bld * world)) :=
  match ops with
  | [] => Some ([], s)
  | op :: ops' => match xstep bomb U n op s with
                  | Some (r, s1) => option_map (fun p => (r :: fst p, snd p)) (xexec bomb U n ops' s1)
                  | None => None end
  end.
(** The user's finish fails on a place that already had a value: it is kept. *)
Definition ex_U3 (i : nat) : list uact * uend := match i with 0 => ([UAssign false], UOk) | 2 => ([UAssign false], UErr) | _ => ([], UOk) end.
Example box_err_ex : exists s, xexec (fun _ => false) ex_U3 2 [XScalar; XOpen; XFinish; XClose] (None, w_init) = Some ([Ok tt; Ok tt; Err; Ok tt], s) /\
  w_out (snd s) = [0] /\ w_dropped (snd s) = [1].
Proof. eexists. split; [vm_compute; reflexivity|]. split; reflexivity. Qed.

(** Examples: Box<Box<T>>. *)
Lemma xexec_runs bomb U n ops : forall tr s rs s', xruns bomb U n tr s -> not_aborted tr -> Forall (fun r => r <> Fault FAbort) rs ->
  xexec bomb U n ops s = Some (rs, s') -> xruns bomb U n (tr ++ combine ops rs) s'.
Proof.
  induction ops as [|op ops IH]; intros tr s rs s' H F G; cbn [xexec].
  - intros [= <- <-]. cbn [combine]. rewrite app_nil_r. exact H.
  - destruct (xstep bomb U n op s) as [[r s1]|] eqn:E; [|discriminate].
    destruct (xexec bomb U n ops s1) as [[rs1 s2]|] eqn:E2; [|discriminate]. cbn [option_map fst snd]. intros [= <- <-].
    inversion G; subst. cbn [combine]. replace (tr ++ (op, r) :: combine ops rs1) with ((tr ++ [(op, r)]) ++ combine ops rs1) by (rewrite <- app_assoc; reflexivity).
    eapply IH; eauto. { econstructor; eauto. } apply Forall_app. split; [exact F|]. constructor; auto.
Qed.

(** begin/seq: nothing; element: writes; finish: overwrites (value 0 panics when dropped,
    caught); drop: takes the value 1 and puts value 2. The caller gets value 2. *)
Definition ex_U (i : nat) : list uact * uend :=
  match i with 1 => ([UAssign false], UOk) | 2 => ([UAssign true], UOk) | 3 => ([UTake; UAssign false], UOk) | _ => ([], UOk) end.
Definition ex_ops := [XOpen; XElement; XFinish; XElement; XFinish; XClose].
Example box_ex : exists s, xexec (fun x => x =? 0) ex_U 2 ex_ops (None, w_init) = Some ([Ok tt; Ok tt; Ok tt; Ok tt; Fault FPanic; Ok tt], s) /\
  w_out (snd s) = [2] /\ w_dropped (snd s) = [0] /\ w_taken (snd s) = [1] /\ w_bdropped (snd s) = [0] /\ w_blds (snd s) = 1 /\ length (w_heap (snd s)) = 3.
Proof. eexists. split; [vm_compute; reflexivity|]. vm_compute. auto 10. Qed.
(** The user's finish panics after writing a value whose drop panics as well: closing the
    builder panics, and everything is still released. *)
Definition ex_U2 (i : nat) : list uact * uend := match i with 1 => ([UAssign false], UPanic) | _ => ([], UOk) end.
Example box_panic_ex : exists s, xexec (fun x => x =? 0) ex_U2 2 [XOpen; XFinish; XClose] (None, w_init) = Some ([Ok tt; Fault FPanic; Fault FPanic], s) /\
  w_out (snd s) = [] /\ w_dropped (snd s) = [0] /\ w_bdropped (snd s) = [0] /\ all_freed (snd s).
Proof.
  eexists. split; [vm_compute; reflexivity|]. split; [reflexivity|]. split; [reflexivity|]. split; [reflexivity|].
  cbn [snd]. intros k H1 H2. cbn in *. destruct k as [|[|[|]]]; try lia; reflexivity.
Qed.
(** The hypotheses are met. *)
Example box_runs_ex : exists tr w, xruns (fun x => x =? 0) ex_U2 2 tr (None, w) /\ not_aborted tr /\ forgets_some tr = false /\ w_next w = 1 /\ In (XFinish, Fault FPanic) tr.
Proof.
  destruct box_panic_ex as ((ob & w) & E & _). assert (ob = None) as -> by (vm_compute in E; congruence).
  exists ([] ++ combine [XOpen; XFinish; XClose] [Ok tt; Fault FPanic; Fault FPanic]), w.
  split; [eapply xexec_runs; [constructor|constructor| |exact E]; repeat (constructor; [discriminate|]); constructor|].
  split; [repeat (constructor; [discriminate|]); constructor|]. split; [reflexivity|]. split; [vm_compute in E; injection E as <-; reflexivity|]. cbn. tauto.
Qed.
