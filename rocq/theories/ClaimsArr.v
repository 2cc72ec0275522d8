(** C53: the elements of a [T; N], for every element type. *)
From Coq Require Import List Bool Arith Lia Sorted Permutation.
From Verif Require Import Base ArrOwn ArrSpec ArrFacts.
Import ListNotations.

Lemma aruns_inv N bomb tr s : aruns N bomb tr s -> Inv N (existsb loses tr) (seen_of N tr) s.
Proof.
  induction 1 as [|tr s op r s' H IH F E]; [apply inv_init|].
  rewrite existsb_app. cbn [existsb]. rewrite orb_false_r. unfold seen_of in *. rewrite fold_left_app. cbn [fold_left].
  eapply astep_ok; eauto.
Qed.

(** No element is dropped twice and no uninitialised one is used, whichever drops panic;
    if none does, no call faults. *)
Theorem C53_no_undefined_behaviour N bomb tr s op r s' :
  aruns N bomb tr s -> astep N bomb op s = Some (r, s') ->
  r <> Fault FUB /\ ((forall x, bomb x = false) -> forall f, r <> Fault f).
Proof. intros H E. destruct (astep_ok _ _ _ _ _ _ _ _ (aruns_inv _ _ _ _ H) E) as (_ & A & B & _). auto. Qed.

(** Whenever `out` is not None it holds N elements, in the order in which they were made,
    and no element is at the same time in two of: the array, the hands of the user, the
    dropped ones. *)
Theorem C53_out_is_owned N bomb tr s :
  aruns N bomb tr s ->
  NoDup (a_dropped s ++ a_taken s ++ outl (a_out s)) /\
  forall l, a_out s = Some l -> length l = N /\ StronglySorted lt l.
Proof.
  intros H. destruct (aruns_inv _ _ _ _ H) as [I1 I2 I3 I4 I5 I6]. split; [|exact I2].
  destruct (a_bld s); unfold all_of in I4.
  - rewrite !app_assoc in I4. apply NoDup_app_l in I4. apply NoDup_app_l in I4. rewrite <- app_assoc in I4. exact I4.
  - cbn [olist] in I4. rewrite !app_nil_r in I4. exact I4.
Qed.

(** Every element made was dropped once, was taken, or is in `out`: unless a builder was
    forgotten, or the drop of a builder panicked. *)
Theorem C53_nothing_lost N bomb tr s :
  aruns N bomb tr s -> a_bld s = None -> existsb loses tr = false ->
  Permutation (seq 0 (a_next s)) (a_dropped s ++ a_taken s ++ outl (a_out s)).
Proof.
  intros H B L. destruct (aruns_inv _ _ _ _ H) as [I1 I2 I3 I4 I5 I6]. rewrite B in *. unfold all_of in *. cbn [olist] in *.
  rewrite !app_nil_r in *. apply NoDup_Permutation; [apply seq_NoDup|exact I4|]. intros x. rewrite in_seq. split.
  - intros Hx. apply I6; [exact L|lia].
  - intros Hx. rewrite Forall_forall in I5. apply I5 in Hx. lia.
Qed.

(** `element` succeeds as long as at most N elements were kept, and a `finish` that
    succeeds leaves in `out` exactly those that were kept, which are N. *)
Theorem C53_finish_returns_the_elements N bomb tr s op r s' :
  aruns N bomb tr s -> astep N bomb op s = Some (r, s') ->
  let kept := sn_kept (seen_of N tr) ++ olist (sn_cur (seen_of N tr)) in
  match op with
  | AElement => r = Ok tt <-> length kept <= N
  | AFinish => (r = Ok tt -> a_out s' = Some kept /\ length kept = N) /\
               ((forall x, bomb x = false) -> r = Ok tt <-> length kept = N)
  | _ => True
  end.
Proof.
  intros H E kept. destruct (astep_ok _ _ _ _ _ _ _ _ (aruns_inv _ _ _ _ H) E) as (_ & _ & _ & A & B).
  destruct op; auto.
Qed.

(** Examples *)
Fixpoint aexec N bomb (ops : list aop) (s : astate) : option (list (res unit) * astate) :=
  match ops with
  | [] => Some ([], s)
  | op :: ops' => match astep N bomb op s with
                  | Some (r, s1) => option_map (fun p => (r :: fst p, snd p)) (aexec N bomb ops' s1)
                  | None => None end
  end.
Lemma aexec_runs N bomb ops : forall tr s rs s', aruns N bomb tr s ->
  Forall (fun e => snd e <> Fault FAbort) tr -> Forall (fun r => r <> Fault FAbort) rs ->
  aexec N bomb ops s = Some (rs, s') -> aruns N bomb (tr ++ combine ops rs) s'.
Proof.
  induction ops as [|op ops IH]; intros tr s rs s' H F G; cbn [aexec].
  - intros [= <- <-]. cbn [combine]. rewrite app_nil_r. exact H.
  - destruct (astep N bomb op s) as [[r s1]|] eqn:E; [|discriminate].
    destruct (aexec N bomb ops s1) as [[rs1 s2]|] eqn:E2; [|discriminate]. cbn [option_map fst snd]. intros [= <- <-].
    inversion G; subst. cbn [combine]. replace (tr ++ (op, r) :: combine ops rs1) with ((tr ++ [(op, r)]) ++ combine ops rs1) by (rewrite <- app_assoc; reflexivity).
    eapply IH; eauto. { econstructor; eauto. } apply Forall_app. split; [exact F|]. constructor; auto.
Qed.

Definition fill2 := [AOpen; AElement; AAssign; AElement; AAssign; AFinish].
(** The place already holds an array whose first element panics when dropped; the second
    finish panics there, and the new elements go with the builder. *)
Example arr_panic_ex : let bomb x := x =? 0 in
  aexec 2 bomb (fill2 ++ [AClose] ++ fill2 ++ [AClose]) a_init
  = Some ([Ok tt; Ok tt; Ok tt; Ok tt; Ok tt; Ok tt; Ok tt; Ok tt; Ok tt; Ok tt; Ok tt; Ok tt; Fault FPanic; Ok tt],
          mka None None [0; 1; 2; 3] [] 4).
Proof. reflexivity. Qed.
Example arr_ok_ex :
  aexec 2 (fun _ => false) (fill2 ++ [AFinish; AElement; AAssign; AAssign; AClose; ATakeOut]) a_init
  = Some ([Ok tt; Ok tt; Ok tt; Ok tt; Ok tt; Ok tt; Err; Ok tt; Ok tt; Ok tt; Ok tt; Ok tt],
          mka None None [2; 3] [0; 1] 4).
Proof. reflexivity. Qed.
(** Dropping the builder panics: element 1 is lost. *)
Example arr_lost_ex :
  aexec 2 (fun x => x =? 0) [AOpen; AElement; AAssign; AElement; AAssign; AElement; AClose] a_init
  = Some ([Ok tt; Ok tt; Ok tt; Ok tt; Ok tt; Ok tt; Fault FPanic], mka None None [0] [] 2).
Proof. reflexivity. Qed.
(** The hypotheses are met. *)
Example arr_runs_ex : exists tr s, aruns 2 (fun x => x =? 0) tr s /\ a_bld s = None /\ existsb loses tr = false /\
  In (AFinish, Fault FPanic) tr /\ Permutation (seq 0 (a_next s)) (a_dropped s ++ a_taken s ++ outl (a_out s)).
Proof.
  eexists (_ ++ combine (fill2 ++ [AClose] ++ fill2 ++ [AClose]) _), _. split; [|split; [|split; [|split]]].
  - eapply aexec_runs; [constructor|constructor| |exact arr_panic_ex]. repeat (constructor; [discriminate|]). constructor.
  - reflexivity.
  - reflexivity.
  - cbn. tauto.
  - cbn. apply Permutation_refl.
Qed.
