(** C55: the storage of json::Value, Array and Object. *)
From Coq Require Import String ZArith List Bool Arith Lia Permutation Sorting.Sorted.
From Verif Require Import Base Types MapFacts JsonOwn JsonOwnSpec JsonOwnFacts JsonOwnMain JsonOwnExec.
Import ListNotations.
Open Scope nat_scope.

Lemma wf_arr_app l x : Forall wf l -> wf x -> wf (JvArr (l ++ [x])).
Proof. intros H Hx. constructor. apply Forall_app. auto. Qed.
Lemma swf_app sl o : swf sl -> match o with Some x => hwf x | None => True end -> swf (sl ++ [o]).
Proof. intros H Ho. apply Forall_app. split; [exact H|]. constructor; [exact Ho|constructor]. Qed.
Lemma swf_sval sl o : swf sl -> (forall v, o = Some v -> wf v) -> swf (sl ++ [sval o]).
Proof. intros H Ho. apply swf_app; [exact H|]. destruct o; [apply Ho; reflexivity|exact I]. Qed.
Lemma sclone_eq k v c : sclone k v = Ok c -> c = v.
Proof. unfold sclone. destruct (depth v <? k); congruence. Qed.
Lemma sfrom_wf xs : Forall (fun kv => wf (snd kv)) xs -> forall m, wf (JvObj m) -> wf (JvObj (sfrom xs m)).
Proof. induction 1 as [|[k v] xs H _ IH]; intros m Hm; [exact Hm|]. cbn [sfrom fold_left fst snd]. apply IH. apply wf_minsert; [exact H|exact Hm]. Qed.
Lemma wf_combine ks vs : Forall wf vs -> Forall (fun kv : bytes * jval => wf (snd kv)) (combine ks vs).
Proof. intros H. revert ks. induction H; intros [|k ks]; cbn; constructor; auto. Qed.
Lemma wf_removelast_obj m : wf (JvObj m) -> wf (JvObj (removelast m)).
Proof.
  intros H. apply wf_obj_inv in H. destruct H as [H1 H2]. destruct m as [|e m] using rev_ind; [constructor; constructor|].
  rewrite removelast_snoc. apply Sorted_app_l in H1. apply Forall_app in H2. constructor; tauto.
Qed.

Lemma sexec_wf k op sl sl' : swf sl -> sexec k op sl = Ok sl' -> swf sl'.
Proof.
  intros HW.
  assert (HM : forall A h p (g : jval -> res (A * jval)) (Q : A -> Prop) sl0 (K : A * sslots -> res sslots),
    swf sl0 -> (forall v a v', wf v -> g v = Ok (a, v') -> wf v' /\ Q a) ->
    (forall a sl2 r, swf sl2 -> Q a -> K (a, sl2) = Ok r -> swf r) -> (let* q := smodify h p g sl0 in K q) = Ok sl' -> swf sl').
  { intros A h p g Q sl0 K H0 H1 H2 E. destruct (smodify h p g sl0) as [[a sl2]| |] eqn:EM; cbn [Base.bind] in E; try discriminate.
    destruct (smodify_wf _ _ _ Q _ _ _ H1 H0 EM) as [H3 H4]. exact (H2 _ _ _ H3 H4 E). }
  assert (HG : forall h (K : jval * sslots -> res sslots),
    (forall x sl1 r, wf x -> swf sl1 -> K (x, sl1) = Ok r -> swf r) -> (let* q := sget_val h sl in K q) = Ok sl' -> swf sl').
  { intros h K H1 E. destruct (sget_val h sl) as [[x sl1]| |] eqn:EG; cbn [Base.bind] in E; try discriminate.
    destruct (sget_val_wf _ _ _ _ HW EG) as (H2 & H3 & _). exact (H1 _ _ _ H2 H3 E). }
  destruct op; cbn [sexec].
  - intros [= <-]. apply swf_app; [exact HW|]. destruct v; apply (wf_leaf (VStr s)) || apply (wf_leaf VNull) || apply (wf_leaf (VBool b)) || apply (wf_leaf (VNum n)).
  - intros [= <-]. apply swf_app; [exact HW|]. constructor. constructor.
  - intros [= <-]. apply swf_app; [exact HW|]. constructor; constructor.
  - apply HG. intros x sl1 r Hx H1. cbn [fst snd]. intros E. revert sl' HM HG. intros sl' HM HG.
    destruct (smodify h p _ sl1) as [[a sl2]| |] eqn:EM; cbn [Base.bind] in E; try discriminate. injection E as <-.
    eapply (smodify_wf _ _ _ (fun _ => True)) in EM; [tauto| |exact H1]. intros v a0 v' Hv. destruct v; try discriminate. intros [= <- <-]. split; [|exact I]. apply wf_arr_inv in Hv. now apply wf_arr_app.
  - apply (HM _ _ _ _ (fun o => forall v, o = Some v -> wf v)); [exact HW| |].
    + intros v a v' Hv. destruct v; try discriminate. intros [= <- <-]. apply wf_arr_inv in Hv. split.
      * constructor. apply Forall_app. split; [now apply Forall_firstn|now apply (Forall_skipn _ (S i))].
      * intros v Hn. eapply Forall_nth; eassumption.
    + intros a sl2 r H1 H2 [= <-]. now apply swf_sval.
  - apply (HM _ _ _ _ (fun _ => True)); [exact HW| |intros a sl2 r H1 _ [= <-]; exact H1].
    intros v a v' Hv. destruct v; try discriminate. intros [= <- <-]. split; [|exact I]. apply wf_arr_inv in Hv. constructor. now apply Forall_firstn.
  - apply HG. intros x sl1 r Hx H1. cbn [fst snd]. intros E.
    destruct (smodify h p _ sl1) as [[a sl2]| |] eqn:EM; cbn [Base.bind] in E; try discriminate. injection E as <-.
    eapply (smodify_wf _ _ _ (fun o => forall v, o = Some v -> wf v)) in EM; [apply swf_sval; tauto| |exact H1]. intros v a0 v' Hv. destruct v; try discriminate. intros [= <- <-]. split; [now apply wf_minsert|]. intros v Hl. eapply wf_lookup; eassumption.
  - apply (HM _ _ _ _ (fun o => forall v, o = Some v -> wf v)); [exact HW| |].
    + intros v a v' Hv. destruct v; try discriminate. intros [= <- <-]. split; [|intros v Hl; eapply wf_lookup; eassumption].
      apply wf_obj_inv in Hv. destruct Hv as [H1 H2]. constructor; [now apply ksorted_filter|]. rewrite Forall_forall in *. intros y Hy. apply filter_In in Hy. apply H2, Hy.
    + intros a sl2 r H1 H2 [= <-]. now apply swf_sval.
  - apply (HM _ _ _ _ (fun _ => True)); [exact HW| |intros a sl2 r H1 _ [= <-]; exact H1].
    intros v a v' Hv. destruct v; try discriminate; intros [= <- <-]; (split; [|exact I]); constructor; constructor.
  - apply HG. intros x sl1 r Hx H1. cbn [fst snd]. intros E.
    destruct (smodify h p _ sl1) as [[a sl2]| |] eqn:EM; cbn [Base.bind] in E; try discriminate. injection E as <-.
    eapply (smodify_wf _ _ _ wf) in EM; [apply swf_app; cbn; tauto| |exact H1]. intros v a0 v' Hv [= <- <-]. auto.
  - apply HG. intros x sl1 r Hx H1. cbn [fst snd]. intros E.
    destruct (smodify h p _ sl1) as [[a sl2]| |] eqn:EM; cbn [Base.bind] in E; try discriminate. injection E as <-.
    eapply (smodify_wf _ _ _ (fun _ => True)) in EM; [tauto| |exact H1]. intros v a0 v' Hv [= <- <-]. auto.
  - apply HG. intros x sl1 r Hx H1. cbn [fst snd]. destruct x; try discriminate; intros [= <-]; (apply swf_app; [exact H1|exact Hx]).
  - intros E. destruct (sget h sl) as [[x sl1]| |] eqn:EG; cbn [Base.bind fst snd] in E; try discriminate.
    destruct (sget_wf _ _ _ _ HW EG) as (H1 & H2 & _). destruct x as [v|l|m]; try discriminate; injection E as <-.
    + cbn [hwf] in H1. apply wf_arr_inv in H1. apply swf_sval; [apply Forall_upd; [|exact H2]|]; destruct l as [|c l]; cbn [tl hwf hd_error option_map]; try discriminate.
      * constructor; constructor. * inversion H1; subst. now constructor. * inversion H1; subst. intros v [= <-]. assumption.
    + cbn [hwf] in H1. apply wf_obj_inv in H1. destruct H1 as [H1 H3]. apply swf_sval; [apply Forall_upd; [|exact H2]|]; destruct m as [|c m]; cbn [tl hwf hd_error option_map]; try discriminate.
      * constructor; constructor. * inversion H3; subst. apply StronglySorted_inv in H1. constructor; tauto. * inversion H3; subst. intros v [= <-]. assumption.
  - intros E. destruct (sget h sl) as [[x sl1]| |] eqn:EG; cbn [Base.bind fst snd] in E; try discriminate.
    destruct (sget_wf _ _ _ _ HW EG) as (H1 & H2 & _). destruct x as [v|l|m]; try discriminate; injection E as <-.
    + cbn [hwf] in H1. apply wf_arr_inv in H1. apply swf_sval; [apply Forall_upd; [|exact H2]|].
      * destruct l as [|c l _] using rev_ind; [constructor; constructor|]. rewrite removelast_snoc. apply Forall_app in H1. constructor. tauto.
      * destruct l as [|c l _] using rev_ind; [discriminate|]. rewrite rev_app_distr. cbn. intros v [= <-]. apply Forall_app in H1. destruct H1 as [_ H1]. inversion H1. assumption.
    + cbn [hwf] in H1. apply swf_sval; [apply Forall_upd; [|exact H2]|].
      * now apply wf_removelast_obj.
      * apply wf_obj_inv in H1. destruct H1 as [_ H1]. destruct m as [|c m _] using rev_ind; [discriminate|]. rewrite rev_app_distr. cbn. intros v [= <-]. apply Forall_app in H1. destruct H1 as [_ H1]. inversion H1. assumption.
  - intros E. destruct (sget_vals hs sl) as [[vs sl1]| |] eqn:EG; cbn [Base.bind fst snd] in E; try discriminate. injection E as <-.
    destruct (sget_vals_wf _ _ _ _ HW EG) as (H1 & H2 & _). apply swf_app; [exact H2|]. constructor. exact H1.
  - intros E. destruct (sget_vals (map snd xs) sl) as [[vs sl1]| |] eqn:EG; cbn [Base.bind fst snd] in E; try discriminate. injection E as <-.
    destruct (sget_vals_wf _ _ _ _ HW EG) as (H1 & H2 & _). apply swf_app; [exact H2|]. apply sfrom_wf; [now apply wf_combine|]. constructor; constructor.
  - apply (HM _ _ _ _ wf); [exact HW| |intros a sl2 r H1 H2 [= <-]; apply swf_app; [exact H1|exact H2]].
    intros v a v' Hv. destruct (sclone k v) as [c| |] eqn:E; cbn [Base.bind]; try discriminate. intros [= <- <-]. apply sclone_eq in E. subst. auto.
  - apply HG. intros x sl1 r Hx H1. cbn [fst snd]. intros E.
    destruct (place _ p2 x) as [[s s']| |] eqn:EP; cbn [Base.bind fst] in E; try discriminate.
    destruct (smodify h p _ sl1) as [[a sl2]| |] eqn:EM; cbn [Base.bind snd] in E; try discriminate. injection E as <-.
    apply (place_wf _ wf) in EP; [|intros v a0 v' Hv [= <- <-]; auto|exact Hx]. destruct EP as [_ Hs].
    eapply (smodify_wf _ _ _ (fun _ => True)) in EM; [|intros v a0 v' Hv|exact H1]; [apply Forall_upd; [exact Hx|tauto]|].
    destruct v, s; try discriminate; destruct (sclone _ _) as [c| |] eqn:E2; cbn [Base.bind]; try discriminate; intros [= <- <-]; apply sclone_eq in E2; subst; auto.
  - intros E. destruct (sget h sl) as [[x sl1]| |] eqn:EG; cbn [Base.bind fst snd] in E; try discriminate. injection E as <-. apply (sget_wf _ _ _ _ HW EG).
  - intros E. destruct (sget h sl) as [[x sl1]| |] eqn:EG; cbn [Base.bind fst snd] in E; try discriminate. injection E as <-. apply (sget_wf _ _ _ _ HW EG).
Qed.

Definition OInv (s : state) : Prop := Acc (s_mem s) (slabs (s_slots s) ++ s_lost s) /\ swf (slots_seen (s_slots s)).

Lemma step_ok k op s : 4 <= k -> OInv s ->
  match sexec k op (slots_seen (s_slots s)) with
  | Ok sl => exists s', step k op s = Ok s' /\ slots_seen (s_slots s') = sl /\ OInv s' /\ (forgets op = false -> s_lost s' = s_lost s)
  | Err => step k op s = Err
  | Fault f => step k op s = Fault f
  end.
Proof.
  intros Hk [HA HW]. pose proof (exec_ok k op (s_slots s) Hk HW (s_lost s) (s_mem s) HA) as H. unfold step.
  destruct (sexec k op (slots_seen (s_slots s))) as [sl| |f] eqn:E; [|rewrite H; reflexivity|rewrite H; reflexivity].
  destruct H as (sl' & w' & -> & E1 & H2). eexists. split; [reflexivity|]. cbn [s_slots s_mem s_lost]. split; [exact E1|]. split.
  - split; [|cbn [s_slots]; rewrite E1; eapply sexec_wf; eassumption]. eapply Acc_same; [exact H2|]. intros i. cbn [s_slots s_lost]. unfold lost_by. rewrite !count_occ_app. destruct op; cbn [count_occ]; lia.
  - intros Hf. destruct op; try discriminate; apply app_nil_r.
Qed.
Lemma run_ok k prog : 4 <= k -> forall s, OInv s ->
  match srun k prog (slots_seen (s_slots s)) with
  | Ok sl => exists s', run k prog s = Ok s' /\ slots_seen (s_slots s') = sl /\ OInv s' /\ (forallb (fun op => negb (forgets op)) prog = true -> s_lost s' = s_lost s)
  | Err => run k prog s = Err
  | Fault f => run k prog s = Fault f
  end.
Proof.
  intros Hk. induction prog as [|op prog IH]; intros s HI; cbn [srun run].
  - exists s. auto.
  - pose proof (step_ok k op s Hk HI) as H. destruct (sexec k op (slots_seen (s_slots s))) as [sl| |f]; cbn [Base.bind]; [|rewrite H; reflexivity|rewrite H; reflexivity].
    destruct H as (s1 & -> & <- & H1 & H2). cbn [Base.bind]. specialize (IH s1 H1). destruct (srun k prog (slots_seen (s_slots s1))) as [sl| |f]; [|exact IH|exact IH].
    destruct IH as (s2 & E & F & H3 & H4). exists s2. repeat split; try assumption; try apply H3. cbn [forallb]. intros Hb. apply andb_prop in Hb. destruct Hb as [Hb1 Hb2]. rewrite H4 by exact Hb2. apply H2. now destruct (forgets op).
Qed.
Lemma init_inv : OInv init.
Proof. split; [|constructor]. intros i. cbn. destruct i; reflexivity. Qed.

(** C55. What a client sees of its values, arrays, objects and iterators is what it would see
    if they were plain immutable data and dropping did nothing: into_iter moves the elements,
    replaced and removed values come back intact, clones are equal and independent. Four
    native frames are enough for everything but clone. *)
Theorem C55_behaves_like_plain_data k prog : 4 <= k -> view (run k prog init) = srun k prog [].
Proof.
  intros Hk. pose proof (run_ok k prog Hk init init_inv) as H. cbn [init s_slots slots_seen map] in H. destruct (srun k prog []) as [sl| |f]; [|rewrite H; reflexivity|rewrite H; reflexivity].
  destruct H as (s & -> & <- & _). reflexivity.
Qed.

Lemma place_fault {A} (g : jval -> res (A * jval)) (Q : fault -> Prop) p : (forall v f, g v = Fault f -> Q f) -> forall v f, place g p v = Fault f -> Q f.
Proof.
  intros Hg. induction p as [|i p IH]; intros v f; cbn [place]; [apply Hg|]. destruct v as [| | | |l|m]; try discriminate.
  - destruct (nth_error l i); [|discriminate]. destruct (place g p j) eqn:E; cbn [Base.bind]; try discriminate. intros [= <-]. eauto.
  - destruct (nth_error m i) as [[n c]|]; [|discriminate]. destruct (place g p c) eqn:E; cbn [Base.bind]; try discriminate. intros [= <-]. eauto.
Qed.
Lemma sget_val_fault h sl f : sget_val h sl <> Fault f.
Proof. unfold sget_val, sget. destruct (nth_error sl h) as [[[]|]|]; cbn; discriminate. Qed.
Lemma sget_vals_fault hs : forall sl f, sget_vals hs sl <> Fault f.
Proof.
  induction hs as [|h hs IH]; intros sl f; cbn; [discriminate|]. pose proof (sget_val_fault h sl f). destruct (sget_val h sl) as [[v sl1]| |]; cbn [Base.bind fst snd]; try congruence.
  specialize (IH sl1 f). destruct (sget_vals hs sl1) as [[]| |]; cbn [Base.bind]; congruence.
Qed.
Lemma smodify_fault {A} h p (g : jval -> res (A * jval)) (Q : fault -> Prop) sl : (forall v f, g v = Fault f -> Q f) -> forall f, smodify h p g sl = Fault f -> Q f.
Proof.
  intros Hg f. unfold smodify. pose proof (sget_val_fault h sl f). destruct (sget_val h sl) as [[v sl1]| |]; cbn [Base.bind fst snd]; try congruence.
  destruct (place g p v) eqn:E; cbn [Base.bind]; try discriminate. intros [= <-]. eapply place_fault; eassumption.
Qed.
Lemma sexec_fault k op sl f : sexec k op sl = Fault f -> f = FDeep /\ clones op = true.
Proof.
  set (Q := fun f0 => f0 = FDeep /\ clones op = true).
  assert (HC : forall v f0, sclone k v = Fault f0 -> f0 = FDeep) by (intros v f0; unfold sclone; destruct (depth v <? k); congruence).
  assert (HC' : forall v f0, sclone (S k) v = Fault f0 -> f0 = FDeep) by (intros v f0; unfold sclone; destruct (depth v <? S k); congruence).
  assert (HM : forall A h p (g : jval -> res (A * jval)) sl0 (K : A * sslots -> sslots), (forall v f, g v = Fault f -> Q f) -> (let* q := smodify h p g sl0 in Ok (K q)) = Fault f -> Q f).
  { intros A h p g sl0 K Hg E. destruct (smodify h p g sl0) eqn:EM; cbn [Base.bind] in E; try discriminate. injection E as ->. eapply smodify_fault; eassumption. }
  assert (HG : forall h (K : jval * sslots -> res sslots), (forall r, K r = Fault f -> Q f) -> (let* q := sget_val h sl in K q) = Fault f -> Q f).
  { intros h K HK E. pose proof (sget_val_fault h sl f). destruct (sget_val h sl); cbn [Base.bind] in E; try congruence. eauto. }
  change (sexec k op sl = Fault f -> Q f). destruct op; cbn [sexec]; try discriminate.
  - apply HG. intros r. apply (HM _ _ _ _ _ snd). intros v f0. destruct v; discriminate.
  - apply (HM _ _ _ _ _ (fun q => snd q ++ [sval (fst q)])). intros v f0. destruct v; discriminate.
  - apply (HM _ _ _ _ _ snd). intros v f0. destruct v; discriminate.
  - apply HG. intros r. apply (HM _ _ _ _ _ (fun q => snd q ++ [sval (fst q)])). intros v f0. destruct v; discriminate.
  - apply (HM _ _ _ _ _ (fun q => snd q ++ [sval (fst q)])). intros v f0. destruct v; discriminate.
  - apply (HM _ _ _ _ _ snd). intros v f0. destruct v; discriminate.
  - apply HG. intros r. apply (HM _ _ _ _ _ (fun q => snd q ++ [Some (SVal (fst q))])). discriminate.
  - apply HG. intros r. apply (HM _ _ _ _ _ snd). discriminate.
  - apply HG. intros [x sl1]. cbn [fst snd]. destruct x; discriminate.
  - unfold sget. destruct (nth_error sl h) as [[[]|]|]; discriminate.
  - unfold sget. destruct (nth_error sl h) as [[[]|]|]; discriminate.
  - pose proof (sget_vals_fault hs sl f). destruct (sget_vals hs sl); cbn [Base.bind]; congruence.
  - pose proof (sget_vals_fault (map snd xs) sl f). destruct (sget_vals (map snd xs) sl); cbn [Base.bind]; congruence.
  - apply (HM _ _ _ _ _ (fun q => snd q ++ [Some (SVal (fst q))])). intros v f0. destruct (sclone k v) eqn:E; cbn [Base.bind]; try discriminate. intros [= <-]. split; [eauto|reflexivity].
  - apply HG. intros r. destruct (place _ p2 (fst r)) as [s| |f1] eqn:EP; cbn [Base.bind]; try discriminate.
    + apply (HM _ _ _ _ _ (fun q => upd h2 (Some (SVal (fst r))) (snd q))). intros v f0. destruct v, (fst s); try discriminate.
      * destruct (sclone (S k) _) eqn:E; cbn [Base.bind]; try discriminate. intros [= <-]. split; [eauto|reflexivity].
      * destruct (sclone k _) eqn:E; cbn [Base.bind]; try discriminate. intros [= <-]. split; [eauto|reflexivity].
    + intros _. exfalso. eapply (place_fault _ (fun _ => False)) in EP; [exact EP|discriminate].
  - unfold sget. destruct (nth_error sl h) as [[[]|]|]; discriminate.
  - unfold sget. destruct (nth_error sl h) as [[[]|]|]; discriminate.
Qed.
Lemma srun_fault k prog : forall sl f, srun k prog sl = Fault f -> f = FDeep /\ exists op, In op prog /\ clones op = true.
Proof.
  induction prog as [|op prog IH]; intros sl f; cbn [srun]; [discriminate|]. destruct (sexec k op sl) as [sl1| |f1] eqn:E; cbn [Base.bind]; try discriminate.
  - intros H. apply IH in H. destruct H as (-> & op' & H1 & H2). split; [reflexivity|]. exists op'. split; [right; exact H1|exact H2].
  - intros [= ->]. apply sexec_fault in E. destruct E as [-> E]. split; [reflexivity|]. exists op. split; [left; reflexivity|exact E].
Qed.

(** C55. No safe client makes the hand-written Drop impls and `take` release something twice,
    use it after its release or panic; only a clone can overflow the stack. *)
Theorem C55_no_undefined_behaviour k prog f : 4 <= k -> run k prog init = Fault f ->
  f = FDeep /\ exists op, In op prog /\ clones op = true.
Proof.
  intros Hk H. pose proof (C55_behaves_like_plain_data k prog Hk) as E. rewrite H in E. cbn [view] in E. symmetry in E. eapply srun_fault; eassumption.
Qed.

(** C55. At every point each resource ever made has been released exactly once, or is owned
    by exactly one live handle, or was lost by a mem::forget. *)
Theorem C55_released_exactly_once k prog s : 4 <= k -> run k prog init = Ok s ->
  forall i, (i < m_next (s_mem s) -> cnt (m_freed (s_mem s)) i + cnt (slabs (s_slots s)) i + cnt (s_lost s) i = 1) /\
            (m_next (s_mem s) <= i -> cnt (m_freed (s_mem s)) i + cnt (slabs (s_slots s)) i + cnt (s_lost s) i = 0).
Proof.
  intros Hk H i. pose proof (run_ok k prog Hk init init_inv) as R. destruct (srun _ _ _); [|rewrite H in R; discriminate|rewrite H in R; discriminate].
  destruct R as (s' & E & _ & [HA _] & _). rewrite H in E. injection E as <-. specialize (HA i). rewrite count_occ_app in HA. destruct (Nat.ltb_spec i (m_next (s_mem s))); split; intros; lia.
Qed.

(** C55. When the client has dropped everything it had and forgotten nothing, everything has
    been released. *)
Theorem C55_nothing_leaks k prog s : 4 <= k -> run k prog init = Ok s ->
  Forall (fun o => o = None) (s_slots s) -> (forall h, ~ In (PForget h) prog) ->
  Permutation (m_freed (s_mem s)) (seq 0 (m_next (s_mem s))).
Proof.
  intros Hk H HN HF. pose proof (run_ok k prog Hk init init_inv) as R. destruct (srun _ _ _); [|rewrite H in R; discriminate|rewrite H in R; discriminate].
  destruct R as (s' & E & _ & [HA _] & HL). rewrite H in E. injection E as <-. rewrite HL in HA.
  2:{ apply forallb_forall. intros op Ho. destruct op; try reflexivity. exfalso. eapply HF, Ho. }
  apply (Permutation_count_occ Nat.eq_dec). intros i. specialize (HA i). rewrite count_occ_app in HA.
  assert (Hs : slabs (s_slots s) = []). { clear - HN. induction HN as [|o l -> _ IH]; [reflexivity|exact IH]. }
  rewrite Hs in HA. cbn [init s_lost count_occ] in HA.
  assert (HC : cnt (seq 0 (m_next (s_mem s))) i = if i <? m_next (s_mem s) then 1 else 0); [|lia].
  destruct (Nat.ltb_spec i (m_next (s_mem s))).
  - apply NoDup_count_occ'; [apply seq_NoDup|apply in_seq; lia].
  - apply count_occ_not_In. rewrite in_seq. lia.
Qed.

(** Non-vacuity: a program that nests, replaces, iterates partially, collects, clones and
    drops; and one that builds and drops a value far deeper than the stack. *)
Definition own_prog : list pop :=
  [ PArr; PLeaf (VStr (bs "x")); PPush 0 [] 1; PObj; PLeaf VNull; PInsert 2 [] (bs "k") 3; PPush 0 [] 2;
    PLeaf (VBool true); PInsert 0 [1] (bs "k") 5; PClone 0 []; PIter 0; PNext 8; PArr; PCloneFrom 10 [] 7 []; PRemove 10 [1] (bs "k") ].
Example own_prog_runs : view (run 4 own_prog init) = Ok
  [None; None; None; None; None; None; Some (SVal JvNull); Some (SVal (JvArr [JvStr (bs "x"); JvObj [(bs "k", JvBool true)]]));
   Some (SVec [JvObj [(bs "k", JvBool true)]]); Some (SVal (JvStr (bs "x"))); Some (SVal (JvArr [JvStr (bs "x"); JvObj []])); Some (SVal (JvBool true))].
Proof. vm_compute. reflexivity. Qed.
Definition own_drops : list pop := [PDrop 8; PDrop 6; PDrop 7; PDrop 9; PDrop 10; PDrop 11].
Example own_prog_leaks_nothing : match run 4 (own_prog ++ own_drops) init with
  | Ok s => Forall (fun o => o = None) (s_slots s) /\ m_next (s_mem s) = 17 /\ length (m_freed (s_mem s)) = 17
  | _ => False end.
Proof. vm_compute. repeat constructor. Qed.
Fixpoint own_nest (n : nat) : list pop := match n with O => [PArr] | S n => own_nest n ++ [PArr; PPush (S n) [] n] end.
Example own_deep : match run 4 (own_nest 100 ++ [PDrop 100]) init with Ok s => length (m_freed (s_mem s)) = 100 /\ m_next (s_mem s) = 100 | _ => False end.
Proof. vm_compute. split; reflexivity. Qed.
Example own_clone_deep : run 60 (own_nest 100 ++ [PClone 100 []]) init = Fault FDeep.
Proof. vm_compute. reflexivity. Qed.
