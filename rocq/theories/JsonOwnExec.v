(** C55: every operation of the client refines its specification (continued). *)
From Coq Require Import String ZArith List Bool Arith Lia Permutation Sorting.Sorted.
From Verif Require Import Base Types MapFacts JsonOwn JsonOwnSpec JsonOwnFacts JsonOwnMain.
Import ListNotations.
Open Scope nat_scope.

(** ** Paths and slots *)
Definition vok {A B} (R : list nat) (la : A -> list nat) (er : A -> B) (f : lval -> M (A * lval)) (g : jval -> res (B * jval)) : Prop :=
  forall v, wf (seen v) ->
  Tr (labs v ++ R) (f v) (fun r => la (fst r) ++ labs (snd r)) (fun r => (er (fst r), seen (snd r))) (g (seen v)).

Lemma at_path_ok {A B} R la (er : A -> B) f g p : vok R la er f g -> vok R la er (at_path f p) (place g p).
Proof.
  intros Hf. induction p as [|i p IH]; intros v Hv; cbn [at_path place]; [now apply Hf|].
  destruct v as [j x|b l|b l]; [destruct x; apply Tr_stuck| |].
  - cbn [seen] in *. apply wf_arr_inv in Hv. eapply (touch_seq _ b (flat_map labs l ++ R)); [same|].
    rewrite nth_error_map. destruct (nth_error l i) as [c|] eqn:E; [|apply Tr_stuck]. cbn [option_map].
    eapply (Tr_bind _ _ (olab b ++ flat_map labs (firstn i l) ++ flat_map labs (skipn (S i) l))).
    + apply IH. eapply Forall_nth; [exact Hv|]. rewrite nth_error_map, E. reflexivity.
    + intros j. rewrite !count_occ_app, (cnt_nth labs i l c j E). lia.
    + intros [a c'] _. cbn [fst snd]. apply Tr_ret'; [|intros j; cbn [fst snd labs]; rewrite flat_map_app; cbn [flat_map]; rewrite !count_occ_app; lia].
      cbn [fst snd seen]. f_equal. f_equal. apply (map_upd seen i c' l).
  - rewrite seen_obj in *. apply wf_obj_inv in Hv. destruct Hv as [_ Hv]. eapply (touch_seq _ b (flat_map elabs l ++ R)); [same|].
    assert (EN : nth_error (map eseen l) i = option_map eseen (nth_error l i)) by apply nth_error_map. rewrite EN. clear EN.
    destruct (nth_error l i) as [[[ki n] c]|] eqn:E; [|apply Tr_stuck]. cbn [option_map eseen fst snd].
    eapply (Tr_bind _ _ (olab b ++ ki :: flat_map elabs (firstn i l) ++ flat_map elabs (skipn (S i) l))).
    + apply IH. apply (Forall_nth _ _ i (n, seen c) Hv). exact (map_nth_error eseen _ _ E).
    + intros j. rewrite !count_occ_app, (cnt_nth elabs i l _ j E). cbn [elabs fst snd count_occ]. rewrite !count_occ_app. destruct (Nat.eq_dec ki j); lia.
    + intros [a c'] _. cbn [fst snd]. apply Tr_ret'.
      2:{ intros j; cbn [fst snd]; rewrite labs_obj, flat_map_app; cbn [flat_map elabs fst snd]; repeat (rewrite count_occ_app || (progress cbn [count_occ app elabs fst snd])); destruct (Nat.eq_dec ki j). all: lia. }
      cbn [fst snd]. rewrite seen_obj. f_equal. f_equal. apply (map_upd eseen i (ki, n, c') l).
Qed.

Lemma slots_upd h o sl : slots_seen (set_slot h o sl) = upd h (option_map hseen o) (slots_seen sl).
Proof. apply (map_upd (option_map hseen) h o sl). Qed.
Lemma slots_app sl o : slots_seen (sl ++ [o]) = slots_seen sl ++ [option_map hseen o].
Proof. apply map_app. Qed.
Definition ohlabs (o : option handle) : list nat := match o with Some x => hlabs x | None => [] end.
Lemma slabs_upd h o o' sl i : nth_error sl h = Some o' -> cnt (slabs (set_slot h o sl)) i + cnt (ohlabs o') i = cnt (slabs sl) i + cnt (ohlabs o) i.
Proof.
  intros H. unfold slabs, set_slot. fold ohlabs. rewrite (cnt_nth ohlabs h sl o' i H), flat_map_app. cbn [flat_map]. rewrite !count_occ_app. lia.
Qed.
Lemma slabs_app sl o i : cnt (slabs (sl ++ [o])) i = cnt (slabs sl) i + cnt (ohlabs o) i.
Proof. unfold slabs. fold ohlabs. rewrite flat_map_app. cbn [flat_map]. rewrite app_nil_r, count_occ_app. reflexivity. Qed.
Lemma seen_none sl h : nth_error (slots_seen sl) h = Some None -> nth_error sl h = Some None.
Proof. unfold slots_seen. rewrite nth_error_map. destruct (nth_error sl h) as [[x|]|]; cbn; congruence. Qed.

Lemma get_ok h sl : Tr (slabs sl) (get h sl) (fun r => hlabs (fst r) ++ slabs (snd r)) (fun r => (hseen (fst r), slots_seen (snd r))) (sget h (slots_seen sl)).
Proof.
  unfold get, sget. rewrite (nth_error_map (option_map hseen) h sl : nth_error (slots_seen sl) h = _). destruct (nth_error sl h) as [[x|]|] eqn:E; cbn [option_map]; try apply Tr_stuck.
  apply Tr_ret'; [cbn [fst snd]; now rewrite slots_upd|]. intros i. cbn [fst snd]. pose proof (slabs_upd h None _ sl i E) as H. cbn [ohlabs count_occ] in H. rewrite count_occ_app. lia.
Qed.
Lemma get_val_ok h sl : Tr (slabs sl) (get_val h sl) (fun r => labs (fst r) ++ slabs (snd r)) (fun r => (seen (fst r), slots_seen (snd r))) (sget_val h (slots_seen sl)).
Proof.
  unfold get_val, sget_val. eapply (Tr_bind _ _ []); [apply get_ok|now rewrite app_nil_r|]. intros [x sl'] E. cbn [fst snd]. rewrite app_nil_r.
  destruct x as [v|[b l]|[b l]]; cbn [hseen]; try apply Tr_stuck. apply Tr_ret'; [reflexivity|]. intros i. reflexivity.
Qed.
Lemma get_vals_ok hs : forall sl, Tr (slabs sl) (get_vals hs sl) (fun r => flat_map labs (fst r) ++ slabs (snd r)) (fun r => (map seen (fst r), slots_seen (snd r))) (sget_vals hs (slots_seen sl)).
Proof.
  induction hs as [|h hs IH]; intros sl; cbn [get_vals sget_vals]; [apply Tr_ret'; [reflexivity|]; intros i; reflexivity|].
  eapply (Tr_bind _ _ []); [apply get_val_ok|now rewrite app_nil_r|]. intros [v sl1] E. cbn [fst snd]. rewrite app_nil_r.
  eapply (Tr_bind _ _ (labs v)); [apply IH|same|]. intros [vs sl2] E2. cbn [fst snd]. apply Tr_ret'; [reflexivity|]. same.
Qed.
Lemma modify_ok {A B} h p R la (er : A -> B) f g sl : vok R la er f g -> swf (slots_seen sl) ->
  Tr (slabs sl ++ R) (modify h p f sl) (fun r => la (fst r) ++ slabs (snd r)) (fun r => (er (fst r), slots_seen (snd r))) (smodify h p g (slots_seen sl)).
Proof.
  intros Hf HW. unfold modify, smodify. eapply (Tr_bind _ _ R); [apply get_val_ok|intros i; reflexivity|]. intros [v sl1] E. cbn [fst snd] in *.
  apply sget_val_wf in E; [|exact HW]. destruct E as (Hv & _ & HN). apply seen_none in HN.
  eapply (Tr_bind _ _ (slabs sl1)); [apply (at_path_ok R la er f g p Hf v Hv)|same|]. intros [a v'] _. cbn [fst snd].
  apply Tr_ret'; [cbn [fst snd]; now rewrite slots_upd|]. intros i. cbn [fst snd]. pose proof (slabs_upd h (Some (HVal v')) _ sl1 i HN) as H. cbn [ohlabs hlabs count_occ] in H. rewrite !count_occ_app. lia.
Qed.

(** Reading at a path. *)
Lemma place_read {A} (G : jval -> res A) p : forall x,
  place (fun v => let* q := G v in Ok (q, v)) p x = let* s := place (fun v => Ok (v, v)) p x in let* q := G (fst s) in Ok (q, x).
Proof.
  induction p as [|i p IH]; intros x; cbn [place]; [reflexivity|]. destruct x as [| | | |l|m]; try reflexivity.
  - destruct (nth_error l i) as [c|] eqn:E; [|reflexivity]. rewrite IH. destruct (place _ p c) as [[s c']| |]; cbn [Base.bind fst snd]; try reflexivity.
    destruct (G s); cbn [Base.bind fst snd]; try reflexivity. rewrite upd_same by exact E. reflexivity.
  - destruct (nth_error m i) as [[n c]|] eqn:E; [|reflexivity]. rewrite IH. destruct (place _ p c) as [[s c']| |]; cbn [Base.bind fst snd]; try reflexivity.
    destruct (G s); cbn [Base.bind fst snd]; try reflexivity. rewrite upd_same by exact E. reflexivity.
Qed.
Lemma sget_other h h2 sl x sl' : sget h sl = Ok (x, sl') -> nth_error sl h2 = Some None -> nth_error sl' h2 = Some None /\ h <> h2 /\ h < length sl.
Proof.
  unfold sget. destruct (nth_error sl h) as [[y|]|] eqn:E; try discriminate. intros [= <- <-] H2.
  assert (h <> h2) by congruence. assert (h < length sl) by (apply nth_error_Some; congruence). split; [|auto].
  clear - H2 H H0. unfold upd. revert h h2 H H0 H2. induction sl as [|o sl IH]; intros [|h] [|h2] H H0 H2; cbn in *; try lia; try assumption; try discriminate.
  apply IH; auto; lia.
Qed.
Lemma upd_other {A} h h2 (o : A) sl : h <> h2 -> h < length sl -> nth_error (upd h o sl) h2 = nth_error sl h2.
Proof.
  unfold upd. revert h h2. induction sl as [|y sl IH]; intros [|h] [|h2] H H0; cbn in *; try lia; try reflexivity. apply IH; lia.
Qed.
Lemma upd_length {A} h (o : A) sl : h < length sl -> length (upd h o sl) = length sl.
Proof. intros H. unfold upd. rewrite app_length. cbn [length]. rewrite firstn_length, skipn_length. lia. Qed.
Lemma smodify_other {A} h p (g : jval -> res (A * jval)) sl a sl' h2 :
  smodify h p g sl = Ok (a, sl') -> nth_error sl h2 = Some None -> nth_error sl' h2 = Some None.
Proof.
  unfold smodify, sget_val. destruct (sget h sl) as [[y sl1]| |] eqn:E; cbn [Base.bind fst snd]; try discriminate. intros H HN.
  destruct (sget_other _ h2 _ _ _ E HN) as (H1 & H2 & H3). destruct y; cbn [Base.bind fst snd] in H; try discriminate.
  destruct (place g p v) as [[a1 v1]| |]; cbn [Base.bind fst snd] in H; try discriminate. injection H as <- <-.
  rewrite upd_other; [exact H1|exact H2|]. unfold sget in E. destruct (nth_error sl h) as [[z|]|]; try discriminate. injection E as _ <-. rewrite upd_length; exact H3.
Qed.

(** ** The operations *)
Definition lost_by (op : pop) (sl : list (option handle)) : list nat :=
  match op with
  | PForget h => match nth_error sl h with Some (Some x) => hlabs x | _ => [] end
  | _ => []
  end.

Lemma leaf_not_arr x l : jleaf x <> JvArr l. Proof. destruct x; discriminate. Qed.
Ltac fin := apply Tr_ret'; [cbn [fst snd]; rewrite ?slots_app; reflexivity|intros ?i; cbn [fst snd lost_by]; rewrite ?app_nil_r, ?slabs_app; cbn [ohlabs hlabs oval labs]; rewrite ?count_occ_app; cbn [count_occ app flat_map olab]; repeat match goal with |- context[Nat.eq_dec ?a ?b] => destruct (Nat.eq_dec a b) end; try lia].
Ltac mods la er f g R := eapply (Tr_bind _ _ []); [apply (modify_ok _ _ R la er f g)|..].

Lemma eapp0 (L : list nat) : same (L ++ []) L. Proof. intros i. now rewrite app_nil_r. Qed.
Lemma cnt_app0 (L R : list nat) : same L (L ++ []). Proof. intros i. now rewrite app_nil_r. Qed.
Lemma oseen o : option_map hseen (oval o) = sval (option_map seen o). Proof. destruct o; reflexivity. Qed.
Lemma olabs o : ohlabs (oval o) = oolabs o. Proof. destruct o; reflexivity. Qed.

(** A modification without and with a result. *)
Lemma mod_unit h p R f g sl L : vok R none (fun u : unit => u) f g -> swf (slots_seen sl) -> same L (slabs sl ++ R) ->
  Tr L (do (_, sl2) <- modify h p f sl; ret sl2) slabs slots_seen (let* q := smodify h p g (slots_seen sl) in Ok (snd q)).
Proof.
  intros Hf HW HS. eapply (Tr_bind _ _ []); [apply (modify_ok h p R none (fun u => u) f g sl Hf HW)|intros i; rewrite app_nil_r; apply HS|].
  intros [u sl2] _. cbn [fst snd none app]. apply Tr_ret'; [reflexivity|]. intros i. now rewrite app_nil_r.
Qed.
Lemma mod_opt h p R f g sl L : vok R oolabs (option_map seen) f g -> swf (slots_seen sl) -> same L (slabs sl ++ R) ->
  Tr L (do (o, sl2) <- modify h p f sl; ret (sl2 ++ [oval o])) slabs slots_seen
    (let* q := smodify h p g (slots_seen sl) in Ok (snd q ++ [sval (fst q)])).
Proof.
  intros Hf HW HS. eapply (Tr_bind _ _ []); [apply (modify_ok h p R oolabs (option_map seen) f g sl Hf HW)|intros i; rewrite app_nil_r; apply HS|].
  intros [o sl2] _. cbn [fst snd]. apply Tr_ret'; [now rewrite slots_app, oseen|]. intros i. rewrite app_nil_r, slabs_app, olabs, count_occ_app. lia.
Qed.
Lemma mod_val h p R f g sl L : vok R labs seen f g -> swf (slots_seen sl) -> same L (slabs sl ++ R) ->
  Tr L (do (o, sl2) <- modify h p f sl; ret (sl2 ++ [Some (HVal o)])) slabs slots_seen
    (let* q := smodify h p g (slots_seen sl) in Ok (snd q ++ [Some (SVal (fst q))])).
Proof.
  intros Hf HW HS. eapply (Tr_bind _ _ []); [apply (modify_ok h p R labs seen f g sl Hf HW)|intros i; rewrite app_nil_r; apply HS|].
  intros [o sl2] _. cbn [fst snd]. apply Tr_ret'; [now rewrite slots_app|]. intros i. rewrite app_nil_r, slabs_app, count_occ_app. cbn [ohlabs hlabs]. lia.
Qed.
(** ... with an argument moved in. *)
Lemma with_val {D} h2 sl (F : lval * list (option handle) -> M (list (option handle))) lc (er : list (option handle) -> D) (G : jval * sslots -> res D) :
  swf (slots_seen sl) ->
  (forall x sl1, wf (seen x) -> swf (slots_seen sl1) -> nth_error sl1 h2 = Some None -> Tr (slabs sl1 ++ labs x) (F (x, sl1)) lc er (G (seen x, slots_seen sl1))) ->
  Tr (slabs sl) (bind (get_val h2 sl) F) lc er (let* r := sget_val h2 (slots_seen sl) in G r).
Proof.
  intros HW H. eapply (Tr_bind _ _ []); [apply get_val_ok|apply cnt_app0; exact []|]. intros [x sl1] E. cbn [fst snd] in *.
  apply sget_val_wf in E; [|exact HW]. destruct E as (H1 & H2 & H3). eapply Tr_same; [apply H; auto; apply seen_none; exact H3|]. same.
Qed.

Lemma rev_last {A} (l : list A) c r : rev l = c :: r -> l = rev r ++ [c].
Proof. intros H. rewrite <- (rev_involutive l), H. reflexivity. Qed.
Lemma removelast_snoc {A} (l : list A) c : removelast (l ++ [c]) = l.
Proof. rewrite removelast_app by discriminate. apply app_nil_r. Qed.
Lemma flat_snoc {A} (f : A -> list nat) l c i : cnt (flat_map f (l ++ [c])) i = cnt (flat_map f l) i + cnt (f c) i.
Proof. rewrite flat_map_app, count_occ_app. cbn [flat_map]. now rewrite app_nil_r. Qed.
Lemma combine_labs ks vs i : length vs = length ks -> cnt (flat_map xlabs (combine ks vs)) i = cnt (flat_map labs vs) i.
Proof. revert vs. induction ks as [|k ks IH]; intros [|v vs] H; try discriminate; [reflexivity|]. injection H as H. cbn [combine flat_map]. rewrite !count_occ_app, IH by exact H. reflexivity. Qed.
Lemma combine_seen ks vs : map xseen (combine ks vs) = combine ks (map seen vs).
Proof. revert vs. induction ks as [|k ks IH]; intros [|v vs]; try reflexivity. cbn [combine map]. now rewrite IH. Qed.

Lemma exec_ok k op sl : 4 <= k -> swf (slots_seen sl) ->
  Tr (slabs sl) (exec k op sl) (fun sl' => slabs sl' ++ lost_by op sl) slots_seen (sexec k op (slots_seen sl)).
Proof.
  intros Hk HW.
  assert (Hl : match op with PForget _ => True | _ =>
     Tr (slabs sl) (exec k op sl) slabs slots_seen (sexec k op (slots_seen sl)) -> Tr (slabs sl) (exec k op sl) (fun sl' => slabs sl' ++ lost_by op sl) slots_seen (sexec k op (slots_seen sl)) end).
  { destruct op; try exact I; cbn [lost_by]; intros H; (intros F w HA; specialize (H F w HA); destruct (sexec _ _ _); [|exact H|exact H];
    destruct H as (z & w' & H1 & H2 & H3); exists z, w'; rewrite app_nil_r; auto). }
  destruct op; try apply Hl; clear Hl; cbn [exec sexec].
  - (* leaf *) eapply (Tr_seq _ [] (slabs sl)); [apply alloc_ok|same|]. intros i _. fin.
  - fin.
  - fin.
  - (* push *) apply with_val; [exact HW|]. intros x sl1 Hx HW1 _. cbn [fst snd].
    eapply mod_unit; [|exact HW1|intros i; reflexivity]. intros v Hv. destruct v as [j y|b l|b l]; [destruct y; apply Tr_stuck| |apply Tr_stuck].
    cbn [seen]. eapply (Tr_seq _ _ []); [apply (vec_push_ok x b l)|same'|]. intros [b' l'] E. cbn [fst snd] in *. apply Tr_ret'; [cbn [fst snd seen]; now rewrite E|]. same'.
  - (* remove at *) eapply mod_opt; [|exact HW|apply cnt_app0; exact []]. intros v Hv. destruct v as [j y|b l|b l]; [destruct y; apply Tr_stuck| |apply Tr_stuck].
    cbn [seen]. eapply (Tr_seq _ _ []); [apply (vec_remove_ok i b l)|same'|]. intros [o [b' l']] E. cbn [fst snd] in *. injection E as E1 E2. apply Tr_ret'; [cbn [fst snd seen]; now rewrite E1, E2|]. same'.
  - (* truncate *) eapply mod_unit; [|exact HW|apply cnt_app0; exact []]. intros v Hv. destruct v as [j y|b l|b l]; [destruct y; apply Tr_stuck| |apply Tr_stuck].
    cbn [seen]. eapply (Tr_seq _ _ []); [apply (vec_truncate_ok k n b l Hk)|same'|]. intros [b' l'] E. cbn [fst snd] in *. injection E as -> ->. apply Tr_ret'; [cbn [fst snd seen]; now rewrite firstn_map|]. same'.
  - (* insert *) apply with_val; [exact HW|]. intros x sl1 Hx HW1 _. cbn [fst snd].
    eapply mod_opt; [|exact HW1|intros i; reflexivity]. intros v Hv. destruct v as [j y|b l|b l]; [destruct y; apply Tr_stuck|apply Tr_stuck|].
    rewrite seen_obj in *. apply wf_obj_inv in Hv. destruct Hv as [HS _]. rewrite labs_obj.
    eapply (Tr_seq _ _ []); [apply (map_insert_ok k0 x b l HS)|same'|]. intros [o [b' l']] E. cbn [fst snd] in *. injection E as E1 E2. apply Tr_ret'; [cbn [fst snd]; rewrite seen_obj; now rewrite E1, E2|]. same'.
  - (* remove *) eapply mod_opt; [|exact HW|apply cnt_app0; exact []]. intros v Hv. destruct v as [j y|b l|b l]; [destruct y; apply Tr_stuck|apply Tr_stuck|].
    rewrite seen_obj in *. apply wf_obj_inv in Hv. destruct Hv as [HS _]. rewrite labs_obj.
    eapply (Tr_seq _ _ []); [apply (map_remove_ok k0 b l HS)|same'|]. intros [o [b' l']] E. cbn [fst snd] in *. injection E as E1 E2. apply Tr_ret'; [cbn [fst snd]; rewrite seen_obj; now rewrite E1, E2|]. same'.
  - (* clear *) eapply mod_unit; [|exact HW|apply cnt_app0; exact []]. intros v Hv. destruct v as [j y|b l|b l]; [destruct y; apply Tr_stuck| |].
    + cbn [seen]. eapply (Tr_seq _ _ []); [apply (vec_truncate_ok k 0 b l Hk)|same'|]. intros [b' l'] E. cbn [fst snd] in *. injection E as -> ->. apply Tr_ret'; [reflexivity|]. same'.
    + rewrite seen_obj, labs_obj. eapply (touch_seq _ b (flat_map elabs l)); [same|]. eapply (U_seq _ _ []); [apply (map_drop_ok (glue k) b l); intros e _; apply glue_ok, Hk|same|].
      apply Tr_ret'; [reflexivity|]. same.
  - (* replace *) apply with_val; [exact HW|]. intros x sl1 Hx HW1 _. cbn [fst snd].
    eapply mod_val; [|exact HW1|intros i; reflexivity]. intros v Hv. apply Tr_ret'; [reflexivity|]. same.
  - (* assign *) apply with_val; [exact HW|]. intros x sl1 Hx HW1 _. cbn [fst snd].
    eapply mod_unit; [|exact HW1|intros i; reflexivity]. intros v Hv. eapply U_seq; [apply (glue_ok k v Hk)|intros i; reflexivity|]. apply Tr_ret'; [reflexivity|]. same.
  - (* iter *) apply with_val; [exact HW|]. intros x sl1 Hx HW1 _. cbn [fst snd]. destruct x as [j y|b l|b l]; [destruct y; apply Tr_stuck| |].
    + unfold take_array, manually_drop, ret, bind. cbn [seen]. fin.
    + unfold take_object, manually_drop, ret, bind. rewrite seen_obj. fin.
  - (* next *) eapply (Tr_bind _ _ []); [apply get_ok|apply cnt_app0; exact []|]. intros [x sl1] E. cbn [fst snd] in *.
    apply sget_wf in E; [|exact HW]. destruct E as (_ & _ & HN). apply seen_none in HN. destruct x as [v|[b l]|[b l]]; cbn [hseen]; [apply Tr_stuck| |].
    + eapply (touch_seq _ b (flat_map labs l ++ slabs sl1)); [cbn [hlabs]; same|]. destruct l as [|c l]; cbn [map tl hd_error sval option_map];
      (apply Tr_ret'; [rewrite slots_app, slots_upd; reflexivity|intros i; rewrite slabs_app]);
      [pose proof (slabs_upd h (Some (HVec (b, []))) _ sl1 i HN) as H|pose proof (slabs_upd h (Some (HVec (b, l))) _ sl1 i HN) as H];
      cbn [ohlabs hlabs labs flat_map count_occ] in *; rewrite ?count_occ_app in *; cbn [count_occ] in *; lia.
    + eapply (touch_seq _ b (flat_map elabs l ++ slabs sl1)); [cbn [hlabs]; same|]. destruct l as [|[[ki n] c] l]; cbn [map tl hd_error sval option_map].
      * apply Tr_ret'; [rewrite slots_app, slots_upd; reflexivity|intros i; rewrite slabs_app]. pose proof (slabs_upd h (Some (HMap (b, []))) _ sl1 i HN) as H.
        cbn [ohlabs hlabs labs flat_map count_occ] in *; rewrite ?count_occ_app in *; cbn [count_occ] in *; lia.
      * eapply (U_seq _ [ki] (olab b ++ labs c ++ flat_map elabs l ++ slabs sl1)); [apply (release_ok (Some ki))|same|].
        apply Tr_ret'; [rewrite slots_app, slots_upd; reflexivity|intros i; rewrite slabs_app]. pose proof (slabs_upd h (Some (HMap (b, l))) _ sl1 i HN) as H.
        cbn [ohlabs hlabs] in *. rewrite labs_obj in H. cbn [count_occ] in *. rewrite ?count_occ_app in *. cbn [count_occ] in *. lia.
  - (* next_back *) eapply (Tr_bind _ _ []); [apply get_ok|apply cnt_app0; exact []|]. intros [x sl1] E. cbn [fst snd] in *.
    apply sget_wf in E; [|exact HW]. destruct E as (_ & _ & HN). apply seen_none in HN. destruct x as [v|[b l]|[b l]]; cbn [hseen]; [apply Tr_stuck| |].
    + eapply (touch_seq _ b (flat_map labs l ++ slabs sl1)); [cbn [hlabs]; same|]. destruct (rev l) as [|c r] eqn:ER.
      * assert (l = []) as -> by (rewrite <- (rev_involutive l), ER; reflexivity). apply Tr_ret'; [rewrite slots_app, slots_upd; reflexivity|intros i; rewrite slabs_app].
        pose proof (slabs_upd h (Some (HVec (b, []))) _ sl1 i HN) as H. cbn [ohlabs hlabs labs flat_map count_occ] in *; rewrite ?count_occ_app in *; cbn [count_occ] in *; lia.
      * apply rev_last in ER. subst l. rewrite map_app. cbn [map]. rewrite removelast_snoc, rev_app_distr. cbn [rev app hd_error sval option_map].
        apply Tr_ret'; [rewrite slots_app, slots_upd; reflexivity|intros i; rewrite slabs_app].
        pose proof (slabs_upd h (Some (HVec (b, rev r))) _ sl1 i HN) as H. cbn [ohlabs hlabs labs count_occ] in *; rewrite ?count_occ_app, ?flat_snoc in *; cbn [count_occ] in *; lia.
    + fold eseen. eapply (touch_seq _ b (flat_map elabs l ++ slabs sl1)); [cbn [hlabs]; same|]. destruct (rev l) as [|[[ki n] c] r] eqn:ER.
      * assert (l = []) as -> by (rewrite <- (rev_involutive l), ER; reflexivity). apply Tr_ret'; [rewrite slots_app, slots_upd; reflexivity|intros i; rewrite slabs_app].
        pose proof (slabs_upd h (Some (HMap (b, []))) _ sl1 i HN) as H. cbn [ohlabs hlabs labs flat_map count_occ] in *; rewrite ?count_occ_app in *; cbn [count_occ] in *; lia.
      * apply rev_last in ER. subst l. rewrite map_app. cbn [map]. rewrite removelast_snoc, rev_app_distr. cbn [rev app hd_error sval option_map].
        eapply (U_seq _ [ki] (olab b ++ labs c ++ flat_map elabs (rev r) ++ slabs sl1)); [apply (release_ok (Some ki))|intros i; rewrite !count_occ_app, flat_snoc; cbn [elabs fst snd count_occ]; rewrite ?count_occ_app; destruct (Nat.eq_dec ki i); lia|].
        apply Tr_ret'; [rewrite slots_app, slots_upd; reflexivity|intros i; rewrite slabs_app].
        pose proof (slabs_upd h (Some (HMap (b, rev r))) _ sl1 i HN) as H. cbn [ohlabs hlabs] in *. rewrite labs_obj in H. cbn [count_occ] in *; rewrite ?count_occ_app in *; cbn [count_occ] in *; lia.
  - (* Array::from_iter *) eapply (Tr_bind _ _ []); [apply get_vals_ok|apply cnt_app0; exact []|]. intros [vs sl1] E. cbn [fst snd].
    eapply (Tr_seq _ _ (slabs sl1)); [apply (vec_extend_ok vs None [])|same'|]. intros [b l] E1. cbn [fst snd app] in *. apply Tr_ret'; [rewrite slots_app; cbn [option_map hseen seen]; now rewrite E1|].
    intros i. rewrite slabs_app. unfold vlabs. cbn [ohlabs hlabs labs fst snd]. rewrite !count_occ_app. lia.
  - (* Object::from_iter *) eapply (Tr_bind _ _ []); [apply get_vals_ok|apply cnt_app0; exact []|]. intros [vs sl1] E. cbn [fst snd] in *.
    apply sget_vals_wf in E; [|exact HW]. destruct E as (_ & _ & HLen). rewrite !map_length in HLen.
    eapply (Tr_seq _ _ (slabs sl1)); [apply (map_from_iter_ok k (combine (map fst xs) vs) Hk)| |].
    + intros i. rewrite !count_occ_app, combine_labs by now rewrite map_length. cbn [count_occ]. lia.
    + intros [b l] E1. cbn [fst snd] in *. rewrite combine_seen in E1. apply Tr_ret'; [rewrite slots_app; cbn [option_map hseen]; rewrite seen_obj, E1; reflexivity|].
      intros i. rewrite slabs_app. unfold mlabs. cbn [ohlabs hlabs fst snd]. rewrite labs_obj, !count_occ_app. lia.
  - (* clone *) eapply mod_val; [|exact HW|apply cnt_app0; exact []]. intros v Hv. eapply (Tr_bind _ _ []); [apply lclone_ok|same|]. intros c Ec. apply Tr_ret'; [cbn [fst snd]; reflexivity|]. same.
  - (* clone_from *) apply with_val; [exact HW|]. intros x sl1 Hx HW1 HN. cbn [fst snd].
    set (G := fun src v : jval => match v, src with
        | JvArr _, JvArr _ => let* c := sclone (S k) src in Ok (tt, c)
        | JvObj _, JvObj _ => let* c := sclone k src in Ok (tt, c)
        | _, _ => Err
        end).
    replace (let* src := place (fun v => Ok (v, v)) p2 (seen x) in
             let* q := smodify h p (fun v => match v, fst src with
                | JvArr _, JvArr _ => let* c := sclone (S k) (fst src) in Ok (tt, c)
                | JvObj _, JvObj _ => let* c := sclone k (fst src) in Ok (tt, c)
                | _, _ => Err end) (slots_seen sl1) in Ok (upd h2 (Some (SVal (seen x))) (snd q)))
      with (let* r := place (fun src => let* q := smodify h p (G src) (slots_seen sl1) in Ok (q, src)) p2 (seen x) in
            Ok (upd h2 (Some (SVal (snd r))) (snd (fst r)))).
    2:{ rewrite (place_read (fun src => smodify h p (G src) (slots_seen sl1))). destruct (place _ p2 (seen x)) as [[s s']| |]; cbn [Base.bind fst snd]; try reflexivity.
        fold (G s). destruct (smodify h p (G s) (slots_seen sl1)) as [[u sl2]| |]; reflexivity. }
    eapply (Tr_bind _ _ []).
    { apply (at_path_ok (slabs sl1) (fun r : unit * list (option handle) => slabs (snd r)) (fun r => (fst r, slots_seen (snd r)))); [|exact Hx]. intros src Hsrc.
      eapply (Tr_bind _ _ []); [apply (modify_ok h p (labs src) (fun _ : unit => labs src) (fun u => u)); [|exact HW1]|same|].
      2:{ intros [u sl2] Eq. cbn [fst snd]. apply Tr_ret'; [reflexivity|]. same. }
      intros v Hv. destruct v as [jv yv|b l|b l]; [destruct yv; apply Tr_stuck| |]; (destruct src as [js ys|bs ls|bs ls]; [destruct ys; apply Tr_stuck| |]); try apply Tr_stuck.
      - cbn [seen G]. unfold sclone. rewrite depth_arr. 
        replace (let* c := if all_shallow k (map seen ls) then Ok (JvArr (map seen ls)) else Fault FDeep in Ok (tt, c)) with (let* c := sclones k (fun j => j) (map seen ls) in Ok (tt, JvArr c)).
        2:{ unfold sclones. rewrite map_id. destruct (all_shallow _ _); reflexivity. }
        eapply (touch_seq _ bs (flat_map labs ls ++ labs (LArr b l))); [same|].
        eapply (Tr_bind _ _ (olab bs)); [apply (array_clone_from_ok k b l ls Hk)|same'|]. intros [b' l'] Ec. cbn [fst snd]. apply Tr_ret'; [reflexivity|]. same'.
      - change (G (seen (LObj bs ls)) (seen (LObj b l))) with (let* c := sclone k (seen (LObj bs ls)) in Ok (tt, c)).
        eapply (Tr_bind _ _ (labs (LObj b l))); [apply lclone_ok|intros i; rewrite !count_occ_app; lia|]. intros c Ec.
        eapply (U_seq _ _ (labs c ++ labs (LObj bs ls))); [apply glue_ok, Hk|intros i; rewrite !count_occ_app; lia|]. apply Tr_ret'; [reflexivity|]. intros i. cbn [fst snd]. rewrite !count_occ_app. lia. }
    { intros i. rewrite !count_occ_app. cbn [count_occ]. lia. }
    intros [[u sl2] x'] Er. cbn [fst snd] in *. apply Tr_ret'; [now rewrite slots_upd|].
    assert (HN2 : nth_error sl2 h2 = Some None).
    { apply seen_none. rewrite (place_read (fun src => smodify h p (G src) (slots_seen sl1))) in Er. destruct (place _ p2 (seen x)) as [[s s']| |]; cbn [Base.bind fst snd] in Er; try discriminate.
      destruct (smodify h p (G s) (slots_seen sl1)) as [[u' sl2']| |] eqn:EM; cbn [Base.bind] in Er; try discriminate. injection Er as _ <- _.
      eapply smodify_other; [exact EM|]. unfold slots_seen. rewrite nth_error_map, HN. reflexivity. }
    intros i. pose proof (slabs_upd h2 (Some (HVal x')) _ sl2 i HN2) as H. cbn [ohlabs hlabs count_occ] in H. rewrite !count_occ_app. cbn [count_occ]. lia.
  - (* drop *) eapply (Tr_bind _ _ []); [apply get_ok|apply cnt_app0; exact []|]. intros [x sl1] E. cbn [fst snd].
    eapply (U_seq _ (hlabs x) (slabs sl1)); [|same|apply Tr_ret'; [reflexivity|intros i; reflexivity]].
    destruct x as [v|[b l]|[b l]]; cbn [drop_handle hlabs]; [apply glue_ok, Hk|apply vec_drop_ok; intros y _; apply glue_ok, Hk|]. rewrite labs_obj. apply map_drop_ok; intros y _; apply glue_ok, Hk.
  - (* forget *) cbn [lost_by]. unfold get, sget. rewrite (nth_error_map (option_map hseen) h sl : nth_error (slots_seen sl) h = _).
    destruct (nth_error sl h) as [[x|]|] eqn:E; cbn [option_map]; try (intros F w _; reflexivity).
    cbn [Base.bind fst snd]. eapply (Tr_seq _ _ [] _ (fun r => hlabs (fst r) ++ slabs (snd r)) _ (fun r => r)); [apply Tr_ret'; [reflexivity|]|apply cnt_app0; exact []|].
    + intros i. cbn [fst snd]. pose proof (slabs_upd h None _ sl i E) as H. cbn [ohlabs count_occ] in H. rewrite count_occ_app. lia.
    + intros a ->. cbn [fst snd]. apply Tr_ret'; [now rewrite slots_upd|]. same.
Qed.
