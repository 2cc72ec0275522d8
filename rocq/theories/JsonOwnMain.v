(** C55: every operation of the client refines its specification. *)
From Coq Require Import String ZArith List Bool Arith Lia Permutation Sorting.Sorted.
From Verif Require Import Base Types MapFacts JsonOwn JsonOwnSpec JsonOwnFacts.
Import ListNotations.
Open Scope nat_scope.

Lemma lval_ind' (P : lval -> Prop) :
  (forall i x, P (LLeaf i x)) -> (forall b l, Forall P l -> P (LArr b l)) ->
  (forall b l, Forall (fun e => P (snd e)) l -> P (LObj b l)) -> forall v, P v.
Proof.
  intros H1 H2 H3. fix IH 1. intros [i x|b l|b l]; [apply H1|apply H2|apply H3].
  - induction l; constructor; auto.
  - induction l as [|e l IHl]; constructor; [apply IH|exact IHl].
Qed.

Definition eseen (e : entry) : bytes * jval := (snd (fst e), seen (snd e)).
Lemma seen_obj b l : seen (LObj b l) = JvObj (map eseen l). Proof. reflexivity. Qed.

(** ** Clone *)
Definition clone_ents (k' : nat) : list entry -> M (list entry) :=
  fix go (l : list entry) : M (list entry) :=
    match l with
    | [] => ret []
    | (ki, n, c) :: r =>
        do _ <- touch (Some ki); do kj <- alloc;
        do c' <- lclone k' c; do r' <- go r; ret ((kj, n, c') :: r')
    end.
Lemma lclone_arr k' b l : lclone (S k') (LArr b l) =
  do _ <- touch b; do b' <- match l with [] => ret None | _ => do j <- alloc; ret (Some j) end; do l' <- clone_all k' l; ret (LArr b' l').
Proof. reflexivity. Qed.
Lemma lclone_obj k' b l : lclone (S k') (LObj b l) =
  do _ <- touch b; do b' <- match l with [] => ret None | _ => do j <- alloc; ret (Some j) end; do l' <- clone_ents k' l; ret (LObj b' l').
Proof. reflexivity. Qed.

Definition all_shallow (k : nat) (l : list jval) : bool := forallb (fun c => depth c <? k) l.
Definition sclones {A} (k : nat) (f : A -> jval) (l : list A) : res (list A) :=
  if all_shallow k (map f l) then Ok l else Fault FDeep.

Lemma new_buf_ok {A} (l : list A) : Tr [] (match l with [] => ret None | _ => do j <- alloc; ret (Some j) end) olab (fun _ => tt) (Ok tt).
Proof.
  destruct l; [apply Tr_ret'; [reflexivity|]; same|].
  eapply (Tr_seq _ [] []); [apply alloc_ok|same|]. intros j _. apply Tr_ret'; [reflexivity|]. same.
Qed.
Lemma list_max_le l n : list_max l <= n <-> forallb (fun x => x <=? n) l = true.
Proof. rewrite list_max_le, forallb_forall, Forall_forall. split; intros H x Hx; apply H in Hx; apply Nat.leb_le; exact Hx. Qed.
Lemma depth_list k (l : list nat) : (list_max (map S l) <? S k) = forallb (fun d => d <? k) l.
Proof.
  destruct (Nat.ltb_spec (list_max (map S l)) (S k)) as [H|H]; symmetry.
  - assert (H1 : list_max (map S l) <= k) by lia. apply list_max_le in H1. rewrite forallb_forall in *. intros x Hx.
    apply (in_map S) in Hx. apply H1 in Hx. exact Hx.
  - destruct (forallb _ l) eqn:E; [|reflexivity]. exfalso. enough (list_max (map S l) <= k) by lia. apply list_max_le.
    rewrite forallb_forall in *. intros x Hx. apply in_map_iff in Hx. destruct Hx as (d & <- & Hd). apply E in Hd. exact Hd.
Qed.
Lemma forallb_map {A B} (f : A -> B) p l : forallb p (map f l) = forallb (fun x => p (f x)) l.
Proof. induction l; cbn; congruence. Qed.
Lemma depth_arr k l : (depth (JvArr l) <? S k) = all_shallow k l.
Proof. cbn [depth]. unfold all_shallow. rewrite <- (map_map depth S), depth_list. apply forallb_map. Qed.
Lemma depth_obj k l : (depth (JvObj l) <? S k) = all_shallow k (map snd l).
Proof. cbn [depth]. unfold all_shallow. rewrite <- (map_map (fun kv => depth (snd kv)) S), depth_list, !forallb_map. reflexivity. Qed.

Definition cok (k : nat) (v : lval) : Prop := Tr (labs v) (lclone k v) (fun c => labs c ++ labs v) seen (sclone k (seen v)).
Lemma clone_all_ok k l : Forall (cok k) l ->
  Tr (flat_map labs l) (clone_all k l) (fun l' => flat_map labs l' ++ flat_map labs l) (map seen) (sclones k (fun j => j) (map seen l)).
Proof.
  induction 1 as [|c l Hc Hl IH]; cbn [clone_all map].
  - unfold sclones. cbn. apply Tr_ret'; [reflexivity|]. same.
  - replace (sclones k (fun j => j) (seen c :: map seen l)) with
      (let* c' := sclone k (seen c) in let* r' := sclones k (fun j => j) (map seen l) in Ok (c' :: r')).
    2:{ unfold sclones, sclone, all_shallow. cbn [map forallb]. destruct (depth (seen c) <? k); cbn [andb Base.bind]; [|reflexivity]. destruct (forallb _ _); reflexivity. }
    eapply (Tr_bind _ _ (flat_map labs l)); [exact Hc|same|]. intros a Ea.
    eapply (Tr_bind _ _ (labs a ++ labs c)); [exact IH|same|]. intros r Er. apply Tr_ret'; [reflexivity|]. same.
Qed.
Lemma clone_ents_ok k l : Forall (fun e => cok k (snd e)) l ->
  Tr (flat_map elabs l) (clone_ents k l) (fun l' => flat_map elabs l' ++ flat_map elabs l) (map eseen) (sclones k snd (map eseen l)).
Proof.
  induction 1 as [|[[ki n] c] l Hc Hl IH]; cbn [clone_ents map].
  - unfold sclones. cbn. apply Tr_ret'; [reflexivity|]. same.
  - cbn [snd] in Hc. replace (sclones k snd (eseen (ki, n, c) :: map eseen l)) with
      (let* c' := sclone k (seen c) in let* r' := sclones k snd (map eseen l) in Ok ((n, c') :: r')).
    2:{ unfold sclones, sclone, all_shallow. cbn [map forallb eseen fst snd]. destruct (depth (seen c) <? k); cbn [andb Base.bind]; [|reflexivity]. destruct (forallb _ _); reflexivity. }
    eapply (touch_seq _ (Some ki) (labs c ++ flat_map elabs l)); [same|].
    eapply (Tr_seq _ [] (ki :: labs c ++ flat_map elabs l)); [apply alloc_ok|same|]. intros kj _.
    eapply (Tr_bind _ _ (kj :: ki :: flat_map elabs l)); [exact Hc|same|]. intros a Ea.
    eapply (Tr_bind _ _ (kj :: ki :: labs a ++ labs c)); [exact IH|same|]. intros r Er. apply Tr_ret'; [reflexivity|]. same.
Qed.
Lemma lclone_ok v : forall k, cok k v.
Proof.
  induction v as [i x|b l IH|b l IH] using lval_ind'; intros [|k]; unfold cok.
  1,3,5: cbn [lclone]; unfold sclone; rewrite (proj2 (Nat.ltb_ge _ 0)) by lia; apply Tr_crash.
  - cbn [lclone seen]. unfold sclone. replace (depth (jleaf x) <? S k) with true by (destruct x; reflexivity).
    eapply (touch_seq _ (Some i) []); [same|]. eapply (Tr_seq _ [] [i]); [apply alloc_ok|same|]. intros j _. apply Tr_ret'; [reflexivity|]. same.
  - rewrite lclone_arr. cbn [seen]. unfold sclone. rewrite depth_arr.
    replace (if all_shallow k (map seen l) then Ok (JvArr (map seen l)) else Fault FDeep) with (let* l' := sclones k (fun j => j) (map seen l) in Ok (JvArr l')).
    2:{ unfold sclones. rewrite map_id. destruct (all_shallow _ _); reflexivity. }
    eapply (touch_seq _ b (flat_map labs l)); [same|]. eapply (Tr_seq _ [] (olab b ++ flat_map labs l)); [apply new_buf_ok|same|]. intros b' _.
    eapply (Tr_bind _ _ (olab b ++ olab b')); [apply clone_all_ok; eapply Forall_impl; [|exact IH]; auto|same|]. intros l' _. apply Tr_ret'; [reflexivity|]. same.
  - rewrite lclone_obj, seen_obj, labs_obj. unfold sclone. rewrite depth_obj.
    replace (if all_shallow k (map snd (map eseen l)) then Ok (JvObj (map eseen l)) else Fault FDeep) with (let* l' := sclones k snd (map eseen l) in Ok (JvObj l')).
    2:{ unfold sclones. destruct (all_shallow _ _); reflexivity. }
    eapply (touch_seq _ b (flat_map elabs l)); [same|]. eapply (Tr_seq _ [] (olab b ++ flat_map elabs l)); [apply new_buf_ok|same|]. intros b' _.
    eapply (Tr_bind _ _ (olab b ++ olab b')); [apply clone_ents_ok; eapply Forall_impl; [|exact IH]; intros e He; apply He|same|]. intros l' _. apply Tr_ret'; [reflexivity|]. same.
Qed.

(** ** Vectors *)
Definition vlabs (v : vec) : list nat := olab (fst v) ++ flat_map labs (snd v).
Definition mlabs (m : bmap) : list nat := olab (fst m) ++ flat_map elabs (snd m).
Definition oolabs (o : option lval) : list nat := match o with Some v => labs v | None => [] end.
Ltac acct H := let i := fresh "i" in intros i; specialize (H i); unfold none, oolabs, vlabs, mlabs in *; cbn [flat_map app olab fst snd map rev] in *; repeat (rewrite count_occ_app in * || (progress cbn [count_occ app olab elabs fst snd] in *)); repeat match goal with |- context[Nat.eq_dec ?a ?b] => destruct (Nat.eq_dec a b) end; lia.
Ltac same' := unfold vlabs, mlabs, oolabs; same.

Lemma vec_push_ok x b l : Tr (vlabs (b, l) ++ labs x) (vec_push x (b, l)) vlabs (fun v => map seen (snd v)) (Ok (map seen l ++ [seen x])).
Proof.
  unfold vec_push. cbn [fst snd]. eapply (touch_seq _ b (flat_map labs l ++ labs x)); [same'|].
  assert (E : map seen (l ++ [x]) = map seen l ++ [seen x]) by apply map_app.
  assert (F : same (flat_map labs (l ++ [x])) (flat_map labs l ++ labs x)) by (rewrite flat_map_app; cbn [flat_map]; rewrite app_nil_r; intros i; reflexivity).
  destruct b as [i|].
  - apply Tr_ret'; [exact E|]. unfold vlabs. cbn [fst snd olab]. intros j. rewrite !count_occ_app, F, count_occ_app. cbn [count_occ]. reflexivity.
  - eapply (Tr_seq _ [] (flat_map labs l ++ labs x)); [apply alloc_ok|same|]. intros i _. apply Tr_ret'; [exact E|]. unfold vlabs. cbn [fst snd olab]. intros j. rewrite !count_occ_app, F, count_occ_app. cbn [count_occ]. reflexivity.
Qed.
Lemma vec_extend_ok xs : forall b l, Tr (vlabs (b, l) ++ flat_map labs xs) (vec_extend xs (b, l)) vlabs (fun v => map seen (snd v)) (Ok (map seen (l ++ xs))).
Proof.
  induction xs as [|x xs IH]; intros b l; cbn [vec_extend].
  - rewrite (app_nil_r l). apply Tr_ret'; [reflexivity|]. same'.
  - eapply (Tr_seq _ _ (flat_map labs xs)); [apply (vec_push_ok x b l)|same'|]. intros [b1 l1] E. cbn [snd] in E.
    replace (map seen (l ++ x :: xs)) with (map seen (l1 ++ xs)); [apply IH|]. rewrite !map_app, E. cbn [map]. now rewrite <- app_assoc.
Qed.
Lemma cnt_split {A} (f : A -> list nat) n l i : cnt (flat_map f l) i = cnt (flat_map f (firstn n l)) i + cnt (flat_map f (skipn n l)) i.
Proof. rewrite <- count_occ_app, <- flat_map_app, firstn_skipn. reflexivity. Qed.
Lemma skipn_cons {A} n (l : list A) x : nth_error l n = Some x -> skipn n l = x :: skipn (S n) l.
Proof. revert l. induction n as [|n IH]; intros [|y l]; cbn; try discriminate; [now intros [= ->]|]. apply IH. Qed.
Lemma cnt_nth {A} (f : A -> list nat) n l x i : nth_error l n = Some x ->
  cnt (flat_map f l) i = cnt (f x) i + cnt (flat_map f (firstn n l)) i + cnt (flat_map f (skipn (S n) l)) i.
Proof. intros H. rewrite (cnt_split f n l i), (skipn_cons n l x H). cbn [flat_map]. rewrite count_occ_app. lia. Qed.
Lemma nth_out {A} n (l : list A) : nth_error l n = None -> firstn n l ++ skipn (S n) l = l.
Proof. intros H. apply nth_error_None in H. rewrite firstn_all2, skipn_all2 by lia. apply app_nil_r. Qed.

Lemma vec_remove_ok i b l : Tr (vlabs (b, l)) (vec_remove i (b, l)) (fun r => oolabs (fst r) ++ vlabs (snd r))
  (fun r => (option_map seen (fst r), map seen (snd (snd r))))
  (Ok (nth_error (map seen l) i, firstn i (map seen l) ++ skipn (S i) (map seen l))).
Proof.
  unfold vec_remove. cbn [fst snd]. eapply (touch_seq _ b (flat_map labs l)); [same'|].
  rewrite nth_error_map, firstn_map, skipn_map. destruct (nth_error l i) as [x|] eqn:E.
  - apply Tr_ret'; [cbn [fst snd option_map]; now rewrite map_app|]. unfold vlabs, oolabs. intros j. cbn [fst snd].
    rewrite flat_map_app, !count_occ_app, (cnt_nth labs i l x j E). lia.
  - apply Tr_ret'; [|same']. cbn [fst snd option_map]. rewrite <- map_app, nth_out by exact E. reflexivity.
Qed.
Lemma vec_truncate_ok k n b l : 4 <= k ->
  Tr (vlabs (b, l)) (vec_truncate (glue k) n (b, l)) vlabs (fun v => (fst v, snd v)) (Ok (b, firstn n l)).
Proof.
  intros Hk. unfold vec_truncate. cbn [fst snd]. eapply (touch_seq _ b (flat_map labs l)); [same'|].
  eapply (U_seq _ _ (olab b ++ flat_map labs (firstn n l))); [apply (each_ok _ labs); intros x _; apply glue_ok, Hk| |].
  - intros j. rewrite !count_occ_app, (cnt_split labs n l j). lia.
  - apply Tr_ret'; [reflexivity|]. same'.
Qed.

(** Array::clone_from *)
Lemma clone_over_ok k tl : 4 <= k -> forall sl, length tl = length sl ->
  Tr (flat_map labs tl ++ flat_map labs sl) (clone_over k tl sl) (fun r => flat_map labs r ++ flat_map labs sl) (map seen) (sclones k (fun j => j) (map seen sl)).
Proof.
  intros Hk. induction tl as [|t tl IH]; intros [|s sl] HL; try discriminate; cbn [clone_over].
  - unfold sclones. cbn. apply Tr_ret'; [reflexivity|]. same.
  - injection HL as HL. replace (sclones k (fun j => j) (map seen (s :: sl))) with
      (let* c' := sclone k (seen s) in let* r' := sclones k (fun j => j) (map seen sl) in Ok (c' :: r')).
    2:{ unfold sclones, sclone, all_shallow. cbn [map forallb]. destruct (depth (seen s) <? k); cbn [andb Base.bind]; [|reflexivity]. destruct (forallb _ _); reflexivity. }
    eapply (Tr_bind _ _ (labs t ++ flat_map labs tl ++ flat_map labs sl)); [apply lclone_ok|same|]. intros a Ea.
    eapply (U_seq _ _ (labs a ++ labs s ++ flat_map labs tl ++ flat_map labs sl)); [apply glue_ok, Hk|same|].
    eapply (Tr_bind _ _ (labs a ++ labs s)); [apply IH, HL|same|]. intros r Er. apply Tr_ret'; [reflexivity|]. same.
Qed.
Lemma sclones_app k (l1 l2 : list jval) : sclones k (fun j => j) (l1 ++ l2) =
  (let* a := sclones k (fun j => j) l1 in let* b := sclones k (fun j => j) l2 in Ok (a ++ b)).
Proof. unfold sclones, all_shallow. rewrite !map_id, forallb_app. destruct (forallb _ l1); cbn; [|reflexivity]. destruct (forallb _ l2); reflexivity. Qed.
Lemma array_clone_from_ok k b l ss : 4 <= k ->
  Tr (vlabs (b, l) ++ flat_map labs ss) (array_clone_from k (b, l) ss) (fun v => vlabs v ++ flat_map labs ss) (fun v => map seen (snd v)) (sclones k (fun j => j) (map seen ss)).
Proof.
  intros Hk. unfold array_clone_from.
  eapply (Tr_seq _ _ (flat_map labs ss)); [apply (vec_truncate_ok k (length ss) b l Hk)|same'|]. intros [b1 l1] [= -> ->]. cbn [fst snd].
  set (n := length (firstn (length ss) l)). replace (map seen ss) with (map seen (firstn n ss) ++ map seen (skipn n ss)) by now rewrite <- map_app, firstn_skipn.
  rewrite sclones_app. eapply (Tr_bind _ _ (olab b ++ flat_map labs (skipn n ss))); [apply (clone_over_ok k (firstn (length ss) l) Hk (firstn n ss))| |].
  - subst n. rewrite !firstn_length. lia.
  - intros j. unfold vlabs. cbn [fst snd]. rewrite !count_occ_app, (cnt_split labs n ss j). lia.
  - intros l1 E1. eapply (Tr_bind _ _ (flat_map labs l1 ++ flat_map labs (firstn n ss) ++ olab b)); [apply clone_all_ok; apply Forall_forall; intros x _; apply lclone_ok|same|].
    intros l2 E2. rewrite <- map_app. eapply Tr_same.
    + apply Tr_frame. apply vec_extend_ok.
    + intros j. unfold vlabs. cbn [fst snd]. rewrite !count_occ_app, (cnt_split labs n ss j). lia.
Qed.

(** ** Maps *)
Definition ksorted {A} (m : list (bytes * A)) : Prop := StronglySorted (fun a b => bytes_cmp (fst a) (fst b) = Lt) m.

Lemma lookup_below {A} k (m : list (bytes * A)) : Forall (fun kv => bytes_cmp k (fst kv) = Lt) m ->
  find (fun kv => match bytes_cmp k (fst kv) with Eq => true | _ => false end) m = None.
Proof. induction 1 as [|kv m H _ IH]; cbn; [reflexivity|]. rewrite H. exact IH. Qed.
Lemma below_trans {A} k k' (m : list (bytes * A)) : bytes_cmp k k' = Lt -> Forall (fun kv => bytes_cmp k' (fst kv) = Lt) m -> Forall (fun kv => bytes_cmp k (fst kv) = Lt) m.
Proof. intros H. apply Forall_impl. intros kv. now apply bytes_cmp_trans. Qed.

Lemma ent_insert_ok ki k c l o l' : ksorted (map eseen l) -> ent_insert ki k c l = (o, l') ->
  same (flat_map elabs l' ++ oolabs o ++ (match o with Some _ => [ki] | None => [] end)) (ki :: labs c ++ flat_map elabs l) /\
  map eseen l' = minsert bytes_cmp k (seen c) (map eseen l) /\ option_map seen o = lookup k (map eseen l).
Proof.
  revert o l'. induction l as [|[[ki' k'] c'] l IH]; intros o l' HS; cbn [ent_insert].
  - intros [= <- <-]. split; [same'|]. split; reflexivity.
  - cbn [map] in HS. apply StronglySorted_inv in HS. destruct HS as [HS HB]. cbn [eseen fst snd] in HB.
    change (map eseen ((ki', k', c') :: l)) with ((k', seen c') :: map eseen l). unfold lookup. cbn [minsert find fst].
    destruct (bytes_cmp k k') eqn:E.
    + intros [= <- <-]. split; [same'|]. split; reflexivity.
    + intros [= <- <-]. split; [same'|]. split; [reflexivity|]. rewrite lookup_below; [reflexivity|]. eapply below_trans; [exact E|exact HB].
    + destruct (ent_insert ki k c l) as [o1 r] eqn:EI. intros [= <- <-]. destruct (IH _ _ HS eq_refl) as (H1 & H2 & H3).
      split; [|split; [|exact H3]].
      * acct H1.
      * cbn [map]. rewrite H2. reflexivity.
Qed.
Lemma map_insert_ok k c b l : ksorted (map eseen l) ->
  Tr (mlabs (b, l) ++ labs c) (map_insert k c (b, l)) (fun r => oolabs (fst r) ++ mlabs (snd r))
    (fun r => (option_map seen (fst r), map eseen (snd (snd r)))) (Ok (lookup k (map eseen l), minsert bytes_cmp k (seen c) (map eseen l))).
Proof.
  intros HS. unfold map_insert. cbn [fst snd]. eapply (touch_seq _ b (flat_map elabs l ++ labs c)); [same'|].
  eapply (Tr_seq _ [] (olab b ++ flat_map elabs l ++ labs c)); [apply alloc_ok|same|]. intros ki _.
  destruct (ent_insert ki k c l) as [o l'] eqn:E. destruct (ent_insert_ok _ _ _ _ _ _ HS E) as (H1 & H2 & H3).
  eapply (U_seq _ (match o with Some _ => [ki] | None => [] end) (olab b ++ flat_map elabs l' ++ oolabs o)).
  - destruct o; [apply (release_ok (Some ki))|apply Tr_ret'; [reflexivity|same]].
  - acct H1.
  - destruct b as [j|].
    + apply Tr_ret'; [cbn [fst snd]; now rewrite H2, H3|]. same'.
    + eapply (Tr_seq _ [] (flat_map elabs l' ++ oolabs o)); [apply alloc_ok|same|]. intros j _. apply Tr_ret'; [cbn [fst snd]; now rewrite H2, H3|]. same'.
Qed.

Lemma remove_below k (m : list (bytes * jval)) : Forall (fun kv => bytes_cmp k (fst kv) = Lt) m -> remove_key k m = m.
Proof. induction 1 as [|kv m H _ IH]; cbn; [reflexivity|]. rewrite H. f_equal. exact IH. Qed.
Lemma ent_remove_ok k l o l' : ksorted (map eseen l) -> ent_remove k l = (o, l') ->
  same (flat_map elabs l' ++ match o with Some (ki, c) => ki :: labs c | None => [] end) (flat_map elabs l) /\
  map eseen l' = remove_key k (map eseen l) /\ option_map (fun x => seen (snd x)) o = lookup k (map eseen l).
Proof.
  revert o l'. induction l as [|[[ki' k'] c'] l IH]; intros o l' HS; cbn [ent_remove].
  - intros [= <- <-]. split; [same'|]. split; reflexivity.
  - cbn [map] in HS. apply StronglySorted_inv in HS. destruct HS as [HS HB]. cbn [eseen fst snd] in HB.
    change (map eseen ((ki', k', c') :: l)) with ((k', seen c') :: map eseen l). unfold lookup, remove_key. cbn [filter find fst].
    assert (HG : forall o1 r, ent_remove k l = (o1, r) -> (o1, (ki', k', c') :: r) = (o, l') ->
      same (flat_map elabs l' ++ match o with Some (ki, c) => ki :: labs c | None => [] end) (flat_map elabs ((ki', k', c') :: l)) /\
      map eseen l' = (k', seen c') :: filter (fun kv => match bytes_cmp k (fst kv) with Eq => false | _ => true end) (map eseen l) /\
      option_map (fun x => seen (snd x)) o = lookup k (map eseen l)).
    { intros o1 r E [= <- <-]. destruct (IH _ _ HS E) as (H1 & H2 & H3). split; [|split; [|exact H3]].
      - acct H1.
      - cbn [map]. rewrite H2. reflexivity. }
    destruct (bytes_cmp k k') eqn:E.
    + intros [= <- <-]. split; [same'|]. split; [|reflexivity]. symmetry. apply remove_below. apply bytes_cmp_eq in E. now subst k'.
    + destruct (ent_remove k l) as [o1 r]. apply HG. reflexivity.
    + destruct (ent_remove k l) as [o1 r]. apply HG. reflexivity.
Qed.
Lemma map_remove_ok k b l : ksorted (map eseen l) ->
  Tr (mlabs (b, l)) (map_remove k (b, l)) (fun r => oolabs (fst r) ++ mlabs (snd r))
    (fun r => (option_map seen (fst r), map eseen (snd (snd r)))) (Ok (lookup k (map eseen l), remove_key k (map eseen l))).
Proof.
  intros HS. unfold map_remove. cbn [fst snd]. eapply (touch_seq _ b (flat_map elabs l)); [same'|].
  destruct (ent_remove k l) as [o l'] eqn:E. destruct (ent_remove_ok _ _ _ _ HS E) as (H1 & H2 & H3).
  destruct o as [[ki c]|].
  - eapply (U_seq _ [ki] (olab b ++ flat_map elabs l' ++ labs c)); [apply (release_ok (Some ki))| |].
    + acct H1.
    + apply Tr_ret'; [cbn [fst snd]; rewrite H2, <- H3; reflexivity|]. same'.
  - apply Tr_ret'; [cbn [fst snd]; rewrite H2, <- H3; reflexivity|]. acct H1.
Qed.

Lemma ent_replace_ok ki k c l o l' : ent_replace ki k c l = (o, l') ->
  same (flat_map elabs l' ++ match o with Some (kj, old) => kj :: labs old | None => [] end) (ki :: labs c ++ flat_map elabs l) /\
  map eseen l' = minsert bytes_cmp k (seen c) (map eseen l).
Proof.
  revert o l'. induction l as [|[[ki' k'] c'] l IH]; intros o l'; cbn [ent_replace].
  - intros [= <- <-]. split; [same'|]. reflexivity.
  - change (map eseen ((ki', k', c') :: l)) with ((k', seen c') :: map eseen l). cbn [minsert].
    destruct (bytes_cmp k k') eqn:E.
    + intros [= <- <-]. split; [same'|]. apply bytes_cmp_eq in E. subst. reflexivity.
    + intros [= <- <-]. split; [same'|]. reflexivity.
    + destruct (ent_replace ki k c l) as [o1 r]. intros [= <- <-]. destruct (IH _ _ eq_refl) as (H1 & H2). split.
      * acct H1.
      * cbn [map]. rewrite H2. reflexivity.
Qed.
Definition xlabs (kc : bytes * lval) : list nat := labs (snd kc).
Definition xseen (kc : bytes * lval) : bytes * jval := (fst kc, seen (snd kc)).
Definition sfrom (xs m : list (bytes * jval)) := fold_left (fun m kv => minsert bytes_cmp (fst kv) (snd kv) m) xs m.
Lemma ents_from_iter_ok k xs : 4 <= k -> forall l,
  Tr (flat_map xlabs xs ++ flat_map elabs l) (ents_from_iter (glue k) xs l) (flat_map elabs) (map eseen) (Ok (sfrom (map xseen xs) (map eseen l))).
Proof.
  intros Hk. induction xs as [|[key c] xs IH]; intros l; cbn [ents_from_iter].
  - apply Tr_ret'; [reflexivity|]. same.
  - eapply (Tr_seq _ [] (flat_map xlabs ((key, c) :: xs) ++ flat_map elabs l)); [apply alloc_ok|same|]. intros ki _.
    destruct (ent_replace ki key c l) as [o l'] eqn:E. destruct (ent_replace_ok _ _ _ _ _ _ E) as (H1 & H2).
    eapply (U_seq _ (match o with Some (kj, old) => kj :: labs old | None => [] end) (flat_map xlabs xs ++ flat_map elabs l')).
    + destruct o as [[kj old]|]; [|apply Tr_ret'; [reflexivity|same]].
      unfold U. eapply U_seq; [apply (release_ok (Some kj))|intros i; reflexivity|apply glue_ok, Hk].
    + change (flat_map xlabs ((key, c) :: xs)) with (labs c ++ flat_map xlabs xs); acct H1.
    + unfold sfrom. cbn [map fold_left xseen fst snd]. rewrite <- H2. apply IH.
Qed.
Lemma map_from_iter_ok k xs : 4 <= k ->
  Tr (flat_map xlabs xs) (map_from_iter (glue k) xs) mlabs (fun m => map eseen (snd m)) (Ok (sfrom (map xseen xs) [])).
Proof.
  intros Hk. unfold map_from_iter. eapply (Tr_seq _ _ []); [apply (ents_from_iter_ok k xs Hk [])|same|]. intros l E. cbn [map] in E. rewrite <- E.
  destruct l as [|e l]; [apply Tr_ret'; [reflexivity|same']|].
  eapply (Tr_seq _ [] (flat_map elabs (e :: l))); [apply alloc_ok|same|]. intros j _. apply Tr_ret'; [reflexivity|]. same'.
Qed.

(** ** Well-formed values: the keys of an object are in order. *)
Inductive wf : jval -> Prop :=
| wf_leaf x : wf (jleaf x)
| wf_arr l : Forall wf l -> wf (JvArr l)
| wf_obj m : ksorted m -> Forall (fun kv => wf (snd kv)) m -> wf (JvObj m).
Lemma wf_arr_inv l : wf (JvArr l) -> Forall wf l.
Proof. inversion 1; [destruct x; discriminate|assumption]. Qed.
Lemma wf_obj_inv m : wf (JvObj m) -> ksorted m /\ Forall (fun kv => wf (snd kv)) m.
Proof. inversion 1; [destruct x; discriminate|auto]. Qed.
Definition hwf (x : shandle) : Prop :=
  match x with SVal v => wf v | SVec l => wf (JvArr l) | SMap m => wf (JvObj m) end.
Definition swf (sl : sslots) : Prop := Forall (fun o => match o with Some x => hwf x | None => True end) sl.

Lemma Forall_firstn {A} (P : A -> Prop) n l : Forall P l -> Forall P (firstn n l).
Proof. intros H. revert n. induction H; intros [|n]; cbn; auto. Qed.
Lemma Forall_skipn {A} (P : A -> Prop) n l : Forall P l -> Forall P (skipn n l).
Proof. intros H. revert n. induction H; intros [|n]; cbn; auto. Qed.
Lemma Forall_upd {A} (P : A -> Prop) i x l : P x -> Forall P l -> Forall P (upd i x l).
Proof. intros Hx H. apply Forall_app. split; [now apply Forall_firstn|]. constructor; [exact Hx|now apply Forall_skipn]. Qed.
Lemma Forall_nth {A} (P : A -> Prop) l i x : Forall P l -> nth_error l i = Some x -> P x.
Proof. intros H E. apply nth_error_In in E. rewrite Forall_forall in H. auto. Qed.

Lemma ksorted_ext {A B} (m : list (bytes * A)) (m' : list (bytes * B)) : map fst m = map fst m' -> ksorted m -> ksorted m'.
Proof.
  revert m'. induction m as [|a m IH]; intros [|b m'] E H; try discriminate; [constructor|].
  injection E as E1 E2. apply StronglySorted_inv in H. destruct H as [H HB]. constructor; [now apply IH|].
  rewrite <- E1. clear - E2 HB. revert m' E2. induction HB as [|x m Hx _ IH]; intros [|y m'] E2; try discriminate; [constructor|]. injection E2 as E3 E4. constructor; [congruence|auto].
Qed.
Lemma upd_same {A} i x (l : list A) : nth_error l i = Some x -> upd i x l = l.
Proof. intros H. unfold upd. rewrite <- (skipn_cons i l x H). apply firstn_skipn. Qed.
Lemma map_upd {A B} (f : A -> B) i x l : map f (upd i x l) = upd i (f x) (map f l).
Proof. unfold upd. rewrite map_app, firstn_map. cbn [map]. now rewrite skipn_map. Qed.

Lemma place_wf {A} (g : jval -> res (A * jval)) (Q : A -> Prop) p : forall v a v',
  (forall v a v', wf v -> g v = Ok (a, v') -> wf v' /\ Q a) -> wf v -> place g p v = Ok (a, v') -> wf v' /\ Q a.
Proof.
  induction p as [|i p IH]; intros v a v' Hg Hv; cbn [place]; [now apply Hg|].
  destruct v as [| | | |l|m]; try discriminate.
  - apply wf_arr_inv in Hv. destruct (nth_error l i) as [c|] eqn:E; [|discriminate].
    destruct (place g p c) as [[a1 c1]| |] eqn:EP; cbn [Base.bind]; try discriminate. intros [= <- <-]. cbn [fst snd].
    destruct (IH c a1 c1 Hg) as [H1 H2]; [eapply Forall_nth; eauto|exact EP|]. split; [|exact H2]. constructor. now apply Forall_upd.
  - apply wf_obj_inv in Hv. destruct Hv as [HS Hv]. destruct (nth_error m i) as [[n c]|] eqn:E; [|discriminate].
    destruct (place g p c) as [[a1 c1]| |] eqn:EP; cbn [Base.bind]; try discriminate. intros [= <- <-]. cbn [fst snd].
    destruct (IH c a1 c1 Hg) as [H1 H2]; [exact (Forall_nth _ _ _ _ Hv E)|exact EP|]. split; [|exact H2]. constructor.
    + eapply ksorted_ext; [|exact HS]. rewrite map_upd. cbn [fst]. symmetry. apply upd_same. rewrite nth_error_map, E. reflexivity.
    + apply Forall_upd; assumption.
Qed.
Lemma sget_wf h sl x sl' : swf sl -> sget h sl = Ok (x, sl') -> hwf x /\ swf sl' /\ nth_error sl' h = Some None.
Proof.
  intros H. unfold sget. destruct (nth_error sl h) as [[y|]|] eqn:E; try discriminate. intros [= <- <-].
  split; [exact (Forall_nth _ _ _ _ H E)|]. split; [apply Forall_upd; [exact I|exact H]|].
  unfold upd. rewrite nth_error_app2; rewrite firstn_length_le; try (rewrite Nat.sub_diag; reflexivity); try lia.
  all: assert (h < length sl) by (apply nth_error_Some; congruence); lia.
Qed.
Lemma sget_val_wf h sl x sl' : swf sl -> sget_val h sl = Ok (x, sl') -> wf x /\ swf sl' /\ nth_error sl' h = Some None.
Proof.
  intros H. unfold sget_val. destruct (sget h sl) as [[y sl1]| |] eqn:E; cbn [Base.bind fst snd]; try discriminate.
  apply sget_wf in E; [|exact H]. destruct y; try discriminate. intros [= <- <-]. exact E.
Qed.
Lemma smodify_wf {A} h p (g : jval -> res (A * jval)) (Q : A -> Prop) sl a sl' :
  (forall v a v', wf v -> g v = Ok (a, v') -> wf v' /\ Q a) -> swf sl -> smodify h p g sl = Ok (a, sl') -> swf sl' /\ Q a.
Proof.
  intros Hg H. unfold smodify. destruct (sget_val h sl) as [[v sl1]| |] eqn:E; cbn [Base.bind fst snd]; try discriminate.
  apply sget_val_wf in E; [|exact H]. destruct E as (Hv & Hs & _).
  destruct (place g p v) as [[a1 v1]| |] eqn:EP; cbn [Base.bind fst snd]; try discriminate. intros [= <- <-].
  destruct (place_wf g Q p v a1 v1 Hg Hv EP) as [H1 H2]. split; [|exact H2]. now apply Forall_upd.
Qed.
Lemma sget_vals_wf hs : forall sl xs sl', swf sl -> sget_vals hs sl = Ok (xs, sl') -> Forall wf xs /\ swf sl' /\ length xs = length hs.
Proof.
  induction hs as [|h hs IH]; intros sl xs sl' H; cbn [sget_vals]; [intros [= <- <-]; auto|].
  destruct (sget_val h sl) as [[v sl1]| |] eqn:E; cbn [Base.bind fst snd]; try discriminate.
  apply sget_val_wf in E; [|exact H]. destruct E as (Hv & Hs & _).
  destruct (sget_vals hs sl1) as [[vs sl2]| |] eqn:E2; cbn [Base.bind fst snd]; try discriminate. intros [= <- <-].
  destruct (IH _ _ _ Hs E2) as (H1 & H2 & H3). cbn [length]. auto.
Qed.

Lemma minsert_In {A} k (v : A) m x : In x (minsert bytes_cmp k v m) -> snd x = v \/ In x m.
Proof.
  induction m as [|[k' v'] m IH]; cbn [minsert]; [intros [<-|[]]; auto|]. destruct (bytes_cmp k k').
  - intros [<-|H]; [auto|right; now right].
  - intros [<-|H]; auto.
  - intros [<-|H]; [right; now left|]. apply IH in H. destruct H; [auto|right; now right].
Qed.
Lemma minsert_key {A} k (v : A) m x : In x (minsert bytes_cmp k v m) -> fst x = k \/ In (fst x) (map fst m).
Proof.
  induction m as [|[k' v'] m IH]; cbn [minsert]; [intros [<-|[]]; auto|]. cbn [map fst]. destruct (bytes_cmp k k').
  - intros [<-|H]; [right; now left|right; right; now apply in_map].
  - intros [<-|[<-|H]]; [auto|right; now left|right; right; now apply in_map].
  - intros [<-|H]; [right; now left|]. apply IH in H. destruct H; [auto|right; now right].
Qed.
Lemma minsert_sorted {A} k (v : A) m : ksorted m -> ksorted (minsert bytes_cmp k v m).
Proof.
  induction m as [|[k' v'] m IH]; intros H; cbn [minsert]; [repeat constructor|].
  apply StronglySorted_inv in H. destruct H as [H HB]. cbn [fst] in HB. destruct (bytes_cmp k k') eqn:E.
  - constructor; assumption.
  - constructor; [constructor; assumption|]. constructor; [exact E|]. cbn [fst]. eapply below_trans; eassumption.
  - constructor; [now apply IH|]. cbn [fst]. apply Forall_forall. intros x Hx. apply minsert_key in Hx. destruct Hx as [-> | Hx].
    + rewrite bytes_cmp_anti, E. reflexivity.
    + apply in_map_iff in Hx. destruct Hx as (y & <- & Hy). rewrite Forall_forall in HB. auto.
Qed.
Lemma wf_minsert k v m : wf v -> wf (JvObj m) -> wf (JvObj (minsert bytes_cmp k v m)).
Proof.
  intros Hv Hm. apply wf_obj_inv in Hm. destruct Hm as [H1 H2]. constructor; [now apply minsert_sorted|].
  rewrite Forall_forall in *. intros x Hx. apply minsert_In in Hx. destruct Hx as [-> | Hx]; auto.
Qed.
Lemma ksorted_filter {A} f (m : list (bytes * A)) : ksorted m -> ksorted (filter f m).
Proof.
  induction 1 as [|x m H IH HB]; cbn; [constructor|]. destruct (f x); [|exact IH]. constructor; [exact IH|].
  rewrite Forall_forall in *. intros y Hy. apply filter_In in Hy. apply HB, Hy.
Qed.
Lemma wf_lookup k m v : wf (JvObj m) -> lookup k m = Some v -> wf v.
Proof.
  intros Hm. apply wf_obj_inv in Hm. destruct Hm as [_ H]. unfold lookup. destruct (find _ m) as [kv|] eqn:E; [|discriminate]. intros [= <-].
  apply find_some in E. rewrite Forall_forall in H. apply H, E.
Qed.
Lemma Sorted_app_l {A} R (l1 l2 : list A) : StronglySorted R (l1 ++ l2) -> StronglySorted R l1.
Proof.
  induction l1 as [|x l1 IH]; intros H; [constructor|]. apply StronglySorted_inv in H. destruct H as [H HB]. constructor; [now apply IH|]. apply Forall_app in HB. tauto.
Qed.
