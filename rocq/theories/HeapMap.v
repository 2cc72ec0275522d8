(** Map builders on the heap, as HeapSeq.v for sequences. *)
From Coq Require Import String ZArith List Bool Lia Floats.SpecFloat.
From Verif Require Import Base Utf8 F64 Lexer Driver Grammar LexSpec Types Impls Tree DriverFacts Denote HeapFacts HeapSeq.
Import ListNotations.
Open Scope Z_scope.

Section Map.
Variable E : env.

(** *** The objects behind Box<dyn Map> *)
Definition jobj_add (m : list (bytes * jval)) (key : option bytes) (value : option val) :=
  match key, value with
  | Some k, Some (VJson j) => minsert bytes_cmp k j m
  | _, _ => m
  end.

(** None: error; Some None: the member is ignored. *)
Definition mp_key (o : obj) (key : bytes) : option (option (nat * ty)) * obj :=
  match o with
  | OMap kt t p m ko vo =>
      match key_from_str kt key with
      | None => (None, OMap kt t p (map_shift m ko vo) None None)
      | Some kv => (Some (Some (O, t)), OMap kt t p (map_shift m ko vo) (Some kv) None)
      end
  | OJObj iv p m ko vo => (Some (Some (O, TValue)), OJObj iv p (jobj_add m ko vo) (Some key) None)
  | OStruct fs p fields =>
      match find_name key (map fst fs) 0 with
      | Some i => match nth_error fs i with Some (_, t) => (Some (Some (i, t)), o) | None => (None, o) end
      | None => (Some None, o)
      end
  | _ => (None, o)
  end.

Definition mp_fin (o : obj) : option val * obj :=
  match o with
  | OMap kt t p m ko vo => (Some (VMap (map_shift m ko vo)), OMap kt t p [] None None)
  | OJObj iv p m ko vo => (Some (jobj_out iv (jobj_add m ko vo)), OJObj iv p [] None None)
  | OStruct fs p fields =>
      (option_map VStruct (read_all fields), OStruct fs p (snd (take_fields fields)))
  | _ => (None, o)
  end.

Definition mp_drop_ok (o : obj) : Prop :=
  match o with
  | OMap _ _ _ _ _ _ | OJObj _ _ _ _ _ | OStruct _ _ _ => True
  | _ => False
  end.
Definition mp_ok (o : obj) : Prop :=
  mp_drop_ok o /\
  match o with
  | OJObj _ _ _ _ v => json_slot v
  | OStruct fs _ fields => List.length fields = List.length fs
  | _ => True
  end.

Lemma find_name_lt k ns i j : find_name k ns i = Some j -> (i <= j < i + List.length ns)%nat.
Proof.
  revert i. induction ns as [|n ns IH]; intros i; cbn [find_name List.length]; [discriminate|].
  destruct (bytes_eqb k n); [intros [= <-]; lia|]. intros H. apply IH in H. lia.
Qed.
Lemma find_field fs k i : find_name k (map fst fs) 0 = Some i ->
  exists n (t : ty), nth_error fs i = Some (n, t) /\ (i < List.length fs)%nat.
Proof.
  intros H. apply find_name_lt in H. rewrite map_length in H. cbn in H.
  destruct (nth_error fs i) as [[n t]|] eqn:EN; [exists n, t; split; [reflexivity|lia]|].
  apply nth_error_None in EN. lia.
Qed.

Lemma mp_key_ok o key : mp_ok o -> mp_ok (snd (mp_key o key)) /\ obj_out (snd (mp_key o key)) = obj_out o /\
  match fst (mp_key o key) with
  | Some (Some (i, t)) => exists s, get_slot (snd (mp_key o key)) i = Some s
  | _ => True
  end.
Proof.
  intros [H1 H2]. destruct o; try contradiction; cbn [mp_key].
  - destruct (key_from_str k key); cbn; repeat split; eauto.
  - cbn. repeat split; eauto.
  - destruct (find_name key (map fst fs) 0) as [i|] eqn:EF; [|cbn [fst snd obj_out]; repeat split; auto].
    destruct (find_field _ _ _ EF) as (n & t & EN & L). rewrite EN. cbn [fst snd obj_out get_slot]. split; [split; auto|]. split; [reflexivity|].
    destruct (nth_error fields i) as [x|] eqn:EI; [exists x; destruct i; reflexivity|].
    exfalso. assert (List.length fields <= i)%nat by (apply nth_error_None; exact EI). lia.
Qed.

Lemma mp_set_ok o i x : mp_drop_ok o -> mp_drop_ok (set_slot o i x) /\ obj_out (set_slot o i x) = obj_out o.
Proof.
  intros H. destruct o; try contradiction; destruct i as [|[|i]]; cbn; auto.
Qed.
Lemma mp_set_ok' o key i t v : mp_ok o -> fst (mp_key o key) = Some (Some (i, t)) ->
  (t = TValue -> as_json v <> None) -> mp_ok (set_slot (snd (mp_key o key)) i (Some v)).
Proof.
  intros H Hi Hv. pose proof (mp_key_ok o key H) as (H1 & _ & _).
  split; [apply mp_set_ok, H1|]. destruct H as [H0 H].
  destruct o; cbn [mp_key] in *; try contradiction.
  - destruct (key_from_str k key); [|discriminate]. injection Hi as <- <-. exact I.
  - injection Hi as <- <-. cbn. apply Hv. reflexivity.
  - destruct (find_name key (map fst fs) 0) as [j|] eqn:EF; [|discriminate].
    destruct (nth_error fs j) as [[n t']|]; [|discriminate]. injection Hi as <- <-.
    destruct j; cbn [snd set_slot]; rewrite upd_length; exact H.
Qed.

(** *** The methods at the core object *)
Lemma jobj_shift_ok m ko e : json_slot e -> jobj_shift m ko e = Ok (jobj_add m ko e).
Proof. destruct ko, e as [[]|]; cbn; try reflexivity; congruence. Qed.

Lemma map_key_core key k A o R : mp_ok o -> (0 < k)%nat ->
  map_key k (BhAt (List.length A)) key (A ++ Some o :: R) =
  (match fst (mp_key o key) with
   | Some (Some (i, t)) => Ok (VhPlace (mkplace (List.length A) i 0) t)
   | Some None => Ok VhIgnore
   | None => Err
   end, A ++ Some (snd (mp_key o key)) :: R).
Proof.
  intros [H1 H2] Hk. destruct k as [|k]; [lia|]. cbn [map_key].
  unfold mbind. rewrite mget_mid. destruct o; try contradiction; cbn [mp_key].
  - destruct (key_from_str k0 key); rewrite mset_mid; reflexivity.
  - unfold lift. rewrite jobj_shift_ok by exact H2. rewrite mset_mid. reflexivity.
  - destruct (find_name key (map fst fs) 0) as [i|] eqn:EF; [|reflexivity].
    destruct (find_field _ _ _ EF) as (n & t & EN & L). rewrite EN. reflexivity.
Qed.

Lemma map_drop_core k A o R : mp_drop_ok o -> (0 < k)%nat ->
  map_drop k (BhAt (List.length A)) (A ++ Some o :: R) = (Ok tt, A ++ None :: R).
Proof.
  intros H Hk. destruct k as [|k]; [lia|]. cbn [map_drop].
  unfold mbind. rewrite mget_mid. destruct o; try contradiction; apply mfree_mid.
Qed.

Lemma take_fields_fst l : fst (take_fields l) = read_all l.
Proof.
  induction l as [|[v|] l IH]; cbn; auto. destruct (take_fields l). cbn in *. rewrite IH. reflexivity.
Qed.

Lemma map_finish_core k A o R : mp_ok o -> (0 < k)%nat -> pvalid (obj_out o) A ->
  map_finish k (BhAt (List.length A)) (A ++ Some o :: R) =
  match fst (mp_fin o) with
  | Some v => (Ok tt, wr (obj_out o) (Some v) A ++ Some (snd (mp_fin o)) :: R)
  | None => (Err, A ++ Some (snd (mp_fin o)) :: R)
  end /\ mp_drop_ok (snd (mp_fin o)).
Proof.
  intros [H1 H2] Hk Hp. destruct k as [|k]; [lia|]. cbn [map_finish].
  unfold mbind. rewrite mget_mid. destruct o; try contradiction; cbn [mp_fin obj_out] in *.
  - rewrite mset_mid. cbn [fst snd mp_drop_ok].
    rewrite (proj1 (set_wr_comm _ _ _ _ (OVec t out [] None) _ Hp)). auto.
  - unfold lift. rewrite jobj_shift_ok by exact H2. rewrite mset_mid. cbn [fst snd mp_drop_ok].
    rewrite (proj1 (set_wr_comm _ _ _ _ (OJArr isval out [] None) _ Hp)). auto.
  - rewrite <- take_fields_fst. destruct (take_fields fields) as [r fields']. rewrite mset_mid.
    cbn [fst snd mp_drop_ok]. destruct r; cbn [option_map]; [|auto].
    rewrite (proj1 (set_wr_comm _ _ _ _ (OJArr true out [] None) _ Hp)). auto.
Qed.

(** *** The methods behind wrappers *)
Notation laym := (lay OBoxMap).

Lemma map_key_lay key T q p h o R A p' B s : (wraps T < q)%nat -> laym T p h = (A, p', B, s) ->
  mp_ok o ->
  map_key q s key (A ++ Some o :: B ++ R) =
  (match fst (mp_key o key) with
   | Some (Some (i, t)) => Ok (VhPlace (mkplace (List.length A) i 0) t)
   | Some None => Ok VhIgnore
   | None => Err
   end, A ++ Some (snd (mp_key o key)) :: B ++ R).
Proof.
  revert q p h R A p' B s. induction T; intros q p h R A p' B s Hk HL Ho; cbn [lay wraps] in *;
    try (injection HL as <- <- <- <-; apply (map_key_core key q h o R Ho); lia).
  - destruct (laym T _ _) as [[[A1 p1] B1] s1] eqn:E1. injection HL as <- <- <- <-.
    destruct q as [|q]; [lia|]. cbn [map_key]. unfold mbind.
    rewrite mid_assoc, mid_after, mid_len with (o := Some o).
    rewrite mget_mid. rewrite <- mid_after.
    rewrite (IHT q _ _ _ _ _ _ _ ltac:(lia) E1 Ho). rewrite mid_assoc. reflexivity.
  - eapply IHT; [lia|exact HL|exact Ho].
Qed.

Lemma map_drop_lay T q p h o R A p' B s : (wraps T < q)%nat -> pvalid p h ->
  laym T p h = (A, p', B, s) -> mp_drop_ok o ->
  exists hh M, touched p h hh /\ Ns M /\
    map_drop q s (A ++ Some o :: B ++ R) = (Ok tt, hh ++ M ++ R) /\
    List.length (hh ++ M) = List.length (A ++ Some o :: B).
Proof.
  revert q p h R A p' B s. induction T; intros q p h R A p' B s Hk Hp HL Ho; cbn [lay wraps] in *;
    try (injection HL as <- <- <- <-; exists h, [None]; split; [apply touched_refl|]; split;
         [repeat constructor|]; split; [apply (map_drop_core q h o R Ho); lia|rewrite !app_length; reflexivity]).
  - destruct (laym T _ _) as [[[A1 p1] B1] s1] eqn:E1. injection HL as <- <- <- <-.
    destruct q as [|q]; [lia|]. cbn [map_drop]. unfold mbind.
    rewrite mid_assoc, mid_after, mid_len with (o := Some o).
    rewrite mget_mid. rewrite <- mid_after.
    destruct (IHT q _ _ (Some (OBoxMap p (List.length h) s1) :: R) _ _ _ _ ltac:(lia) (pvalid_cell _ _ _) E1 Ho)
      as (hh & M & Ht & HM & ED & EL).
    rewrite ED. apply touched_cell in Ht. destruct Ht as [y ->].
    rewrite <- app_assoc. cbn [app].
    rewrite mfree_mid.
    rewrite <- EL.
    replace (h ++ None :: M ++ Some (OBoxMap p (List.length h) s1) :: R)
      with ((h ++ None :: M) ++ Some (OBoxMap p (List.length h) s1) :: R) by (rewrite <- app_assoc; reflexivity).
    replace (List.length ((h ++ [Some (OCell y)]) ++ M)) with (List.length (h ++ None :: M))
      by (rewrite !app_length; cbn; lia).
    rewrite mfree_mid.
    exists h, (None :: M ++ [None]). split; [apply touched_refl|].
    split; [apply Ns_cons, Ns_app; [exact HM|repeat constructor]|].
    split; [cbn [app]; repeat rewrite <- app_assoc; reflexivity|].
    repeat (rewrite !app_length in *; cbn [List.length] in * ). lia.
  - destruct (IHT q _ _ R _ _ _ _ ltac:(lia) (pvalid_inner _ _ Hp) HL Ho) as (hh & M & Ht & HM & ED & EL).
    exists hh, M. split; [eapply touched_inner; eassumption|]. auto.
Qed.

Lemma lay_out_map T p h A p' B s : laym T p h = (A, p', B, s) -> pvalid p h -> pvalid p' A.
Proof. intros HL Hp. pose proof (lay_valid OBoxMap T p h Hp) as K. rewrite HL in K. exact K. Qed.

Lemma map_finish_lay T q p h o R A p' B s : (wraps T < q)%nat -> pvalid p h ->
  laym T p h = (A, p', B, s) -> mp_ok o -> obj_out o = p' ->
  match fst (mp_fin o) with
  | Some v =>
      exists H1 M, map_finish q s (A ++ Some o :: B ++ R) = (Ok tt, H1) /\ Ns M /\
        map_drop q s H1 = (Ok tt, wr p (Some (wrapv T v)) h ++ M ++ R) /\
        List.length (wr p (Some (wrapv T v)) h ++ M) = List.length (A ++ Some o :: B)
  | None =>
      map_finish q s (A ++ Some o :: B ++ R) = (Err, A ++ Some (snd (mp_fin o)) :: B ++ R) /\
      mp_drop_ok (snd (mp_fin o))
  end.
Proof.
  revert q p h R A p' B s. induction T; intros q p h R A p' B s Hk Hp HL Ho Hout; cbn [lay wraps] in *;
    try (injection HL as <- <- <- <-; cbn [app];
         destruct (map_finish_core q h o R Ho ltac:(lia)) as [EF ED]; [rewrite Hout; exact Hp|];
         destruct (fst (mp_fin o)) as [v|]; [|split; assumption];
         rewrite Hout in EF; cbn [wrapv];
         exists (wr p (Some v) h ++ Some (snd (mp_fin o)) :: R), [None];
         split; [exact EF|]; split; [repeat constructor|];
         rewrite <- (wr_length p (Some v) h Hp);
         split; [apply map_drop_core; [exact ED|lia]|rewrite !app_length, ?wr_length by (assumption || apply pvalid_wr, Hp); reflexivity]).
  - (* Box *)
    destruct (laym T _ _) as [[[A1 p1] B1] s1] eqn:E1. injection HL as <- <- <- <-.
    destruct q as [|q]; [lia|].
    assert (GET : mget (List.length A1 + 1 + List.length B1)
       (A1 ++ Some o :: (B1 ++ [Some (OBoxMap p (List.length h) s1)]) ++ R) =
       (Ok (OBoxMap p (List.length h) s1), A1 ++ Some o :: B1 ++ (Some (OBoxMap p (List.length h) s1) :: R))).
    { rewrite mid_assoc, mid_after, mid_len with (o := Some o). rewrite mget_mid. reflexivity. }
    specialize (IHT q _ _ (Some (OBoxMap p (List.length h) s1) :: R) _ _ _ _ ltac:(lia)
                  (pvalid_cell _ _ _) E1 Ho Hout).
    destruct (fst (mp_fin o)) as [v|].
    + destruct IHT as (H1 & M & EF & HM & ED & EL). cbn [wrapv].
      exists (wr p (Some (VBox (wrapv T v))) h ++ Some (OCell None) :: M ++ Some (OBoxMap p (List.length h) BhIgnore) :: R).
      exists (None :: M ++ [None]).
      rewrite wr_cell in ED, EL.
      assert (EL' : List.length (A1 ++ Some o :: B1) = List.length (h ++ Some (OCell (Some (wrapv T v))) :: M)).
      { rewrite <- EL. rewrite !app_length. cbn [List.length]. lia. }
      split.
      { cbn [map_finish]. unfold mbind. rewrite GET. rewrite EF, ED.
        rewrite mid_len with (o := Some o), EL'.
        replace ((h ++ [Some (OCell (Some (wrapv T v)))]) ++ M ++ Some (OBoxMap p (List.length h) s1) :: R)
          with ((h ++ Some (OCell (Some (wrapv T v))) :: M) ++ Some (OBoxMap p (List.length h) s1) :: R)
          by (repeat (rewrite <- app_assoc; cbn [app]); reflexivity).
        rewrite mset_mid. repeat (rewrite <- app_assoc; cbn [app]).
        assert (PR : forall X R, place_read (slot0 (List.length h)) (h ++ Some (OCell X) :: R)
           = (Ok X, h ++ Some (OCell X) :: R)).
        { intros X R'. unfold place_read, mbind. cbn [slot0 p_loc]. rewrite mget_mid. reflexivity. }
        rewrite PR. rewrite place_write_ok by apply pvalid_cell. rewrite wr_cell.
        rewrite place_write_ok by (apply pvalid_app, Hp). rewrite wr_app by exact Hp. reflexivity. }
      split; [apply Ns_cons, Ns_app; [exact HM|repeat constructor]|].
      split.
      { cbn [map_drop]. unfold mbind.
        assert (EL2 : (List.length A1 + 1 + List.length B1)%nat =
          List.length (wr p (Some (VBox (wrapv T v))) h ++ Some (OCell None) :: M)).
        { rewrite mid_len with (o := Some o), EL'. rewrite !app_length, wr_length by exact Hp. reflexivity. }
        rewrite EL2. rewrite mid_after, mget_mid.
        destruct q as [|q]; [lia|]. cbn [map_drop ret].
        rewrite <- mid_after.
        rewrite <- (wr_length p (Some (VBox (wrapv T v))) h Hp).
        rewrite mfree_mid. rewrite mid_after.
        replace (List.length (wr p (Some (VBox (wrapv T v))) h ++ Some (OCell None) :: M))
          with (List.length (wr p (Some (VBox (wrapv T v))) h ++ None :: M)) by (rewrite !app_length; reflexivity).
        rewrite mfree_mid. repeat (rewrite <- app_assoc; cbn [app]). reflexivity. }
      repeat (rewrite !app_length in *; cbn [List.length] in * ). rewrite wr_length by exact Hp. lia.
    + destruct IHT as [EF ED]. split; [|exact ED]. cbn [map_finish]. unfold mbind. rewrite GET, EF.
      rewrite mid_assoc. reflexivity.
  - (* Option *)
    specialize (IHT q _ _ R _ _ _ _ ltac:(lia) (pvalid_inner _ _ Hp) HL Ho Hout).
    destruct (fst (mp_fin o)) as [v|]; [|exact IHT].
    destruct IHT as (H1 & M & EF & HM & ED & EL). exists H1, M.
    rewrite wr_inner in ED, EL by exact Hp. cbn [embed wrapv] in *. auto.
Qed.

(** *** Visitor::map *)
Definition mp_init (T : ty) (p : place) : option obj :=
  match T with
  | TMap _ K t => Some (OMap K t p [] None None)
  | TValue => Some (OJObj true p [] None None)
  | TObject => Some (OJObj false p [] None None)
  | TNamed id =>
      match nth_error E id with
      | Some (DStruct fs) => Some (OStruct fs p (map (fun f => default_slot (snd f)) fs))
      | _ => None
      end
  | _ => None
  end.

Lemma vis_map_lay T q p h : (wraps T < q)%nat -> pvalid p h ->
  let '(A, p', B, s) := laym T p h in
  match mp_init (core T) p' with
  | Some o => vis_map E q T p h = (Ok s, A ++ Some o :: B)
  | None => exists hh M, vis_map E q T p h = (Err, hh ++ M) /\ touched p h hh /\ Ns M
  end.
Proof.
  revert q p h. induction T; intros q p h Hk Hp; cbn [lay core wraps mp_init] in *;
    (destruct q as [|q]; [lia|]); cbn [vis_map];
    try (exists h, []; rewrite app_nil_r; split; [reflexivity|split; [apply touched_refl|constructor]]);
    try reflexivity.
  - (* Box *) unfold mbind, malloc.
    specialize (IHT q _ _ ltac:(lia) (pvalid_cell h None [])).
    destruct (laym T _ _) as [[[A1 p1] B1] s1] eqn:E1.
    destruct (mp_init (core T) p1) as [o|].
    + rewrite IHT. unfold ret. rewrite <- mid_len. f_equal. rewrite <- app_assoc. reflexivity.
    + destruct IHT as (hh & M & -> & Ht & HM). apply touched_cell in Ht. destruct Ht as [y ->].
      exists h, (None :: M). rewrite <- app_assoc. cbn [app]. rewrite mfree_mid.
      split; [reflexivity|]. split; [apply touched_refl|apply Ns_cons, HM].
  - (* Option *) unfold mbind. rewrite place_write_ok by exact Hp.
    specialize (IHT q _ _ ltac:(lia) (pvalid_inner _ _ Hp)).
    destruct (laym T _ _) as [[[A1 p1] B1] s1] eqn:E1.
    destruct (mp_init (core T) p1) as [o|]; [exact IHT|].
    destruct IHT as (hh & M & EV & Ht & HM). exists hh, M. split; [exact EV|].
    split; [eapply touched_inner; eassumption|exact HM].
  - (* derived *) destruct (nth_error E id) as [[fs|vs]|];
      try (exists h, []; rewrite app_nil_r; split; [reflexivity|split; [apply touched_refl|constructor]]).
    reflexivity.
Qed.

Lemma mp_init_ok T p o : mp_init T p = Some o -> mp_ok o /\ obj_out o = p.
Proof.
  destruct T; try discriminate; cbn [mp_init]; try (intros [= <-]; cbn; repeat split; auto; fail).
  destruct (nth_error E id) as [[fs|]|]; try discriminate. intros [= <-].
  repeat split; auto; apply map_length.
Qed.
End Map.
