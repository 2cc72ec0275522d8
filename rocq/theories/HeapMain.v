(** The effect of deserializing an event tree into a place: exactly [de]. *)
From Coq Require Import String ZArith List Bool Lia Floats.SpecFloat.
From Verif Require Import Base Utf8 F64 Lexer Driver Grammar LexSpec Types Impls Tree DriverFacts Denote
  HeapFacts HeapSeq HeapMap.
Import ListNotations.
Open Scope Z_scope.

(** ** Running a builder without a heap *)
Section Run.
Variable rd : ptree -> ty -> option val.

Fixpoint sq_run (o : obj) (items : list ptree) : option val :=
  match items with
  | [] => fst (sq_fin o)
  | x :: items' =>
      match fst (sq_el o) with
      | Some (i, t) =>
          match rd x t with
          | Some v => sq_run (set_slot (snd (sq_el o)) i (Some v)) items'
          | None => None
          end
      | None => None
      end
  end.

Fixpoint mp_run (o : obj) (members : list (bytes * ptree)) : option val :=
  match members with
  | [] => fst (mp_fin o)
  | (k, x) :: members' =>
      match fst (mp_key o k) with
      | Some (Some (i, t)) =>
          match rd x t with
          | Some v => mp_run (set_slot (snd (mp_key o k)) i (Some v)) members'
          | None => None
          end
      | Some None => if complete x then mp_run (snd (mp_key o k)) members' else None
      | None => None
      end
  end.

Lemma sq_run_vec t p items vec e :
  sq_run (OVec t p vec e) items =
  option_map (fun l => VSeq (vec_shift vec e ++ l)) (mapM (fun x => rd x t) items).
Proof.
  revert vec e. induction items as [|x items IH]; intros vec e; cbn [sq_run sq_fin sq_el fst snd mapM option_map].
  - rewrite app_nil_r. reflexivity.
  - destruct (rd x t) as [v|]; [|reflexivity]. cbn [set_slot]. rewrite IH.
    destruct (mapM _ items); cbn; [|reflexivity]. rewrite <- app_assoc. reflexivity.
Qed.

Lemma read_all_map vs : read_all (map Some vs) = Some vs.
Proof. induction vs as [|v vs IH]; cbn; [reflexivity|]. rewrite IH. reflexivity. Qed.

Definition cnt {A} (e : option A) : nat := match e with Some _ => 1 | None => 0 end.

Lemma sq_run_arr t n p items : forall a vs e,
  List.length a = n -> (List.length vs <= n)%nat -> firstn (List.length vs) a = map Some vs ->
  sq_run (OArr t n p a (List.length vs) e) items =
  if Nat.eqb (List.length vs + cnt e + List.length items) n
  then option_map (fun l => VSeq (vec_shift vs e ++ l)) (mapM (fun x => rd x t) items)
  else None.
Proof.
  induction items as [|x items IH]; intros a vs e La Lv Hf; cbn [sq_run sq_fin sq_el fst snd mapM option_map].
  - assert (SH : arr_shift a (List.length vs) e =
       if Nat.ltb n (List.length vs + cnt e) then None
       else Some (match e with Some v => upd a (List.length vs) (Some v) | None => a end, (List.length vs + cnt e)%nat)).
    { unfold arr_shift. rewrite La. destruct e as [v|]; cbn [cnt].
      - rewrite Nat.add_1_r. destruct (Nat.ltb_spec (List.length vs) n), (Nat.ltb_spec n (S (List.length vs)));
          try lia; reflexivity.
      - rewrite Nat.add_0_r. destruct (Nat.ltb_spec n (List.length vs)); [lia|reflexivity]. }
    rewrite SH. cbn [List.length]. rewrite Nat.add_0_r.
    destruct (Nat.ltb_spec n (List.length vs + cnt e)).
    { destruct (Nat.eqb_spec (List.length vs + cnt e) n); [lia|reflexivity]. }
    destruct (Nat.ltb_spec (List.length vs + cnt e) n).
    { destruct (Nat.eqb_spec (List.length vs + cnt e) n); [lia|reflexivity]. }
    destruct (Nat.eqb_spec (List.length vs + cnt e) n) as [EQ|]; [|lia].
    rewrite app_nil_r.
    assert (ALL : match e with Some v => upd a (List.length vs) (Some v) | None => a end = map Some (vec_shift vs e)).
    { destruct e as [v|]; cbn [vec_shift cnt] in *.
      - rewrite <- (firstn_all (upd a (List.length vs) (Some v))). rewrite upd_length, La.
        replace n with (S (List.length vs)) by lia. rewrite firstn_upd by lia.
        rewrite Hf, map_app. reflexivity.
      - rewrite <- Hf. rewrite firstn_all2 by lia. reflexivity. }
    rewrite ALL, read_all_map. reflexivity.
  - unfold arr_shift. destruct e as [v|]; cbn [cnt vec_shift].
    + rewrite La. destruct (Nat.ltb_spec (List.length vs) n).
      * cbn [fst snd]. destruct (rd x t) as [y|].
        2: { destruct (Nat.eqb _ _); reflexivity. }
        cbn [set_slot].
        replace (S (List.length vs)) with (List.length (vs ++ [v])) by (rewrite app_length; cbn; lia).
        rewrite IH.
        { cbn [cnt vec_shift]. rewrite app_length. cbn [List.length].
          replace (List.length vs + 1 + 1 + List.length items)%nat
            with (List.length vs + 1 + S (List.length items))%nat by lia.
          destruct (Nat.eqb _ _); [|reflexivity].
          destruct (mapM _ items); cbn [option_map]; [|reflexivity]. rewrite <- app_assoc. reflexivity. }
        { rewrite upd_length. exact La. }
        { rewrite app_length. cbn. lia. }
        { rewrite app_length. cbn [List.length]. rewrite Nat.add_1_r, firstn_upd by lia.
          rewrite Hf, map_app. reflexivity. }
      * cbn [fst]. cbn [List.length]. destruct (Nat.eqb_spec (List.length vs + 1 + S (List.length items)) n); [lia|reflexivity].
    + cbn [fst snd]. destruct (rd x t) as [y|].
      2: { destruct (Nat.eqb _ _); reflexivity. }
      cbn [set_slot]. rewrite IH by assumption. cbn [cnt vec_shift List.length].
      replace (List.length vs + 1 + List.length items)%nat
        with (List.length vs + 0 + S (List.length items))%nat by lia.
      destruct (Nat.eqb _ _); [|reflexivity].
      destruct (mapM _ items); cbn [option_map]; [|reflexivity]. rewrite <- app_assoc. reflexivity.
Qed.

Hypothesis rd_json : forall x v, rd x TValue = Some v -> as_json v <> None.

Lemma sq_run_jarr iv p items a e : json_slot e ->
  sq_run (OJArr iv p a e) items =
  option_map (fun l => jarr_out iv (jarr_add a e ++ l)) (mapM (fun x => obind (rd x TValue) as_json) items).
Proof.
  revert a e. induction items as [|x items IH]; intros a e He; cbn [sq_run sq_fin sq_el fst snd mapM option_map].
  - rewrite app_nil_r. reflexivity.
  - destruct (rd x TValue) as [v|] eqn:EV; [|reflexivity]. cbn [set_slot obind].
    apply rd_json in EV. rewrite IH by exact EV.
    destruct v; cbn [as_json] in *; try congruence. cbn [jarr_add].
    destruct (mapM _ items); cbn [option_map]; [|reflexivity]. rewrite <- app_assoc. reflexivity.
Qed.

Lemma sq_run_init T p o : sq_init T p = Some o -> forall items, sq_run o items = de_seq rd T items.
Proof.
  destruct T; cbn [sq_init]; try discriminate; intros [= <-] items; cbn [de_seq].
  - (* pair *) destruct items as [|x [|y [|z items]]]; cbn [sq_run sq_el sq_fin fst snd set_slot]; try reflexivity.
    all: destruct (rd x T1); [|reflexivity]; try reflexivity; destruct (rd y T2); reflexivity.
  - rewrite sq_run_vec. reflexivity.
  - refine (eq_trans (sq_run_arr T n p items (repeat None n) [] None _ _ _) _); cbn [List.length]; try reflexivity; try lia.
    apply repeat_length.
  - rewrite sq_run_jarr by exact I. reflexivity.
  - rewrite sq_run_jarr by exact I. reflexivity.
Qed.

Lemma mp_run_map K t p members : forall m ko vo,
  mp_run (OMap K t p m ko vo) members =
  option_map (fun kvs => VMap (fold_left (fun m kv => minsert key_cmp (fst kv) (snd kv) m) kvs (map_shift m ko vo)))
    (mapM (fun m : bytes * ptree =>
             match key_from_str K (fst m), rd (snd m) t with
             | Some k, Some v => Some (k, v)
             | _, _ => None
             end) members).
Proof.
  induction members as [|[k x] members IH]; intros m ko vo; cbn [mp_run mp_fin mp_key mapM fst snd option_map fold_left].
  - reflexivity.
  - destruct (key_from_str K k) as [kv|]; [|reflexivity]. cbn [fst snd].
    destruct (rd x t) as [v|]; [|reflexivity]. cbn [set_slot]. rewrite IH.
    destruct (mapM _ members); reflexivity.
Qed.

Lemma mp_run_jobj iv p members : forall m ko vo, json_slot vo ->
  mp_run (OJObj iv p m ko vo) members =
  option_map (fun kvs => jobj_out iv (fold_left (fun m kv => minsert bytes_cmp (fst kv) (snd kv) m) kvs (jobj_add m ko vo)))
    (mapM (fun m : bytes * ptree =>
             option_map (fun j => (fst m, j)) (obind (rd (snd m) TValue) as_json)) members).
Proof.
  induction members as [|[k x] members IH]; intros m ko vo Hv; cbn [mp_run mp_fin mp_key mapM fst snd option_map fold_left].
  - reflexivity.
  - destruct (rd x TValue) as [v|] eqn:EV; [|reflexivity]. cbn [set_slot obind].
    apply rd_json in EV. rewrite IH by exact EV.
    destruct v; cbn [as_json] in *; try congruence. cbn [jobj_add option_map].
    destruct (mapM _ members); reflexivity.
Qed.

Lemma mp_run_struct fs p members : forall st,
  mp_run (OStruct fs p st) members =
  obind (de_fields rd fs members st) (fun st => option_map VStruct (read_all st)).
Proof.
  induction members as [|[k x] members IH]; intros st; cbn [mp_run mp_fin mp_key de_fields obind fst snd].
  - reflexivity.
  - destruct (find_name k (map fst fs) 0) as [i|].
    + destruct (nth_error fs i) as [[n t]|]; [|reflexivity]. cbn [fst snd].
      destruct (rd x t) as [v|]; [|reflexivity].
      replace (set_slot (OStruct fs p st) i (Some v)) with (OStruct fs p (upd st i (Some v))) by (destruct i; reflexivity).
      apply IH.
    + cbn [fst snd]. destruct (complete x); [apply IH|reflexivity].
Qed.

Lemma mp_run_init E T p o : mp_init E T p = Some o -> forall members, mp_run o members = de_map E rd T members.
Proof.
  destruct T; cbn [mp_init]; try discriminate.
  - intros [= <-] ms. rewrite mp_run_map. reflexivity.
  - intros [= <-] ms. rewrite mp_run_jobj by exact I. unfold de_map, de_jobj. destruct (mapM _ ms); reflexivity.
  - intros [= <-] ms. rewrite mp_run_jobj by exact I. unfold de_map, de_jobj. destruct (mapM _ ms); reflexivity.
  - cbn [de_map]. destruct (nth_error E id) as [[fs|]|]; try discriminate.
    intros [= <-] ms. apply mp_run_struct.
Qed.
End Run.

(** ** The walk over the heap *)
Section Main.
Variable E : env.
Variable k : nat.

Definition fits (T : ty) : Prop := (maxw T < k)%nat.
Hypothesis fitsE : forall id fs, nth_error E id = Some (DStruct fs) -> Forall (fun f => fits (snd f)) fs.
Hypothesis Hk : (0 < k)%nat.

Definition ofits (o : obj) : Prop :=
  match o with
  | OVec t _ _ _ | OArr t _ _ _ _ _ | OMap _ t _ _ _ _ => fits t
  | OTup a b _ _ _ => fits a /\ fits b
  | OStruct fs _ _ => Forall (fun f => fits (snd f)) fs
  | _ => True
  end.
Lemma ofits_set o i x : ofits (set_slot o i x) <-> ofits o.
Proof. destruct o, i as [|[|i]]; cbn; tauto. Qed.
Lemma ofits_el o : ofits o -> ofits (snd (sq_el o)).
Proof.
  destruct o; cbn [sq_el]; auto.
  - destruct (arr_shift array alen element) as [[]|]; auto.
  - destruct a, b; auto.
Qed.
Lemma ofits_key o key : ofits o -> ofits (snd (mp_key o key)).
Proof.
  destruct o; cbn [mp_key]; auto.
  - destruct (key_from_str k0 key); auto.
  - destruct (find_name key (map fst fs) 0) as [i|]; auto. destruct (nth_error fs i) as [[]|]; auto.
Qed.
Lemma fits_value : fits TValue. Proof. exact Hk. Qed.
Lemma fits_el o i t : ofits o -> fst (sq_el o) = Some (i, t) -> fits t.
Proof.
  destruct o; cbn [sq_el]; try discriminate.
  - intros H [= <- <-]. exact H.
  - destruct (arr_shift array alen element) as [[]|]; [|discriminate]. intros H [= <- <-]. exact H.
  - intros [H1 H2]. destruct a, b; try discriminate; intros [= <- <-]; assumption.
  - intros _ [= <- <-]. apply fits_value.
Qed.
Lemma fits_key o key i t : ofits o -> fst (mp_key o key) = Some (Some (i, t)) -> fits t.
Proof.
  destruct o; cbn [mp_key]; try discriminate.
  - destruct (key_from_str k0 key); [|discriminate]. intros H [= <- <-]. exact H.
  - intros _ [= <- <-]. apply fits_value.
  - intros H. destruct (find_name key (map fst fs) 0) as [j|]; [|discriminate].
    destruct (nth_error fs j) as [[n t']|] eqn:EN; [|discriminate]. intros [= <- <-].
    apply nth_error_In in EN. cbn [ofits] in H. rewrite Forall_forall in H. apply (H _ EN).
Qed.
Lemma fits_core T : fits T -> fits (core T).
Proof. unfold fits. pose proof (maxw_core T). lia. Qed.
Lemma fits_wraps T : fits T -> (wraps T < k)%nat.
Proof. unfold fits. pose proof (wraps_maxw T). lia. Qed.
Lemma ofits_sq_init T p o : fits T -> sq_init T p = Some o -> ofits o.
Proof.
  unfold fits. destruct T; cbn [sq_init]; try discriminate; intros H [= <-]; cbn [ofits maxw] in *; unfold fits; lia || auto.
Qed.
Lemma ofits_mp_init T p o : fits T -> mp_init E T p = Some o -> ofits o.
Proof.
  unfold fits. destruct T; cbn [mp_init]; try discriminate; try (intros H [= <-]; cbn [ofits maxw] in *; unfold fits; lia || auto; fail).
  intros _. destruct (nth_error E id) as [[fs|]|] eqn:EN; try discriminate. intros [= <-].
  apply (fitsE _ _ EN).
Qed.

(** *** Primitives *)
Lemma vis_prim_lay ev T : forall q p h, (wraps T < q)%nat -> pvalid p h ->
  match de_wrap (fun T => opt (leaf_prim E T ev)) (match ev with ENull => true | _ => false end) T with
  | Some v => exists M, vis_prim E q T p ev h = (Ok tt, wr p (Some v) h ++ M) /\ Ns M
  | None => exists hh M, vis_prim E q T p ev h = (Err, hh ++ M) /\ touched p h hh /\ Ns M
  end.
Proof.
  induction T; intros q p h Hq Hp; cbn [de_wrap wraps] in *; (destruct q as [|q]; [lia|]); cbn [vis_prim];
    try (match goal with |- context [leaf_prim E ?T ev] =>
           assert (NF : forall f, leaf_prim E T ev <> Fault f) end;
         [intros f; destruct ev; try discriminate; cbn;
          repeat match goal with |- context [if ?c then _ else _] => destruct c
                          | |- context [match ?c with _ => _ end] => destruct c end; discriminate|];
         destruct (leaf_prim E _ ev) as [v| |f]; [| |destruct (NF f eq_refl)]; cbn [opt];
         [exists []; rewrite app_nil_r; rewrite place_write_ok by exact Hp; split; [reflexivity|constructor]
         |exists h, []; rewrite app_nil_r; split; [reflexivity|split; [apply touched_refl|constructor]]]).
  - (* Box *) unfold mbind, malloc.
    specialize (IHT q _ _ ltac:(lia) (pvalid_cell h None [])).
    destruct (de_wrap _ _ T) as [v|]; cbn [option_map].
    + destruct IHT as (M & -> & HM). rewrite wr_cell. rewrite <- app_assoc. cbn [app].
      assert (PR : forall X R, place_read (slot0 (List.length h)) (h ++ Some (OCell X) :: R)
         = (Ok X, h ++ Some (OCell X) :: R)).
      { intros X R'. unfold place_read, mbind. cbn [slot0 p_loc]. rewrite mget_mid. reflexivity. }
      rewrite PR. rewrite mfree_mid. rewrite place_write_ok by (apply pvalid_app, Hp). rewrite wr_app by exact Hp.
      exists (None :: M). split; [reflexivity|apply Ns_cons, HM].
    + destruct IHT as (hh & M & -> & Ht & HM). apply touched_cell in Ht. destruct Ht as [y ->].
      rewrite <- app_assoc. cbn [app]. rewrite mfree_mid.
      exists h, (None :: M). split; [reflexivity|]. split; [apply touched_refl|apply Ns_cons, HM].
  - (* Option *)
    specialize (IHT q _ _ ltac:(lia) (pvalid_inner _ _ Hp)).
    destruct ev;
      try (unfold mbind; rewrite place_write_ok by exact Hp;
           destruct (de_wrap _ _ T) as [v|]; cbn [option_map];
           [destruct IHT as (M & -> & HM); rewrite wr_inner by exact Hp; exists M; split; [reflexivity|exact HM]
           |destruct IHT as (hh & M & -> & Ht & HM); exists hh, M; split; [reflexivity|];
            split; [eapply touched_inner; eassumption|exact HM]]).
    rewrite place_write_ok by exact Hp. exists []. rewrite app_nil_r. split; [reflexivity|constructor].
Qed.

Lemma de_json x : forall v, de E x TValue = Some v -> as_json v <> None.
Proof.
  intros v. destruct x as [|ev|l [|]|l [|]]; cbn [de de_wrap]; try discriminate.
  - destruct ev; cbn; try discriminate; intros [= <-]; discriminate.
  - cbn [de_seq]. destruct (mapM _ l); [|discriminate]. intros [= <-]. discriminate.
  - cbn [de_map]. destruct (de_jobj _ l); [|discriminate]. intros [= <-]. discriminate.
Qed.

Notation I := (heap_iface E k).

Definition good (t : ptree) : Prop := forall T p h, fits T -> pvalid p h ->
  match de E t T with
  | Some v => exists M, feed I t (VhPlace p T) h = (Ok tt, wr p (Some v) h ++ M) /\ Ns M
  | None => exists hh M, feed I t (VhPlace p T) h = (Err, hh ++ M) /\ touched p h hh /\ Ns M
  end.

Lemma ign_el h : s_element I BhIgnore h = (Ok VhIgnore, h).
Proof. cbn. destruct k; [lia|reflexivity]. Qed.
Lemma ign_key key h : m_key I BhIgnore key h = (Ok VhIgnore, h).
Proof. cbn. destruct k; [lia|reflexivity]. Qed.
Lemma ign_sdrop h : drop_err I (LSeq BhIgnore) h = (Err, h).
Proof. unfold drop_err. cbn. destruct k; [lia|reflexivity]. Qed.
Lemma ign_mdrop h : drop_err I (LMap BhIgnore) h = (Err, h).
Proof. unfold drop_err. cbn. destruct k; [lia|reflexivity]. Qed.
Lemma ign_sfin c h : finish_layer I (LSeq BhIgnore) c h = (if c then Ok tt else Err, h).
Proof. destruct c; [|apply ign_sdrop]. unfold finish_layer. cbn. destruct k; [lia|reflexivity]. Qed.
Lemma ign_mfin c h : finish_layer I (LMap BhIgnore) c h = (if c then Ok tt else Err, h).
Proof. destruct c; [|apply ign_mdrop]. unfold finish_layer. cbn. destruct k; [lia|reflexivity]. Qed.

Lemma feed_ignore t : forall h, feed I t VhIgnore h = (if complete t then Ok tt else Err, h).
Proof.
  induction t as [|ev|l c IH|l c IH] using ptree_ind'; intros h.
  - reflexivity.
  - destruct ev; reflexivity.
  - change (feed I (PSeq l c) VhIgnore h) with (feed_items I (feed I) BhIgnore l c h).
    cbn [complete].
    revert h. induction IH as [|x l Hx _ IHl]; intros h; cbn [feed_items forallb].
    + apply ign_sfin.
    + rewrite ign_el, Hx. destruct (complete x); cbn [andb]; [apply IHl|apply ign_sdrop].
  - change (feed I (PMap l c) VhIgnore h) with (feed_members I (feed I) BhIgnore l c h).
    cbn [complete].
    revert h. induction IH as [|[key x] l Hx _ IHl]; intros h; cbn [feed_members forallb].
    + apply ign_mfin.
    + rewrite ign_key. cbn [snd] in *. rewrite Hx. destruct (complete x); cbn [andb]; [apply IHl|apply ign_mdrop].
Qed.

Lemma items_ok T p h A p' B s : fits T -> pvalid p h -> lay OBoxSeq T p h = (A, p', B, s) ->
  forall items, Forall good items -> forall closed o R, sq_ok o -> obj_out o = p' -> ofits o -> Ns R ->
  match (if closed : bool then sq_run (de E) o items else None) with
  | Some v => exists M, feed_items I (feed I) s items closed (A ++ Some o :: B ++ R) =
                (Ok tt, wr p (Some (wrapv T v)) h ++ M) /\ Ns M
  | None => exists hh M, feed_items I (feed I) s items closed (A ++ Some o :: B ++ R) =
                (Err, hh ++ M) /\ touched p h hh /\ Ns M
  end.
Proof.
  intros HT Hp HL. pose proof (fits_wraps _ HT) as HW.
  assert (DROP : forall o R, sq_drop_ok o -> Ns R -> exists hh M,
     drop_err I (LSeq s) (A ++ Some o :: B ++ R) = (Err, hh ++ M) /\ touched p h hh /\ Ns M).
  { intros o R Ho HR. destruct (seq_drop_lay T k p h o R A p' B s HW Hp HL Ho) as (hh & M & Ht & HM & ED & _).
    exists hh, (M ++ R). unfold drop_err. cbn [drop_layer s_drop heap_iface]. rewrite ED.
    split; [reflexivity|]. split; [exact Ht|apply Ns_app; assumption]. }
  intros items HG. induction HG as [|x items Hx _ IH]; intros closed o R Ho Hout Hof HR.
  - cbn [feed_items sq_run]. unfold finish_layer. destruct closed; [|apply DROP; [apply Ho|exact HR]].
    cbn [s_finish heap_iface].
    pose proof (seq_finish_lay T k p h o R A p' B s HW Hp HL Ho Hout) as HF.
    destruct (fst (sq_fin o)) as [v|].
    + destruct HF as (H1 & M & EF & HM & ED & _). rewrite EF. cbn [drop_layer s_drop heap_iface]. rewrite ED.
      exists (M ++ R). split; [reflexivity|apply Ns_app; assumption].
    + destruct HF as [EF ED]. rewrite EF. apply DROP; assumption.
  - cbn [feed_items sq_run]. cbn [s_element heap_iface].
    rewrite (seq_element_lay T k p h o R A p' B s HW HL Ho).
    pose proof (sq_el_ok o Ho) as (Hok & Hout' & Hslot).
    destruct (fst (sq_el o)) as [[i t]|] eqn:EI.
    2: { destruct closed; apply DROP; solve [apply Hok|exact HR]. }
    destruct Hslot as [s0 Hs0].
    specialize (Hx t (mkplace (List.length A) i 0) (A ++ Some (snd (sq_el o)) :: B ++ R)
                   (fits_el _ _ _ Hof EI) (pvalid_mid _ _ _ _ _ Hs0)).
    destruct (de E x t) as [v|] eqn:EX.
    + destruct Hx as (M & -> & HM). rewrite (wr_mid _ _ _ _ _ _ Hs0).
      repeat (rewrite <- app_assoc; cbn [app]).
      apply IH.
      * apply (sq_set_ok' _ _ t); [exact Ho|exact EI|]. intros ->. eapply de_json, EX.
      * rewrite <- Hout, <- Hout'. apply sq_set_ok, Hok.
      * apply ofits_set, ofits_el, Hof.
      * apply Ns_app; assumption.
    + destruct Hx as (hh & M & -> & Ht & HM).
      apply touched_mid with (s := s0) in Ht; [|exact Hs0]. destruct Ht as [y ->].
      repeat (rewrite <- app_assoc; cbn [app]).
      destruct closed; (apply DROP; [apply sq_set_ok, Hok|apply Ns_app; assumption]).
Qed.

Lemma members_ok T p h A p' B s : fits T -> pvalid p h -> lay OBoxMap T p h = (A, p', B, s) ->
  forall members, Forall (fun m => good (snd m)) members -> forall closed o R, mp_ok o -> obj_out o = p' -> ofits o -> Ns R ->
  match (if closed : bool then mp_run (de E) o members else None) with
  | Some v => exists M, feed_members I (feed I) s members closed (A ++ Some o :: B ++ R) =
                (Ok tt, wr p (Some (wrapv T v)) h ++ M) /\ Ns M
  | None => exists hh M, feed_members I (feed I) s members closed (A ++ Some o :: B ++ R) =
                (Err, hh ++ M) /\ touched p h hh /\ Ns M
  end.
Proof.
  intros HT Hp HL. pose proof (fits_wraps _ HT) as HW.
  assert (DROP : forall o R, mp_drop_ok o -> Ns R -> exists hh M,
     drop_err I (LMap s) (A ++ Some o :: B ++ R) = (Err, hh ++ M) /\ touched p h hh /\ Ns M).
  { intros o R Ho HR. destruct (map_drop_lay T k p h o R A p' B s HW Hp HL Ho) as (hh & M & Ht & HM & ED & _).
    exists hh, (M ++ R). unfold drop_err. cbn [drop_layer m_drop heap_iface]. rewrite ED.
    split; [reflexivity|]. split; [exact Ht|apply Ns_app; assumption]. }
  intros members HG. induction HG as [|[key x] members Hx _ IH]; intros closed o R Ho Hout Hof HR.
  - cbn [feed_members mp_run]. unfold finish_layer. destruct closed; [|apply DROP; [apply Ho|exact HR]].
    cbn [m_finish heap_iface].
    pose proof (map_finish_lay T k p h o R A p' B s HW Hp HL Ho Hout) as HF.
    destruct (fst (mp_fin o)) as [v|].
    + destruct HF as (H1 & M & EF & HM & ED & _). rewrite EF. cbn [drop_layer m_drop heap_iface]. rewrite ED.
      exists (M ++ R). split; [reflexivity|apply Ns_app; assumption].
    + destruct HF as [EF ED]. rewrite EF. apply DROP; assumption.
  - cbn [feed_members mp_run]. cbn [m_key heap_iface].
    rewrite (map_key_lay key T k p h o R A p' B s HW HL Ho).
    pose proof (mp_key_ok o key Ho) as (Hok & Hout' & Hslot).
    destruct (fst (mp_key o key)) as [[[i t]|]|] eqn:EI.
    3: { destruct closed; apply DROP; solve [apply Hok|exact HR]. }
    2: { rewrite feed_ignore. destruct (complete x).
         - apply IH; [exact Hok|congruence|apply ofits_key, Hof|exact HR].
         - destruct closed; (apply DROP; [apply Hok|exact HR]). }
    destruct Hslot as [s0 Hs0].
    specialize (Hx t (mkplace (List.length A) i 0) (A ++ Some (snd (mp_key o key)) :: B ++ R)
                   (fits_key _ _ _ _ Hof EI) (pvalid_mid _ _ _ _ _ Hs0)).
    cbn [snd] in Hx.
    destruct (de E x t) as [v|] eqn:EX.
    + destruct Hx as (M & -> & HM). rewrite (wr_mid _ _ _ _ _ _ Hs0).
      repeat (rewrite <- app_assoc; cbn [app]).
      apply IH.
      * apply (mp_set_ok' _ _ _ t); [exact Ho|exact EI|]. intros ->. eapply de_json, EX.
      * rewrite <- Hout, <- Hout'. apply mp_set_ok, Hok.
      * apply ofits_set, ofits_key, Hof.
      * apply Ns_app; assumption.
    + destruct Hx as (hh & M & -> & Ht & HM).
      apply touched_mid with (s := s0) in Ht; [|exact Hs0]. destruct Ht as [y ->].
      repeat (rewrite <- app_assoc; cbn [app]).
      destruct closed; (apply DROP; [apply mp_set_ok, Hok|apply Ns_app; assumption]).
Qed.

Theorem feed_heap t : good t.
Proof.
  induction t as [|ev|l c IH|l c IH] using ptree_ind'; intros T p h HT Hp; cbn [de is_null].
  - rewrite de_wrap_nonnull. exists h, []. rewrite app_nil_r.
    split; [reflexivity|split; [apply touched_refl|constructor]].
  - pose proof (vis_prim_lay ev T k p h (fits_wraps _ HT) Hp) as HV.
    destruct ev; try exact HV.
    + rewrite de_wrap_nonnull. replace (leaf_prim E (core T) ESeqStart) with (@Err val).
      2: { destruct (core T); try reflexivity. destruct signed; reflexivity. }
      exists h, []. rewrite app_nil_r. split; [reflexivity|split; [apply touched_refl|constructor]].
    + rewrite de_wrap_nonnull. replace (leaf_prim E (core T) EMapStart) with (@Err val).
      2: { destruct (core T); try reflexivity. destruct signed; reflexivity. }
      exists h, []. rewrite app_nil_r. split; [reflexivity|split; [apply touched_refl|constructor]].
  - rewrite de_wrap_nonnull. cbn [feed v_seq heap_iface].
    pose proof (vis_seq_lay T k p h (fits_wraps _ HT) Hp) as HV.
    destruct (lay OBoxSeq T p h) as [[[A p'] B] s] eqn:EL.
    destruct (sq_init (core T) p') as [o|] eqn:EI.
    + destruct (sq_init_ok _ _ _ EI) as [Ho Hout]. rewrite HV.
      pose proof (items_ok T p h A p' B s HT Hp EL l IH c o [] Ho Hout
                    (ofits_sq_init _ _ _ (fits_core _ HT) EI) Ns_nil) as HI.
      rewrite app_nil_r in HI. rewrite (sq_run_init _ de_json _ _ _ EI) in HI.
      destruct c; [|exact HI]. destruct (de_seq (de E) (core T) l); exact HI.
    + destruct HV as (hh & M & -> & Ht & HM).
      assert (de_seq (de E) (core T) l = None) as -> by (destruct (core T); try discriminate; reflexivity).
      destruct c; (exists hh, M; auto).
  - rewrite de_wrap_nonnull. cbn [feed v_map heap_iface].
    pose proof (vis_map_lay E T k p h (fits_wraps _ HT) Hp) as HV.
    destruct (lay OBoxMap T p h) as [[[A p'] B] s] eqn:EL.
    destruct (mp_init E (core T) p') as [o|] eqn:EI.
    + destruct (mp_init_ok _ _ _ _ EI) as [Ho Hout]. rewrite HV.
      pose proof (members_ok T p h A p' B s HT Hp EL l IH c o [] Ho Hout
                    (ofits_mp_init _ _ _ (fits_core _ HT) EI) Ns_nil) as HI.
      rewrite app_nil_r in HI. rewrite (mp_run_init _ de_json _ _ _ _ EI) in HI.
      destruct c; [|exact HI]. destruct (de_map E (de E) (core T) l); exact HI.
    + destruct HV as (hh & M & -> & Ht & HM).
      assert (de_map E (de E) (core T) l = None) as ->.
      { destruct (core T); try discriminate; try reflexivity. cbn [mp_init de_map] in *.
        destruct (nth_error E id) as [[fs|]|]; [discriminate|reflexivity|reflexivity]. }
      destruct c; (exists hh, M; auto).
Qed.
End Main.
