(** Builders on the heap: wrapped builders, and the effect of their methods. *)
From Coq Require Import String ZArith List Bool Lia Floats.SpecFloat.
From Verif Require Import Base Utf8 F64 Lexer Driver Grammar LexSpec Types Impls Tree DriverFacts Denote HeapFacts.
Import ListNotations.
Open Scope Z_scope.

Fixpoint wraps (T : ty) : nat :=
  match T with TOption T' | TBox T' => S (wraps T') | _ => O end.
Fixpoint core (T : ty) : ty :=
  match T with TOption T' | TBox T' => core T' | _ => T end.
Fixpoint wrapv (T : ty) (v : val) : val :=
  match T with TOption T' => VSome (wrapv T' v) | TBox T' => VBox (wrapv T' v) | _ => v end.

Lemma de_wrap_nonnull f T : de_wrap f false T = option_map (wrapv T) (f (core T)).
Proof.
  induction T; cbn [de_wrap wrapv core];
    try (rewrite IHT; destruct (f (core T)); reflexivity);
    match goal with |- f ?x = _ => destruct (f x); reflexivity end.
Qed.

(** The largest number of nested wrappers in a type. *)
Fixpoint maxw (T : ty) : nat :=
  match T with
  | TOption T' | TBox T' => Nat.max (wraps T) (maxw T')
  | TPair a b => Nat.max (maxw a) (maxw b)
  | TVec t | TArr t _ | TMap _ _ t => maxw t
  | _ => O
  end.
Lemma wraps_maxw T : (wraps T <= maxw T)%nat.
Proof. destruct T; cbn [wraps maxw]; lia. Qed.
Lemma maxw_core T : (maxw (core T) <= maxw T)%nat.
Proof. induction T; cbn [core maxw]; lia. Qed.

(** ** Layout of a builder behind wrappers: the heap below the core object, the place
    it writes to, the heap above, the handle. *)
Fixpoint lay (bx : place -> nat -> bh -> obj) (T : ty) (p : place) (h : heap)
  : heap * place * heap * bh :=
  match T with
  | TOption T' => lay bx T' (inner_place p) (wr p (Some VNone) h)
  | TBox T' =>
      let '(A, p', B, s) := lay bx T' (slot0 (List.length h)) (h ++ [Some (OCell None)]) in
      (A, p', B ++ [Some (bx p (List.length h) s)], BhAt (List.length A + 1 + List.length B))
  | _ => (h, p, [], BhAt (List.length h))
  end.

Lemma mid_assoc {X} (A : list X) o B r R : A ++ o :: (B ++ [r]) ++ R = A ++ o :: B ++ (r :: R).
Proof. rewrite <- app_assoc. reflexivity. Qed.
Lemma mid_after {X} (A : list X) o B r R : A ++ o :: B ++ r :: R = (A ++ o :: B) ++ r :: R.
Proof. rewrite <- app_assoc. reflexivity. Qed.
Lemma mid_len {X} (A : list X) o B : (List.length A + 1 + List.length B)%nat = List.length (A ++ o :: B).
Proof. rewrite app_length. cbn. lia. Qed.

Lemma pvalid_cell h x R : pvalid (slot0 (List.length h)) (h ++ Some (OCell x) :: R).
Proof. apply pvalid_mid with (s := x). reflexivity. Qed.
Lemma wr_cell h x y R : wr (slot0 (List.length h)) y (h ++ Some (OCell x) :: R) = h ++ Some (OCell y) :: R.
Proof. unfold slot0. rewrite wr_mid with (s := x) by reflexivity. reflexivity. Qed.
Lemma touched_cell h x hh : touched (slot0 (List.length h)) (h ++ [Some (OCell x)]) hh ->
  exists y, hh = h ++ [Some (OCell y)].
Proof. intros H. apply touched_mid with (s := x) in H; [|reflexivity]. exact H. Qed.

Lemma lay_valid bx T p h : pvalid p h ->
  let '(A, p', B, s) := lay bx T p h in pvalid p' A.
Proof.
  revert p h. induction T; intros p h H; cbn [lay]; try exact H.
  - specialize (IHT (slot0 (List.length h)) (h ++ [Some (OCell None)]) (pvalid_cell _ _ _)).
    destruct (lay bx T _ _) as [[[A p'] B] s]. exact IHT.
  - apply IHT, pvalid_inner, H.
Qed.

(** A core method at the builder's address lifts through the boxes; used with the
    methods of Seq and Map below. *)
Section Seq.
Variable E : env.

(** *** The objects behind Box<dyn Seq> *)
Definition jarr_add (a : list jval) (e : option val) : list jval :=
  match e with Some (VJson j) => a ++ [j] | _ => a end.

Definition sq_el (o : obj) : option (nat * ty) * obj :=
  match o with
  | OVec t p vec e => (Some (O, t), OVec t p (vec_shift vec e) None)
  | OArr t n p a alen e =>
      match arr_shift a alen e with
      | None => (None, OArr t n p a alen None)
      | Some (a', alen') => (Some (O, t), OArr t n p a' alen' None)
      end
  | OTup ta tb p a b =>
      match a, b with
      | None, _ => (Some (O, ta), o)
      | Some _, None => (Some (1%nat, tb), o)
      | _, _ => (None, o)
      end
  | OJArr iv p a e => (Some (O, TValue), OJArr iv p (jarr_add a e) None)
  | _ => (None, o)
  end.

Definition sq_fin (o : obj) : option val * obj :=
  match o with
  | OVec t p vec e => (Some (VSeq (vec_shift vec e)), OVec t p [] None)
  | OArr t n p a alen e =>
      match arr_shift a alen e with
      | None => (None, OArr t n p a alen None)
      | Some (a', alen') =>
          if Nat.ltb alen' n then (None, OArr t n p a' alen' None)
          else match read_all a' with
               | Some vs => (Some (VSeq vs), OArr t n p (repeat None n) 0 None)
               | None => (None, o)
               end
      end
  | OTup ta tb p a b =>
      (match a, b with Some va, Some vb => Some (VPair va vb) | _, _ => None end,
       OTup ta tb p None None)
  | OJArr iv p a e => (Some (jarr_out iv (jarr_add a e)), OJArr iv p [] None)
  | _ => (None, o)
  end.

(** Objects that can be dropped, whatever their element slot holds. *)
Definition sq_drop_ok (o : obj) : Prop :=
  match o with
  | OVec _ _ _ _ | OTup _ _ _ _ _ | OJArr _ _ _ _ => True
  | OArr _ n _ a alen _ => List.length a = n /\ (alen <= n)%nat /\ all_init (firstn alen a) = true
  | _ => False
  end.
Definition obj_out (o : obj) : place :=
  match o with
  | OVec _ p _ _ | OArr _ _ p _ _ _ | OTup _ _ p _ _ | OMap _ _ p _ _ _ | OJArr _ p _ _
  | OJObj _ p _ _ _ | OStruct _ p _ | OBoxSeq p _ _ | OBoxMap p _ _ => p
  | OCell _ => slot0 0
  end.
Definition json_slot (e : option val) : Prop :=
  match e with None => True | Some v => as_json v <> None end.
Definition sq_ok (o : obj) : Prop :=
  sq_drop_ok o /\ match o with OJArr _ _ _ e => json_slot e | _ => True end.

Lemma all_init_app a b : all_init (a ++ b) = all_init a && all_init b.
Proof. induction a as [|[x|] a IH]; cbn; auto. Qed.
Lemma firstn_upd {A} (l : list A) i a : (i < List.length l)%nat -> firstn (S i) (upd l i a) = firstn i l ++ [a].
Proof.
  revert i. induction l as [|x l IH]; intros [|i] H; cbn in *; try lia; [reflexivity|].
  rewrite <- IH by lia. reflexivity.
Qed.
Lemma all_init_repeat n : all_init (firstn 0 (repeat None n)) = true.
Proof. reflexivity. Qed.
Lemma all_init_read l : all_init l = true -> exists vs, read_all l = Some vs.
Proof.
  induction l as [|[x|] l IH]; cbn; [eauto| |discriminate].
  intros H. destruct (IH H) as [vs ->]. cbn. eauto.
Qed.

Lemma arr_shift_ok n a alen e a' alen' :
  List.length a = n -> (alen <= n)%nat -> all_init (firstn alen a) = true ->
  arr_shift a alen e = Some (a', alen') ->
  List.length a' = n /\ (alen' <= n)%nat /\ all_init (firstn alen' a') = true.
Proof.
  intros H1 H2 H3. unfold arr_shift. destruct e as [v|].
  - destruct (Nat.ltb_spec alen (List.length a)); [|discriminate]. intros [= <- <-].
    rewrite upd_length. split; [exact H1|]. split; [lia|].
    rewrite firstn_upd by assumption. rewrite all_init_app, H3. reflexivity.
  - intros [= <- <-]. auto.
Qed.

Lemma sq_el_ok o : sq_ok o -> sq_ok (snd (sq_el o)) /\ obj_out (snd (sq_el o)) = obj_out o /\
  match fst (sq_el o) with
  | Some (i, t) => exists s, get_slot (snd (sq_el o)) i = Some s
  | None => True
  end.
Proof.
  intros [H1 H2]. destruct o; try destruct H1; cbn [sq_el].
  - (* vec *) repeat split. cbn. eauto.
  - (* arr *) destruct (arr_shift array alen element) as [[a' alen']|] eqn:ES.
    + eapply arr_shift_ok in ES; [|eassumption|apply H0|apply H0].
      cbn. repeat split; try apply ES. eauto.
    + cbn. repeat split; try apply H0. assumption.
  - (* tup *) destruct a, b; cbn; repeat split; eauto.
  - (* json array *) cbn. repeat split; eauto.
Qed.

Lemma sq_set_ok o i x : sq_drop_ok o -> sq_drop_ok (set_slot o i x) /\ obj_out (set_slot o i x) = obj_out o.
Proof.
  intros H. destruct o; try destruct H; destruct i as [|[|i]]; cbn; auto.
Qed.
Lemma sq_set_ok' o i t v : sq_ok o -> fst (sq_el o) = Some (i, t) -> (t = TValue -> as_json v <> None) ->
  sq_ok (set_slot (snd (sq_el o)) i (Some v)).
Proof.
  intros H Hi Hv. pose proof (sq_el_ok o H) as (H1 & _ & _).
  split; [apply sq_set_ok, H1|].
  destruct o; cbn [sq_el] in *; try destruct H as [[] _].
  - injection Hi as <- <-. exact I.
  - destruct (arr_shift array alen element) as [[a' alen']|]; [|discriminate]. injection Hi as <- <-. exact I.
  - destruct a, b; try discriminate; injection Hi as <- <-; exact I.
  - injection Hi as <- <-. cbn. apply Hv. reflexivity.
Qed.

(** *** The methods at the core object *)
Lemma jarr_shift_ok a e : json_slot e -> jarr_shift a e = Ok (jarr_add a e).
Proof. destruct e as [[]|]; cbn; try reflexivity; congruence. Qed.

Lemma seq_element_core k A o R : sq_ok o -> (0 < k)%nat ->
  seq_element k (BhAt (List.length A)) (A ++ Some o :: R) =
  (match fst (sq_el o) with
   | Some (i, t) => Ok (VhPlace (mkplace (List.length A) i 0) t)
   | None => Err
   end, A ++ Some (snd (sq_el o)) :: R).
Proof.
  intros [H1 H2] Hk. destruct k as [|k]; [lia|]. cbn [seq_element].
  unfold mbind. rewrite mget_mid. destruct o; try destruct H1; cbn [sq_el].
  - rewrite mset_mid. reflexivity.
  - destruct (arr_shift array alen element) as [[a' alen']|]; rewrite mset_mid; reflexivity.
  - destruct a, b; reflexivity.
  - unfold lift. rewrite jarr_shift_ok by exact H2. rewrite mset_mid. reflexivity.
Qed.

Lemma seq_drop_core k A o R : sq_drop_ok o -> (0 < k)%nat ->
  seq_drop k (BhAt (List.length A)) (A ++ Some o :: R) = (Ok tt, A ++ None :: R).
Proof.
  intros H Hk. destruct k as [|k]; [lia|]. cbn [seq_drop].
  unfold mbind. rewrite mget_mid. destruct o; try destruct H; try apply mfree_mid.
  unfold lift, slice. cbn [Nat.leb]. rewrite (proj2 (Nat.leb_le _ _)) by lia.
  cbn [skipn]. rewrite Nat.sub_0_r. cbn [andb]. destruct H0 as [_ H0]. rewrite H0. apply mfree_mid.
Qed.

Lemma set_wr_comm p x A o o' R : pvalid p A ->
  place_write p x (A ++ Some o :: R) = (Ok tt, wr p x A ++ Some o :: R) /\
  mset (List.length A) o' (wr p x A ++ Some o :: R) = (Ok tt, wr p x A ++ Some o' :: R).
Proof.
  intros H. split.
  - rewrite place_write_ok by (apply pvalid_app, H). rewrite wr_app by exact H. reflexivity.
  - rewrite <- (wr_length p x A H). apply mset_mid.
Qed.

Lemma seq_finish_core k A o R : sq_ok o -> (0 < k)%nat -> pvalid (obj_out o) A ->
  seq_finish k (BhAt (List.length A)) (A ++ Some o :: R) =
  match fst (sq_fin o) with
  | Some v => (Ok tt, wr (obj_out o) (Some v) A ++ Some (snd (sq_fin o)) :: R)
  | None => (Err, A ++ Some (snd (sq_fin o)) :: R)
  end /\ sq_drop_ok (snd (sq_fin o)).
Proof.
  intros [H1 H2] Hk Hp. destruct k as [|k]; [lia|]. cbn [seq_finish].
  unfold mbind. rewrite mget_mid. destruct o; try destruct H1; cbn [sq_fin obj_out] in *.
  - rewrite mset_mid. cbn [fst snd sq_drop_ok].
    rewrite (proj1 (set_wr_comm _ _ _ _ (OVec t out [] None) _ Hp)). auto.
  - destruct (arr_shift array alen element) as [[a' alen']|] eqn:ES.
    + eapply arr_shift_ok in ES; [|eassumption|apply H0|apply H0]. destruct ES as (L1 & L2 & L3).
      rewrite mset_mid. destruct (Nat.ltb_spec alen' n).
      { cbn. auto. }
      assert (alen' = n) by lia. subst alen'.
      rewrite <- L1, firstn_all in L3.
      destruct (all_init_read _ L3) as [vs Hvs]. rewrite Hvs.
      rewrite (proj1 (set_wr_comm _ _ _ _ (OVec t out [] None) _ Hp)).
      rewrite (proj1 (set_wr_comm _ _ (wr out None A) _ (OVec t out [] None) _ (pvalid_wr _ _ _ Hp))).
      rewrite wr_wr by exact Hp.
      rewrite (proj2 (set_wr_comm _ (Some (VSeq vs)) A _ _ _ Hp)). cbn [fst snd sq_drop_ok].
      split; [reflexivity|]. rewrite repeat_length. split; [reflexivity|]. split; [lia|reflexivity].
    + rewrite mset_mid. cbn. auto.
  - rewrite mset_mid. destruct a, b; cbn [fst snd sq_drop_ok]; try (split; [reflexivity|exact I]).
    rewrite (proj1 (set_wr_comm _ _ _ _ (OTup ta tb out None None) _ Hp)). auto.
  - unfold lift. rewrite jarr_shift_ok by exact H2. rewrite mset_mid. cbn [fst snd sq_drop_ok].
    rewrite (proj1 (set_wr_comm _ _ _ _ (OJArr isval out [] None) _ Hp)). auto.
Qed.

(** *** The methods behind wrappers *)
Notation lays := (lay OBoxSeq).

Lemma seq_element_lay T q p h o R A p' B s : (wraps T < q)%nat -> lays T p h = (A, p', B, s) ->
  sq_ok o ->
  seq_element q s (A ++ Some o :: B ++ R) =
  (match fst (sq_el o) with
   | Some (i, t) => Ok (VhPlace (mkplace (List.length A) i 0) t)
   | None => Err
   end, A ++ Some (snd (sq_el o)) :: B ++ R).
Proof.
  revert q p h R A p' B s. induction T; intros q p h R A p' B s Hk HL Ho; cbn [lay wraps] in *;
    try (injection HL as <- <- <- <-; apply (seq_element_core q h o R Ho); lia).
  - destruct (lays T _ _) as [[[A1 p1] B1] s1] eqn:E1. injection HL as <- <- <- <-.
    destruct q as [|q]; [lia|]. cbn [seq_element]. unfold mbind.
    rewrite mid_assoc, mid_after, mid_len with (o := Some o).
    rewrite mget_mid. rewrite <- mid_after.
    rewrite (IHT q _ _ _ _ _ _ _ ltac:(lia) E1 Ho). rewrite mid_assoc. reflexivity.
  - eapply IHT; [lia|exact HL|exact Ho].
Qed.

Lemma seq_drop_lay T q p h o R A p' B s : (wraps T < q)%nat -> pvalid p h ->
  lays T p h = (A, p', B, s) -> sq_drop_ok o ->
  exists hh M, touched p h hh /\ Ns M /\
    seq_drop q s (A ++ Some o :: B ++ R) = (Ok tt, hh ++ M ++ R) /\
    List.length (hh ++ M) = List.length (A ++ Some o :: B).
Proof.
  revert q p h R A p' B s. induction T; intros q p h R A p' B s Hk Hp HL Ho; cbn [lay wraps] in *;
    try (injection HL as <- <- <- <-; exists h, [None]; split; [apply touched_refl|]; split;
         [repeat constructor|]; split; [apply (seq_drop_core q h o R Ho); lia|rewrite !app_length; reflexivity]).
  - destruct (lays T _ _) as [[[A1 p1] B1] s1] eqn:E1. injection HL as <- <- <- <-.
    destruct q as [|q]; [lia|]. cbn [seq_drop]. unfold mbind.
    rewrite mid_assoc, mid_after, mid_len with (o := Some o).
    rewrite mget_mid. rewrite <- mid_after.
    destruct (IHT q _ _ (Some (OBoxSeq p (List.length h) s1) :: R) _ _ _ _ ltac:(lia) (pvalid_cell _ _ _) E1 Ho)
      as (hh & M & Ht & HM & ED & EL).
    rewrite ED. apply touched_cell in Ht. destruct Ht as [y ->].
    rewrite <- app_assoc. cbn [app].
    rewrite mfree_mid.
    rewrite <- EL.
    replace (h ++ None :: M ++ Some (OBoxSeq p (List.length h) s1) :: R)
      with ((h ++ None :: M) ++ Some (OBoxSeq p (List.length h) s1) :: R) by (rewrite <- app_assoc; reflexivity).
    replace (List.length ((h ++ [Some (OCell y)]) ++ M)) with (List.length (h ++ None :: M))
      by (rewrite !app_length; cbn; lia).
    rewrite mfree_mid.
    exists h, (None :: M ++ [None]). split; [apply touched_refl|].
    split; [apply Ns_cons, Ns_app; [exact HM|repeat constructor]|].
    split; [cbn [app]; repeat rewrite <- app_assoc; reflexivity|].
    repeat (rewrite !app_length in *; cbn [List.length] in * ). lia.
  - destruct (IHT q _ _ R _ _ _ _ ltac:(lia) (pvalid_inner _ _ Hp) HL Ho) as (hh & M & Ht & HM & ED & EL).
    exists hh, M. split; [eapply touched_inner; eassumption|]. auto.
Qed.

Lemma lay_out T p h A p' B s : lays T p h = (A, p', B, s) -> pvalid p h -> pvalid p' A.
Proof. intros HL Hp. pose proof (lay_valid OBoxSeq T p h Hp) as K. rewrite HL in K. exact K. Qed.

Lemma seq_finish_lay T q p h o R A p' B s : (wraps T < q)%nat -> pvalid p h ->
  lays T p h = (A, p', B, s) -> sq_ok o -> obj_out o = p' ->
  match fst (sq_fin o) with
  | Some v =>
      exists H1 M, seq_finish q s (A ++ Some o :: B ++ R) = (Ok tt, H1) /\ Ns M /\
        seq_drop q s H1 = (Ok tt, wr p (Some (wrapv T v)) h ++ M ++ R) /\
        List.length (wr p (Some (wrapv T v)) h ++ M) = List.length (A ++ Some o :: B)
  | None =>
      seq_finish q s (A ++ Some o :: B ++ R) = (Err, A ++ Some (snd (sq_fin o)) :: B ++ R) /\
      sq_drop_ok (snd (sq_fin o))
  end.
Proof.
  revert q p h R A p' B s. induction T; intros q p h R A p' B s Hk Hp HL Ho Hout; cbn [lay wraps] in *;
    try (injection HL as <- <- <- <-; cbn [app];
         destruct (seq_finish_core q h o R Ho ltac:(lia)) as [EF ED]; [rewrite Hout; exact Hp|];
         destruct (fst (sq_fin o)) as [v|]; [|split; assumption];
         rewrite Hout in EF; cbn [wrapv];
         exists (wr p (Some v) h ++ Some (snd (sq_fin o)) :: R), [None];
         split; [exact EF|]; split; [repeat constructor|];
         rewrite <- (wr_length p (Some v) h Hp);
         split; [apply seq_drop_core; [exact ED|lia]|rewrite !app_length, ?wr_length by (assumption || apply pvalid_wr, Hp); reflexivity]).
  - (* Box *)
    destruct (lays T _ _) as [[[A1 p1] B1] s1] eqn:E1. injection HL as <- <- <- <-.
    destruct q as [|q]; [lia|].
    assert (GET : mget (List.length A1 + 1 + List.length B1)
       (A1 ++ Some o :: (B1 ++ [Some (OBoxSeq p (List.length h) s1)]) ++ R) =
       (Ok (OBoxSeq p (List.length h) s1), A1 ++ Some o :: B1 ++ (Some (OBoxSeq p (List.length h) s1) :: R))).
    { rewrite mid_assoc, mid_after, mid_len with (o := Some o). rewrite mget_mid. reflexivity. }
    specialize (IHT q _ _ (Some (OBoxSeq p (List.length h) s1) :: R) _ _ _ _ ltac:(lia)
                  (pvalid_cell _ _ _) E1 Ho Hout).
    destruct (fst (sq_fin o)) as [v|].
    + destruct IHT as (H1 & M & EF & HM & ED & EL). cbn [wrapv].
      exists (wr p (Some (VBox (wrapv T v))) h ++ Some (OCell None) :: M ++ Some (OBoxSeq p (List.length h) BhIgnore) :: R).
      exists (None :: M ++ [None]).
      rewrite wr_cell in ED, EL.
      assert (EL' : List.length (A1 ++ Some o :: B1) = List.length (h ++ Some (OCell (Some (wrapv T v))) :: M)).
      { rewrite <- EL. rewrite !app_length. cbn [List.length]. lia. }
      split.
      { cbn [seq_finish]. unfold mbind. rewrite GET. rewrite EF, ED.
        rewrite mid_len with (o := Some o), EL'.
        replace ((h ++ [Some (OCell (Some (wrapv T v)))]) ++ M ++ Some (OBoxSeq p (List.length h) s1) :: R)
          with ((h ++ Some (OCell (Some (wrapv T v))) :: M) ++ Some (OBoxSeq p (List.length h) s1) :: R)
          by (repeat (rewrite <- app_assoc; cbn [app]); reflexivity).
        rewrite mset_mid. repeat (rewrite <- app_assoc; cbn [app]).
        assert (PR : forall X R, place_read (slot0 (List.length h)) (h ++ Some (OCell X) :: R)
           = (Ok X, h ++ Some (OCell X) :: R)).
        { intros X R'. unfold place_read, mbind. cbn [slot0 p_loc]. rewrite mget_mid. reflexivity. }
        rewrite PR. rewrite place_write_ok by apply pvalid_cell. rewrite wr_cell.
        rewrite place_write_ok by (apply pvalid_app, Hp). rewrite wr_app by exact Hp. reflexivity. }
      split; [apply Ns_cons, Ns_app; [exact HM|repeat constructor]|].
      split.
      { cbn [seq_drop]. unfold mbind.
        assert (EL2 : (List.length A1 + 1 + List.length B1)%nat =
          List.length (wr p (Some (VBox (wrapv T v))) h ++ Some (OCell None) :: M)).
        { rewrite mid_len with (o := Some o), EL'. rewrite !app_length, wr_length by exact Hp. reflexivity. }
        rewrite EL2. rewrite mid_after, mget_mid.
        destruct q as [|q]; [lia|]. cbn [seq_drop ret].
        rewrite <- mid_after.
        rewrite <- (wr_length p (Some (VBox (wrapv T v))) h Hp).
        rewrite mfree_mid. rewrite mid_after.
        replace (List.length (wr p (Some (VBox (wrapv T v))) h ++ Some (OCell None) :: M))
          with (List.length (wr p (Some (VBox (wrapv T v))) h ++ None :: M)) by (rewrite !app_length; reflexivity).
        rewrite mfree_mid. repeat (rewrite <- app_assoc; cbn [app]). reflexivity. }
      repeat (rewrite !app_length in *; cbn [List.length] in * ). rewrite wr_length by exact Hp. lia.
    + destruct IHT as [EF ED]. split; [|exact ED]. cbn [seq_finish]. unfold mbind. rewrite GET, EF.
      rewrite mid_assoc. reflexivity.
  - (* Option *)
    specialize (IHT q _ _ R _ _ _ _ ltac:(lia) (pvalid_inner _ _ Hp) HL Ho Hout).
    destruct (fst (sq_fin o)) as [v|]; [|exact IHT].
    destruct IHT as (H1 & M & EF & HM & ED & EL). exists H1, M.
    rewrite wr_inner in ED, EL by exact Hp. cbn [embed wrapv] in *. auto.
Qed.

(** *** Visitor::seq *)
Definition sq_init (T : ty) (p : place) : option obj :=
  match T with
  | TPair a b => Some (OTup a b p None None)
  | TVec t => Some (OVec t p [] None)
  | TArr t n => Some (OArr t n p (repeat None n) 0 None)
  | TValue => Some (OJArr true p [] None)
  | TArray => Some (OJArr false p [] None)
  | _ => None
  end.

Lemma vis_seq_lay T q p h : (wraps T < q)%nat -> pvalid p h ->
  let '(A, p', B, s) := lays T p h in
  match sq_init (core T) p' with
  | Some o => vis_seq q T p h = (Ok s, A ++ Some o :: B)
  | None => exists hh M, vis_seq q T p h = (Err, hh ++ M) /\ touched p h hh /\ Ns M
  end.
Proof.
  revert q p h. induction T; intros q p h Hk Hp; cbn [lay core wraps sq_init] in *;
    (destruct q as [|q]; [lia|]); cbn [vis_seq];
    try (exists h, []; rewrite app_nil_r; split; [reflexivity|split; [apply touched_refl|constructor]]);
    try reflexivity.
  - (* Box *) unfold mbind, malloc.
    specialize (IHT q _ _ ltac:(lia) (pvalid_cell h None [])).
    destruct (lays T _ _) as [[[A1 p1] B1] s1] eqn:E1.
    destruct (sq_init (core T) p1) as [o|].
    + rewrite IHT. unfold ret. rewrite <- mid_len. f_equal. rewrite <- app_assoc. reflexivity.
    + destruct IHT as (hh & M & -> & Ht & HM). apply touched_cell in Ht. destruct Ht as [y ->].
      exists h, (None :: M). rewrite <- app_assoc. cbn [app]. rewrite mfree_mid.
      split; [reflexivity|]. split; [apply touched_refl|apply Ns_cons, HM].
  - (* Option *) unfold mbind. rewrite place_write_ok by exact Hp.
    specialize (IHT q _ _ ltac:(lia) (pvalid_inner _ _ Hp)).
    destruct (lays T _ _) as [[[A1 p1] B1] s1] eqn:E1.
    destruct (sq_init (core T) p1) as [o|]; [exact IHT|].
    destruct IHT as (hh & M & EV & Ht & HM). exists hh, M. split; [exact EV|].
    split; [eapply touched_inner; eassumption|exact HM].
Qed.

Lemma sq_init_ok T p o : sq_init T p = Some o -> sq_ok o /\ obj_out o = p.
Proof.
  destruct T; try discriminate; intros [= <-]; cbn; repeat split; rewrite ?repeat_length; try lia; auto.
Qed.
End Seq.
