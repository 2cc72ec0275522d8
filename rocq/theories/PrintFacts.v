(** Trees and values that print the same text (C69). *)
From Coq Require Import String ZArith List Bool Lia Reals Permutation Sorted Floats.SpecFloat.
From Flocq Require Import Core.Core IEEE754.BinarySingleNaN.
From Verif Require Import Base Utf8 Utf8Facts F64 Lexer Grammar LexSpec Types Ser Reading MapFacts TypedFacts NumValue DocSpec SerSpec SerFacts RenderFacts WriteFacts FloatOps FloatParts NumFacts FloatRT Unambiguous RoundTrip OrderFacts ClaimsWrite PrintSpec.
Import ListNotations.
Open Scope Z_scope.

Lemma Forall2_len {A B} (R : A -> B -> Prop) l l' : Forall2 R l l' -> List.length l = List.length l'.
Proof. induction 1; cbn; congruence. Qed.
Lemma f64_ext f g : f64_ok f = true -> f64_ok g = true -> f_is_finite f = true -> f_is_finite g = true -> sign_SF f = sign_SF g -> freal f = freal g -> f = g.
Proof.
  intros V W F G S R. apply (float_inj 53 1024 prec53 emax1024); try assumption; try (destruct f; try discriminate; reflexivity); try (destruct g; try discriminate; reflexivity).
Qed.

(** Two trees that denote one document. *)
Lemma denotes_alike t : forall u d, stree_ok t = true -> stree_ok u = true -> Denotes t d -> Denotes u d -> TAlike t u.
Proof.
  induction t as [|b|s|n|n|f|l IH|l IH] using stree_ind'; intros u d Ht Hu A B; inversion A; subst; inversion B; subst;
    try (exfalso; eauto; fail); try (constructor; assumption); try (constructor; fail).
  all: try (match goal with H : is_int_lit ?n, K : ~ is_int_lit ?n |- _ => destruct (K H) end).
  - replace (STF64 f0) with (STF64 f); [constructor|]. f_equal. apply f64_ext; cbn [stree_ok] in *; congruence.
  - constructor. cbn [stree_ok] in *. clear A B.
    match goal with HX : Forall2 Denotes l ?ds, HY : Forall2 Denotes _ ?ds |- _ => revert HX HY Hu end.
    match goal with |- _ -> Forall2 Denotes ?x ?y -> _ => generalize x as l1; generalize y as ds1 end.
    induction IH as [|t l P PF IHl]; intros ds2 l2 HX HY Hu; inversion HX; subst; inversion HY; subst; constructor.
    + cbn [forallb] in *. apply andb_true_iff in Ht, Hu. eapply P; try eassumption; tauto.
    + cbn [forallb] in *. apply andb_true_iff in Ht, Hu. eapply IHl; try eassumption; tauto.
  - constructor. cbn [stree_ok] in *. clear A B.
    match goal with HX : Forall2 _ l ?ds, HY : Forall2 _ _ ?ds |- _ => revert HX HY Hu end.
    match goal with |- _ -> Forall2 _ ?x ?y -> _ => generalize x as l1; generalize y as ds1 end.
    induction IH as [|t l P PF IHl]; intros ds2 l2 HX HY Hu; inversion HX as [|? ? ? ? [X1 X2]]; subst; inversion HY as [|? ? ? ? [Y1 Y2]]; subst; constructor.
    + cbn [forallb] in *. apply andb_true_iff in Ht, Hu. destruct Ht as [Ht _], Hu as [Hu _]. apply andb_true_iff in Ht, Hu. split; [congruence|]. eapply P; try eassumption; tauto.
    + cbn [forallb] in *. apply andb_true_iff in Ht, Hu. eapply IHl; try eassumption; tauto.
Qed.
Lemma alike_render ryu t : forall u, TAlike t u -> render itoa ryu t = render itoa ryu u.
Proof.
  induction t as [|b|s|n|n|f|l IH|l IH] using stree_ind'; intros u A; inversion A; subst; try reflexivity; cbn [render].
  - match goal with H : f_is_finite _ = false |- _ => rewrite H end. reflexivity.
  - repeat match goal with H : f_is_finite _ = false |- _ => rewrite H end. reflexivity.
  - match goal with H : f_is_finite _ = false |- _ => rewrite H end. reflexivity.
  - do 3 f_equal. inversion A; subst. match goal with H : Forall2 TAlike l _ |- _ => clear A; induction H; inversion IH; subst; cbn [map]; f_equal; auto end.
  - do 3 f_equal. match goal with H : Forall2 _ l _ |- _ => clear A; induction H as [|x y l l' [E1 E2] HF IHF]; inversion IH; subst; cbn [map]; f_equal; auto end.
    rewrite E1. do 2 f_equal. auto.
Qed.
Theorem render_alike ryu t u : ryu_ok ryu -> stree_ok t = true -> stree_ok u = true ->
  render itoa ryu t = render itoa ryu u <-> TAlike t u.
Proof.
  intros HR Ht Hu. split; [|apply alike_render]. intros E.
  destruct (render_jtext ryu HR t Ht) as (d & D1 & D2). destruct (render_jtext ryu HR u Hu) as (d' & D1' & D2').
  rewrite <- E in D2'. rewrite (JText_unique _ _ _ D2' D2) in D1'. eapply denotes_alike; eassumption.
Qed.

(** ** json::Value *)
Lemma jtree_alike j : forall j', JAlike j j' -> TAlike (jtree j) (jtree j').
Proof.
  induction j as [|b|n|s|l IH|l IH] using jval_ind'; intros j' A; inversion A; subst; cbn [jtree]; try (constructor; assumption).
  - destruct n; constructor.
  - constructor. clear A. match goal with H : Forall2 _ l _ |- _ => induction H; inversion IH; subst; cbn [map]; constructor; auto end.
  - constructor. clear A. match goal with H : Forall2 _ l _ |- _ => induction H as [|x y l l' [E1 E2] HF IHF]; inversion IH; subst; cbn [map]; constructor; [split; [exact E1|]|]; cbn [snd]; auto end.
Qed.
Lemma alike_jtree j : forall j', TAlike (jtree j) (jtree j') -> JAlike j j'.
Proof.
  induction j as [|b|n|s|l IH|l IH] using jval_ind'; intros j' A; destruct j' as [|b'|n'|s'|l'|l']; try destruct n; try destruct n'; cbn [jtree] in A; inversion A; subst;
    try (constructor; assumption).
  - constructor. clear A. match goal with H : Forall2 _ _ _ |- _ => revert H end. revert l'.
    induction IH as [|j l P PF IHl]; intros [|j' l'] H; inversion H; subst; constructor; auto.
  - constructor. clear A. match goal with H : Forall2 _ _ _ |- _ => revert H end. revert l'.
    induction IH as [|j l P PF IHl]; intros [|j' l'] H; inversion H as [|? ? ? ? [E1 E2]]; subst; constructor; auto.
Qed.

(** ** Values of one type *)
Lemma jnull_tree j : TAlike STNull (jtree j) -> prints_null (VJson j) = true.
Proof. destruct j as [|b|[n|n|f]|s|l|l]; cbn [jtree]; intros H; inversion H; subst; try reflexivity. cbn [prints_null]. apply negb_true_iff. assumption. Qed.
Lemma writes_null E T v t : has_type E T v -> Writes E T v t -> TAlike STNull t -> prints_null v = true.
Proof.
  intros HT HW. revert HT. induction HW; intros HT HA; inversion HT; subst; try (inversion HA; subst; fail); try (inversion HA; subst; cbn [prints_null]; try reflexivity; apply negb_true_iff; try assumption; fail).
  - inversion HA; subst. cbn [prints_null]. apply negb_true_iff. destruct (widen_spec f) as (_ & F & _); [assumption|congruence].
  - cbn [prints_null]. auto.
  - cbn [prints_null]. auto.
  - apply jnull_tree, HA.
  - destruct n; cbn in HA; inversion HA; subst. cbn [prints_null]. apply negb_true_iff. assumption.
Qed.
Lemma talike_sym t : forall u, TAlike t u -> TAlike u t.
Proof.
  induction t as [|b|s|n|n|f|l IH|l IH] using stree_ind'; intros u A; inversion A; subst; try (constructor; assumption).
  - constructor. clear A. match goal with H : Forall2 _ l _ |- _ => induction H; inversion IH; subst; constructor; auto end.
  - constructor. clear A. match goal with H : Forall2 _ l _ |- _ => induction H as [|x y l l' [E1 E2] HF IHF]; inversion IH; subst; constructor; [split; [symmetry; exact E1|]|]; auto end.
Qed.

(** Maps: the same keys in the same order. *)
Lemma sorted_same K (a b : list val) : Forall (key_kind K) a -> Forall (key_kind K) b ->
  StronglySorted (fun x y => key_cmp x y = Lt) a -> StronglySorted (fun x y => key_cmp x y = Lt) b -> Permutation a b -> a = b.
Proof.
  intros Ka Kb Sa. revert b Kb. induction Sa as [|x a Sa IH Fa]; intros b Kb Sb HP.
  - apply Permutation_nil in HP. congruence.
  - inversion Sb as [|y b' Sb' Fb EB]; subst; [apply Permutation_sym, Permutation_nil in HP; discriminate|].
    inversion Ka; inversion Kb; subst.
    assert (x = y) as ->.
    { rewrite Forall_forall in Fa, Fb.
      assert (I1 : In x (y :: b')) by (eapply Permutation_in; [exact HP|left; reflexivity]).
      assert (I2 : In y (x :: a)) by (eapply Permutation_in; [apply Permutation_sym, HP|left; reflexivity]).
      destruct I1 as [|I1]; [congruence|]. destruct I2 as [|I2]; [congruence|].
      apply Fb in I1. apply Fa in I2. assert (C : key_cmp x x = Lt) by (eapply (key_cmp_trans K x y x); assumption).
      rewrite (key_cmp_refl K) in C by assumption. discriminate C. }
    f_equal. apply IH; auto. eapply Permutation_cons_inv, HP.
Qed.
Lemma nodup_perm_eq {A B} (l l' : list (A * B)) : NoDup (map fst l) -> Permutation l l' -> map fst l = map fst l' -> l = l'.
Proof.
  revert l'. induction l as [|[k v] l IH]; intros l' HN HP HE.
  - apply Permutation_nil in HP. congruence.
  - destruct l' as [|[k' v'] l']; [discriminate HE|]. cbn [map fst] in *. injection HE as <- HE. inversion HN as [|? ? N1 N2]; subst.
    assert (v' = v) as ->.
    { assert (I1 : In (k, v') ((k, v) :: l)) by (eapply Permutation_in; [apply Permutation_sym, HP|left; reflexivity]).
      destruct I1 as [[= ->]|I1]; [reflexivity|]. destruct N1. apply (in_map fst) in I1. exact I1. }
    f_equal. apply IH; auto. eapply Permutation_cons_inv, HP.
Qed.

Section Typed.
Variable E : env.
Hypothesis HN : distinct_variants E.
Definition Pal (v : val) : Prop := forall T w t u, has_type E T v -> has_type E T w -> Writes E T v t -> Writes E T w u -> TAlike t u -> Alike v w.
Lemma alike_list T l : Forall Pal l -> Forall (has_type E T) l -> forall l' ts us, Forall (has_type E T) l' -> Forall2 (Writes E T) l ts -> Forall2 (Writes E T) l' us -> Forall2 TAlike ts us -> Forall2 Alike l l'.
Proof.
  intros HP. induction HP as [|v l P PF IH]; intros HT l' ts us HT' W W' A; inversion W; subst; inversion A; subst; inversion W'; subst; constructor.
  - inversion HT; inversion HT'; subst. eapply P; eassumption.
  - inversion HT; inversion HT'; subst. eapply IH; eassumption.
Qed.
Lemma alike_members K T (l : list (val * val)) : Forall (fun kv => Pal (snd kv)) l -> Forall (fun kv => key_ok K (fst kv) = true) l -> Forall (fun kv => has_type E T (snd kv)) l -> forall l' ts us,
  Forall (fun kv => key_ok K (fst kv) = true) l' -> Forall (fun kv => has_type E T (snd kv)) l' ->
  Forall2 (fun kv kt => fst kt = key_to_string (fst kv) /\ Writes E T (snd kv) (snd kt)) l ts ->
  Forall2 (fun kv kt => fst kt = key_to_string (fst kv) /\ Writes E T (snd kv) (snd kt)) l' us ->
  Forall2 (fun a b => fst a = fst b /\ TAlike (snd a) (snd b)) ts us -> Forall2 (fun a b => fst a = fst b /\ Alike (snd a) (snd b)) l l'.
Proof.
  intros HP. induction HP as [|v l P PF IH]; intros HK HT l' ts us HK' HT' W W' A; inversion W as [|? ? ? ? [A1 A2]]; subst; inversion A as [|? ? ? ? [B1 B2]]; subst; inversion W' as [|? ? ? ? [C1 C2]]; subst; constructor.
  - inversion HT; inversion HT'; inversion HK; inversion HK'; subst. split; [eapply key_text_inj; try eassumption; congruence|]. eapply P; eassumption.
  - inversion HT; inversion HT'; inversion HK; inversion HK'; subst. eapply IH; eassumption.
Qed.
Lemma alike_fields (fs : list (bytes * ty)) : forall vs, Forall Pal vs -> Forall2 (fun f v => has_type E (snd f) v) fs vs -> forall ws ts us,
  Forall2 (fun f v => has_type E (snd f) v) fs ws ->
  Forall2 (fun fv kt => fst kt = fst (fst fv) /\ Writes E (snd (fst fv)) (snd fv) (snd kt)) (combine fs vs) ts ->
  Forall2 (fun fv kt => fst kt = fst (fst fv) /\ Writes E (snd (fst fv)) (snd fv) (snd kt)) (combine fs ws) us ->
  Forall2 (fun a b => fst a = fst b /\ TAlike (snd a) (snd b)) ts us -> Forall2 Alike vs ws.
Proof.
  induction fs as [|f fs IH]; intros vs HP HT ws ts us HT' W W' A; inversion HT; subst; inversion HT'; subst; [constructor|].
  cbn [combine] in W, W'. inversion W as [|? ? ? ? [A1 A2]]; subst; inversion A as [|? ? ? ? [B1 B2]]; subst; inversion W' as [|? ? ? ? [C1 C2]]; subst. inversion HP; subst. cbn [fst snd] in *.
  constructor; [|eapply IH; eassumption]. match goal with H : Pal _ |- _ => eapply H; eassumption end.
Qed.
Lemma perm_alike K (R : val -> val -> Prop) (m1 m2 l1 l2 : list (val * val)) :
  sorted_keys key_cmp m1 = true -> sorted_keys key_cmp m2 = true -> Forall (fun kv => key_ok K (fst kv) = true) m1 -> Forall (fun kv => key_ok K (fst kv) = true) m2 ->
  Permutation m1 l1 -> Permutation m2 l2 -> Forall2 (fun a b => fst a = fst b /\ R (snd a) (snd b)) l1 l2 -> Forall2 (fun a b => fst a = fst b /\ R (snd a) (snd b)) m1 m2.
Proof.
  intros S1 S2 K1 K2 P1 P2 H. destruct (Permutation_Forall2 (Permutation_sym P1) H) as (l2' & P3 & H').
  assert (E1 : map fst m1 = map fst l2') by (clear -H'; induction H' as [|? ? ? ? [? _]]; cbn [map]; congruence).
  assert (P4 : Permutation m2 l2') by (eapply Permutation_trans; eassumption).
  assert (D1 := sorted_keys_nodup K m1 S1 K1).
  assert (KK : forall m : list (val * val), Forall (fun kv => key_ok K (fst kv) = true) m -> Forall (fun kv => key_kind K (fst kv)) m) by (intros m; apply Forall_impl; intros kv; apply key_ok_kind).
  assert (SS : forall m : list (val * val), sorted_keys key_cmp m = true -> Forall (fun kv => key_ok K (fst kv) = true) m -> StronglySorted (fun a b => key_cmp a b = Lt) (map fst m)).
  { intros m Sm Km. apply (sorted_strong key_cmp (key_kind K) (key_cmp_trans K)); auto. }
  assert (E2 : map fst m1 = map fst m2).
  { apply (sorted_same K); auto; [apply Forall_map; auto..|]. rewrite E1. apply Permutation_map, Permutation_sym, P4. }
  assert (m2 = l2') as ->; [|exact H'].
  apply nodup_perm_eq; [rewrite <- E2; exact D1|exact P4|congruence].
Qed.
Lemma variant_eq id ns i j s : nth_error E id = Some (DEnum ns) -> nth_error ns i = Some s -> nth_error ns j = Some s -> i = j.
Proof.
  intros H1 H2 H3. apply nth_error_In in H1. unfold distinct_variants in HN. rewrite Forall_forall in HN. specialize (HN _ H1). cbn in HN.
  eapply NoDup_nth_error; [exact HN|apply nth_error_Some; congruence|congruence].
Qed.
Lemma talike_f x y : TAlike (STF64 x) (STF64 y) -> x = y \/ (f_is_finite x = false /\ f_is_finite y = false).
Proof. intros A. inversion A; subst; auto. Qed.
Lemma f32_alike f g : f32_ok f = true -> f32_ok g = true -> TAlike (STF64 (f64_of_f32 f)) (STF64 (f64_of_f32 g)) -> Alike (VF32 f) (VF32 g).
Proof.
  intros Vf Vg A. destruct (widen_spec f Vf) as (V1 & F1 & S1 & R1). destruct (widen_spec g Vg) as (V2 & F2 & S2 & R2).
  destruct (f_is_finite f) eqn:Ff.
  - apply talike_f in A. destruct A as [EE|[X _]]; [|congruence].
    assert (f = g) as ->; [|constructor].
    assert (Fg : f_is_finite g = true) by congruence.
    apply (float_inj 24 128 prec24 emax128); try assumption; try (destruct f; try discriminate; reflexivity); try (destruct g; try discriminate; reflexivity).
    + change (freal f = freal g). congruence.
    + congruence.
  - apply al_f32_nonfinite; [exact Ff|]. apply talike_f in A. destruct A as [EE|[_ X]]; congruence.
Qed.
Lemma f64_alike f g : TAlike (STF64 f) (STF64 g) -> Alike (VF64 f) (VF64 g).
Proof. intros A. inversion A; subst; constructor; assumption. Qed.

Theorem alike_values v : Pal v.
Proof.
  induction v as [|b|s|z|f|f|v IH| |v IH|a b IHa IHb|l IH|l IH|j|m|l|l|l IH|i] using val_ind'; intros T w t u HT HT' HW HW' A; inversion HT; subst; inversion HT'; subst; inversion HW; subst; inversion HW'; subst;
    try (inversion A; subst; constructor; assumption).
  - apply f32_alike; assumption.
  - constructor. match goal with H : has_type E _ v |- _ => eapply (IH _ _ _ _ H); eassumption end.
  - constructor. match goal with H : has_type E _ _ |- _ => eapply (writes_null E _ _ _ H); eassumption end.
  - constructor. match goal with H : has_type E _ _ |- _ => eapply (writes_null E _ _ _ H); [eassumption|apply talike_sym, A] end.
  - constructor. match goal with H : has_type E _ v |- _ => eapply (IH _ _ _ _ H); eassumption end.
  - inversion A as [| | | | | | | | | | |? ? F|]; subst. inversion F as [|? ? ? ? X1 F1]; subst. inversion F1 as [|? ? ? ? X2 F2]; subst.
    constructor; [eapply IHa|eapply IHb]; eassumption.
  - inversion A; subst. constructor. eapply alike_list; eassumption.
  - inversion A; subst. constructor. eapply alike_list; eassumption.
  - inversion A; subst. constructor.
    match goal with P1 : (if _ then Permutation l ?l1 else _), P2 : (if _ then Permutation l0 ?l2 else _) |- _ =>
      assert (Q1 : Permutation l l1) by (destruct h; [exact P1|rewrite P1; reflexivity]); assert (Q2 : Permutation l0 l2) by (destruct h; [exact P2|rewrite P2; reflexivity]); clear P1 P2;
      apply (perm_alike K Alike l l0 l1 l2); try assumption end.
    eapply (alike_members K); try eassumption; (eapply Permutation_Forall; [first [exact Q1|exact Q2]|eassumption]).
  - constructor. apply alike_jtree, A.
  - constructor. apply alike_jtree, A.
  - apply (alike_jtree (JvArr l) (JvArr l0)) in A. inversion A; subst. constructor. assumption.
  - apply (alike_jtree (JvObj l) (JvObj l0)) in A. inversion A; subst. constructor. assumption.
  - inversion A; subst. constructor.
    repeat match goal with H1 : nth_error E ?i = Some (DStruct ?a), H2 : nth_error E ?i = Some (DStruct ?b) |- _ => assert (a = b) as -> by congruence; clear H1 end.
    eapply alike_fields; eassumption.
  - inversion A; subst.
    repeat match goal with H1 : nth_error E ?i = Some (DEnum ?a), H2 : nth_error E ?i = Some (DEnum ?b) |- _ => assert (a = b) as -> by congruence; clear H1 end.
    match goal with H1 : nth_error ?ns i = Some ?s, H2 : nth_error ?ns i0 = Some ?s |- _ => assert (i = i0) as -> by (eapply variant_eq; eassumption) end.
    constructor.
Qed.
End Typed.

(** Conversely: what alike values describe. *)
Lemma null_tree E v : forall T, has_type E T v -> prints_null v = true -> exists u, Writes E T v u /\ TAlike STNull u.
Proof.
  induction v as [|b|s|z|f|f|v IH| |v IH|a b IHa IHb|l IH|l IH|j|m|l|l|l IH|i] using val_ind'; intros T HT HP; inversion HT; subst; cbn [prints_null] in HP; try discriminate.
  - eexists. split; constructor.
  - eexists. split; [constructor|]. constructor. apply negb_true_iff in HP. destruct (widen_spec f) as (_ & F & _); [assumption|congruence].
  - eexists. split; [constructor|]. constructor. apply negb_true_iff, HP.
  - edestruct IH as (u & W & A); [eassumption|exact HP|]. exists u. split; [constructor; exact W|exact A].
  - eexists. split; constructor.
  - edestruct IH as (u & W & A); [eassumption|exact HP|]. exists u. split; [constructor; exact W|exact A].
  - exists (jtree j). split; [constructor|]. destruct j as [| |[| |f]| | |]; try discriminate; cbn [jtree]; constructor. apply negb_true_iff, HP.
  - destruct m; try discriminate. eexists. split; [constructor|]. cbn. constructor. apply negb_true_iff, HP.
Qed.
Lemma null_writes E T v t : has_type E T v -> Writes E T v t -> prints_null v = true -> TAlike STNull t.
Proof.
  intros HT HW. revert HT. induction HW; intros HT HP; inversion HT; subst; cbn [prints_null] in HP; try discriminate; try (constructor; fail).
  - constructor. apply negb_true_iff in HP. destruct (widen_spec f) as (_ & F & _); [assumption|congruence].
  - constructor. apply negb_true_iff, HP.
  - auto.
  - auto.
  - destruct j as [| |[| |f]| | |]; try discriminate; cbn [jtree]; constructor. apply negb_true_iff, HP.
  - destruct n; try discriminate. cbn. constructor. apply negb_true_iff, HP.
Qed.
Section Back.
Variable E : env.
Definition Pab (v : val) : Prop := forall T w t, has_type E T v -> has_type E T w -> Alike v w -> Writes E T v t -> exists u, Writes E T w u /\ TAlike t u.
Lemma back_list T l : Forall Pab l -> Forall (has_type E T) l -> forall l' ts, Forall (has_type E T) l' -> Forall2 Alike l l' -> Forall2 (Writes E T) l ts ->
  exists us, Forall2 (Writes E T) l' us /\ Forall2 TAlike ts us.
Proof.
  intros HP. induction HP as [|v l P PF IH]; intros HT l' ts HT' A W; inversion A; subst; inversion W; subst; [exists []; split; constructor|].
  inversion HT; inversion HT'; subst. edestruct IH as (us & X & Y); try eassumption. edestruct P as (u & X1 & Y1); try eassumption.
  exists (u :: us). split; constructor; assumption.
Qed.
Lemma back_members T (l : list (val * val)) : Forall (fun kv => Pab (snd kv)) l -> Forall (fun kv => has_type E T (snd kv)) l -> forall l' ts,
  Forall (fun kv => has_type E T (snd kv)) l' -> Forall2 (fun a b => fst a = fst b /\ Alike (snd a) (snd b)) l l' ->
  Forall2 (fun kv kt => fst kt = key_to_string (fst kv) /\ Writes E T (snd kv) (snd kt)) l ts ->
  exists us, Forall2 (fun kv kt => fst kt = key_to_string (fst kv) /\ Writes E T (snd kv) (snd kt)) l' us /\ Forall2 (fun a b => fst a = fst b /\ TAlike (snd a) (snd b)) ts us.
Proof.
  intros HP. induction HP as [|v l P PF IH]; intros HT l' ts HT' A W; inversion A as [|? w ? ? [A1 A2]]; subst; inversion W as [|? kt ? ? [B1 B2]]; subst; [exists []; split; constructor|].
  inversion HT; inversion HT'; subst. edestruct IH as (us & X & Y); try eassumption. edestruct P as (u & X1 & Y1); try eassumption.
  exists ((key_to_string (fst w), u) :: us). split; constructor; cbn [fst snd]; auto. split; [congruence|assumption].
Qed.
Lemma back_fields (fs : list (bytes * ty)) : forall vs, Forall Pab vs -> Forall2 (fun f v => has_type E (snd f) v) fs vs -> forall ws ts,
  Forall2 (fun f v => has_type E (snd f) v) fs ws -> Forall2 Alike vs ws ->
  Forall2 (fun fv kt => fst kt = fst (fst fv) /\ Writes E (snd (fst fv)) (snd fv) (snd kt)) (combine fs vs) ts ->
  exists us, Forall2 (fun fv kt => fst kt = fst (fst fv) /\ Writes E (snd (fst fv)) (snd fv) (snd kt)) (combine fs ws) us /\ Forall2 (fun a b => fst a = fst b /\ TAlike (snd a) (snd b)) ts us.
Proof.
  induction fs as [|f fs IH]; intros vs HP HT ws ts HT' A W; inversion HT; subst; inversion HT'; subst; [inversion W; subst; exists []; split; constructor|].
  cbn [combine] in W. inversion W as [|? kt ? ? [A1 A2]]; subst; inversion A; subst. inversion HP; subst. cbn [fst snd] in *.
  edestruct IH as (us & X & Y); try eassumption. match goal with H : Pab _ |- _ => edestruct H as (u & X1 & Y1); try eassumption end.
  exists ((fst f, u) :: us). cbn [combine]. split; constructor; cbn [fst snd]; auto.
Qed.
Theorem alike_back v : Pab v.
Proof.
  induction v as [|b|s|z|f|f|v IH| |v IH|a b IHa IHb|l IH|l IH|j|m|l|l|l IH|i] using val_ind'; intros T w t HT HT' A HW; inversion HT; subst; inversion A; subst; inversion HT'; subst; inversion HW; subst;
    try (eexists; split; constructor; assumption).
  - eexists. split; [constructor|]. apply ta_nonfinite; [destruct (widen_spec f) as (_ & F & _)|destruct (widen_spec g) as (_ & F & _)]; try assumption; congruence.
  - edestruct (IH T0) as (u & X & Y); [eassumption..|]. exists u. split; [constructor; exact X|exact Y].
  - edestruct (null_tree E v) as (u & X & Y); [eassumption..|]. exists u. split; [constructor; exact X|exact Y].
  - edestruct (IH T0) as (u & X & Y); [eassumption..|]. exists u. split; [constructor; exact X|exact Y].
  - exists STNull. split; [constructor|]. apply talike_sym. match goal with H : has_type E _ v |- _ => eapply (null_writes E _ _ _ H) end; eassumption.
  - edestruct (IHa A0) as (u & X & Y); [eassumption..|]. edestruct (IHb B) as (u' & X' & Y'); [eassumption..|].
    exists (STSeq [u; u']). split; [constructor; assumption|]. constructor. repeat constructor; assumption.
  - edestruct (back_list T0 l) as (us & X & Y); [eassumption..|]. exists (STSeq us). split; constructor; assumption.
  - edestruct (back_list T0 l) as (us & X & Y); [eassumption..|]. exists (STSeq us). split; constructor; assumption.
  - match goal with F : Forall2 _ l l' |- _ => rename F into F0 end.
    match goal with P : (if h then Permutation l ?l1 else _), W : Forall2 _ ?l1 ts |- _ => rename P into P0; rename W into W0; rename l1 into m1 end.
    assert (P1 : Permutation l m1) by (destruct h; [exact P0|rewrite P0; reflexivity]).
    assert (exists m2, (if h then Permutation l' m2 else l' = m2) /\ Permutation l' m2 /\ Forall2 (fun a b => fst a = fst b /\ Alike (snd a) (snd b)) m1 m2) as (m2 & Q0 & Q1 & F1).
    { destruct h; [|subst; exists l'; auto]. destruct (Permutation_Forall2 P1 F0) as (m2 & Q & F1). exists m2. auto. }
    destruct (back_members T0 m1) with (l' := m2) (ts := ts) as (us & X & Y); try assumption; try (eapply Permutation_Forall; [first [exact P1|exact Q1]|eassumption]).
    exists (STMap us). split; [econstructor; eassumption|constructor; exact Y].
  - eexists. split; [constructor|]. apply jtree_alike. assumption.
  - eexists. split; [constructor|]. apply jtree_alike. assumption.
  - eexists. split; [constructor|]. apply jtree_alike. constructor. assumption.
  - eexists. split; [constructor|]. apply jtree_alike. constructor. assumption.
  - repeat match goal with H1 : nth_error E ?i = Some (DStruct ?a), H2 : nth_error E ?i = Some (DStruct ?b) |- _ => assert (a = b) as -> by congruence; clear H1 end.
    edestruct (back_fields fs1 l) as (us & X & Y); [eassumption|eassumption|eassumption|eassumption|eassumption|]. exists (STMap us). split; [|constructor; exact Y]. econstructor; [eassumption| |exact X].
    match goal with F : Forall2 _ l l' |- _ => apply Forall2_len in F; congruence end.
  - eexists. split; [econstructor; eassumption|constructor].
Qed.
End Back.

(** ** Values without the exceptions *)
Lemma jalike_distinct j : forall j', JAlike j j' -> jdistinct j = true -> jdistinct j' = true -> j = j'.
Proof.
  induction j as [|b|n|s|l IH|l IH] using jval_ind'; intros j' A D D'; inversion A; subst; cbn [jdistinct] in *; try reflexivity; try congruence; try lia.
  - f_equal. clear A. match goal with H : Forall2 _ l _ |- _ => induction H; [reflexivity|] end. inversion IH; subst. cbn [forallb] in *. apply andb_true_iff in D, D'. destruct D, D'. f_equal; auto.
  - f_equal. clear A. match goal with H : Forall2 _ l _ |- _ => induction H as [|x y l l' [E1 E2] HF IHF]; [reflexivity|] end. inversion IH; subst. cbn [forallb] in *. apply andb_true_iff in D, D'. destruct D, D'. f_equal; auto.
    destruct x, y; cbn [fst snd] in *. f_equal; auto.
Qed.
Lemma alike_distinct v : forall w, Alike v w -> distinct v = true -> distinct w = true -> v = w.
Proof.
  assert (JA : forall l l', Forall2 JAlike l l' -> forallb jdistinct l = true -> forallb jdistinct l' = true -> l = l').
  { intros l l' F D D'. assert (X : JvArr l = JvArr l') by (apply jalike_distinct; [constructor; exact F|exact D|exact D']). congruence. }
  assert (JO : forall l l' : list (bytes * jval), Forall2 (fun a b => fst a = fst b /\ JAlike (snd a) (snd b)) l l' -> forallb (fun kj => jdistinct (snd kj)) l = true -> forallb (fun kj => jdistinct (snd kj)) l' = true -> l = l').
  { intros l l' F D D'. assert (X : JvObj l = JvObj l') by (apply jalike_distinct; [constructor; exact F|exact D|exact D']). congruence. }
  assert (LL : forall l : list val, Forall (fun v : val => forall w : val, Alike v w -> distinct v = true -> distinct w = true -> v = w) l -> forall l' : list val, Forall2 Alike l l' -> forallb distinct l = true -> forallb distinct l' = true -> l = l').
  { intros l IH l' F. induction F; intros D D'; [reflexivity|]. inversion IH; subst. cbn [forallb] in *. apply andb_true_iff in D, D'. destruct D, D'. f_equal; auto. }
  induction v as [|b|s|z|f|f|v IH| |v IH|a b IHa IHb|l IH|l IH|j|m|l|l|l IH|i] using val_ind'; intros w A D D'; inversion A; subst; cbn [distinct] in *; try reflexivity; try congruence;
    try (apply andb_true_iff in D; destruct D as [D1 D2]); try (apply andb_true_iff in D'; destruct D' as [D1' D2']); try (f_equal; auto; fail); try (rewrite negb_true_iff in *; congruence).
  - f_equal. clear A. match goal with H : Forall2 _ l _ |- _ => induction H as [|x y l l' [E1 E2] HF IHF]; [reflexivity|] end. inversion IH; subst. cbn [forallb] in *. apply andb_true_iff in D, D'. destruct D, D'. f_equal; auto.
    destruct x, y; cbn [fst snd] in *. f_equal; auto.
  - f_equal. apply jalike_distinct; assumption.
  - assert (X : JvNum m = JvNum n') by (apply jalike_distinct; assumption). congruence.
Qed.
