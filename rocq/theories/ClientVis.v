(** Visitors of the crate's types, called by a safe client. *)
From Coq Require Import String ZArith List Bool Lia Floats.SpecFloat.
From Verif Require Import Base Utf8 F64 Lexer Driver Grammar LexSpec Types Impls Tree DriverFacts Denote
  HeapFacts HeapSeq HeapMap HeapMain Reading MapFacts FloatParts FloatRead FloatOps TypedFacts NumFacts HeapMap ReadMain ClientSpec ClientFacts ClientInst.
Import ListNotations.
Open Scope Z_scope.

Lemma wrap_s_in b z : bits_ok b = true -> int_ok true b (wrap_s b z) = true.
Proof.
  intros HB. apply int_ok_iff. unfold wrap_s, int_min, int_max. apply bits_ok_cases in HB.
  assert (E2 : 2 ^ b = 2 * 2 ^ (b - 1)) by (destruct HB as [->|[->|[->| ->]]]; reflexivity).
  assert (P : 0 < 2 ^ (b - 1)) by (apply Z.pow_pos_nonneg; lia).
  pose proof (Z.mod_pos_bound (z + 2 ^ (b - 1)) (2 ^ b) ltac:(lia)). lia.
Qed.
Lemma wrap_u_in b z : bits_ok b = true -> int_ok false b (wrap_u b z) = true.
Proof.
  intros HB. apply int_ok_iff. unfold wrap_u, int_min, int_max. apply bits_ok_cases in HB.
  assert (P : 0 < 2 ^ b) by (apply Z.pow_pos_nonneg; lia).
  pose proof (Z.mod_pos_bound z (2 ^ b) ltac:(lia)). lia.
Qed.
Lemma f64_of_Z_ok z : f64_ok (f64_of_Z z) = true.
Proof. apply (normalize_spec 53 1024 ltac:(reflexivity) ltac:(reflexivity) z). Qed.
Lemma f32_of_Z_ok z : f32_ok (f32_of_Z z) = true.
Proof. apply (normalize_spec 24 128 ltac:(reflexivity) ltac:(reflexivity) z). Qed.
Lemma f32_of_f64_ok f : f32_ok (f32_of_f64 f) = true.
Proof. destruct f as [s|s| |s m e]; try reflexivity. apply (round_spec 24 128 ltac:(reflexivity) ltac:(reflexivity) s m e). Qed.

Section Vis.
Variable E : env.
Variable k : nat.
Hypothesis fitsE : forall id fs, nth_error E id = Some (DStruct fs) -> Forall (fun f => fits k (snd f)) fs.
Hypothesis Hk : (0 < k)%nat.
Hypothesis HE : env_ok E = true.
Variable Gb : heap -> Prop.
Hypothesis Gb_nil : Gb [].
Hypothesis Gb_app : forall a b, Gb a -> Gb b -> Gb (a ++ b).
Hypothesis Gb_none : Gb [None].

Notation okty := (okty k).
Notation ht := (has_type E).
Notation WP := (WP E).
Notation stable := (stable Gb).
Notation good2 := (good2 Gb).
Notation Cell := (Cell E Gb).

Definition ev_ok (ev : event) : Prop := forall T, arg_ok E T (CpVisit ev).

Lemma leaf_typed t ev v : ev_ok ev -> ty_ok t = true -> leaf_prim E t ev = Ok v -> ht t v.
Proof.
  intros HA HT HL. specialize (HA t). destruct t; destruct ev; cbn [leaf_prim arg_ok ty_ok] in *; try discriminate; try contradiction; try (destruct signed; discriminate).
  all: try (injection HL as <-; constructor; first [assumption|reflexivity|apply f64_of_Z_ok|apply f32_of_Z_ok|apply f32_of_f64_ok|idtac]).
  all: try (cbn [jval_ok jnum_ok]; apply andb_true_intro; split; apply Z.leb_le; lia).
  - destruct signed; [|discriminate]. destruct (n <=? int_max true bits); [|discriminate] || destruct (int_min true bits <=? n); [|discriminate]. injection HL as <-. constructor. apply wrap_s_in, HT.
  - destruct signed; destruct (n <=? int_max _ bits); try discriminate; injection HL as <-; constructor; [apply wrap_s_in, HT|apply wrap_u_in, HT].
  - destruct (nth_error E id) as [[fs|ns]|] eqn:EN; try discriminate. destruct (find_name s ns 0) as [i|] eqn:EF; [|discriminate]. injection HL as <-.
    eapply ht_enum; [exact EN|]. apply find_name_lt in EF. lia.
Qed.

Lemma leaf_nofault t ev f : leaf_prim E t ev <> Fault f.
Proof.
  destruct t, ev; cbn [leaf_prim]; repeat match goal with |- context [if ?c then _ else _] => destruct c | |- context [match ?c with _ => _ end] => destruct c end; discriminate.
Qed.

(** Obligations of a place nested in another one. *)
Lemma WP_option p t P W h : good2 P W -> WP p (TOption t) P W h -> W (wr p (Some VNone) h) /\ WP (inner_place p) t P W (wr p (Some VNone) h).
Proof.
  intros (_ & _ & S) (A & B & C). assert (N : W (wr p (Some VNone) h)) by (apply C; constructor). split; [exact N|].
  split; [apply pvalid_inner, A|]. split; [apply S, N|]. intros v Hv. rewrite wr_inner by exact A. apply C. cbn [embed]. constructor. exact Hv.
Qed.

Lemma vis_prim_ok ev : ev_ok ev -> forall T q p (P W : heap -> Prop) h, (wraps T < q)%nat -> ty_ok T = true -> good2 P W -> WP p T P W h ->
  exists r h', vis_prim E q T p ev h = (r, h') /\ match r with Ok _ => W h' | Err => P h' | Fault _ => False end.
Proof.
  intros HA. induction T; intros q p P W h Hq HT HG HW; cbn [wraps ty_ok] in *; (destruct q as [|q]; [lia|]); cbn [vis_prim];
    try (match goal with |- context [leaf_prim E ?T ev] => pose proof (leaf_typed T ev) as LT; pose proof (leaf_nofault T ev) as NF; destruct (leaf_prim E T ev) as [v| |f] end;
      [destruct HW as (A & B & C); rewrite place_write_ok by exact A; eexists (Ok tt), _; split; [reflexivity|]; apply C, LT; [exact HA|assumption || reflexivity|reflexivity]
      |exists Err, h; split; [reflexivity|apply HW]
      |destruct (NF f eq_refl)]; fail).
  - unfold mbind at 1, malloc.
    destruct (IHT q (slot0 (List.length h)) (Cell false p (List.length h) T P W) (Cell true p (List.length h) T P W) (h ++ [Some (OCell None)])) as (r & h' & -> & HR); [lia|exact HT|apply Cell_good; assumption|apply Cell_write; [reflexivity|exact Gb_nil|exact Logic.I|exact HW]|].
    destruct r as [u| |f]; [| |contradiction].
    + destruct HR as (H0 & x & M & -> & HC & HM & HX & HB & HV). destruct x as [v|]; [|destruct (HB eq_refl eq_refl)].
      unfold mbind. rewrite HC, place_read_cell, mfree_mid. rewrite place_write_ok by (apply pvalid_app, HV). rewrite wr_app by apply HV.
      eexists (Ok tt), _. split; [reflexivity|]. apply (proj1 (proj2 HG)); [|apply Gb_cons; assumption]. apply HV. constructor. exact HX.
    + destruct HR as (H0 & x & M & -> & HC & HM & HX & HB & HV). unfold mbind. rewrite HC, mfree_mid.
      eexists Err, _. split; [reflexivity|]. apply (proj1 HG); [apply HV|apply Gb_cons; assumption].
  - destruct (WP_option p T P W h HG HW) as [N HI]. destruct (IHT q (inner_place p) P W _ ltac:(lia) HT HG HI) as (r & h' & HV & HR).
    destruct ev; try (unfold mbind; rewrite place_write_ok by apply HW; exists r, h'; split; [exact HV|exact HR]).
    rewrite place_write_ok by apply HW. eexists (Ok tt), _. split; [reflexivity|exact N].
Qed.

(** Opening a builder. *)
Section Open.
Variable bx : place -> nat -> bh -> obj.
Variable wt : ty -> obj -> Prop.
Notation SI := (SI E Gb bx wt).
Lemma core_open (P W : heap -> Prop) n T p o h : wt T o -> obj_out o = p -> WP p T P W h ->
  exists r h', (do l <- malloc o; ret (BhAt l)) h = (r, h') /\ match r with Ok s => SI n false s P W h' | Err => P h' | Fault _ => False end.
Proof.
  intros HO <- HW. eexists (Ok _), _. split; [unfold mbind, malloc, ret; reflexivity|]. apply SI_core with (T := T); assumption.
Qed.
Lemma box_open (P W : heap -> Prop) n T p c (m : M bh) h : good2 P W -> WP p (TBox T) P W h -> c = List.length h ->
  (exists r h', m (h ++ [Some (OCell None)]) = (r, h') /\ match r with Ok s => SI n false s (Cell false p c T P W) (Cell true p c T P W) h' | Err => Cell false p c T P W h' | Fault _ => False end) ->
  exists r h', match m (h ++ [Some (OCell None)]) with
            | (Ok s, h1) => (do l <- malloc (bx p c s); ret (BhAt l)) h1
            | (Err, h1) => (do _ <- mfree c; throw) h1
            | (Fault e, h1) => (Fault e, h1)
            end = (r, h') /\ match r with Ok s => SI (S n) false s P W h' | Err => P h' | Fault _ => False end.
Proof.
  intros HG HW -> (r & h' & -> & HR). destruct r as [s| |f]; [| |contradiction].
  - eexists (Ok _), _. split; [unfold mbind, malloc, ret; reflexivity|]. apply SI_box with (t := T); assumption.
  - destruct HR as (H0 & x & M & -> & HC & HM & HX & HB & HV). unfold mbind. rewrite HC, mfree_mid.
    eexists Err, _. split; [reflexivity|]. apply (proj1 HG); [apply HV|apply Gb_cons; assumption].
Qed.
End Open.

Lemma okty_pair a b : okty (TPair a b) -> okty a /\ okty b.
Proof. unfold okty, fits. cbn [maxw ty_ok]. rewrite andb_true_iff. intros [A [B C]]. repeat split; auto; lia. Qed.
Lemma okty_wrap T t : (T = TBox t \/ T = TOption t) -> okty T -> okty t.
Proof. unfold okty, fits. intros [-> | ->]; cbn [maxw ty_ok]; intros [A B]; split; auto; lia. Qed.

Notation SIq := (SI E Gb OBoxSeq (sq_wt E k)).
Notation SIm := (SI E Gb OBoxMap (mp_wt E k)).

Lemma vis_seq_ok T : forall q p (P W : heap -> Prop) h, (wraps T < q)%nat -> okty T -> good2 P W -> WP p T P W h ->
  exists n, (n <= wraps T)%nat /\ exists r h', vis_seq q T p h = (r, h') /\ match r with Ok s => SIq n false s P W h' | Err => P h' | Fault _ => False end.
Proof.
  induction T; intros q p P W h Hq HT HG HW; cbn [wraps] in *; (destruct q as [|q]; [lia|]); cbn [vis_seq];
    try (exists O; split; [lia|]; exists Err, h; split; [reflexivity|apply HW]; fail).
  - destruct (IHT q (slot0 (List.length h)) (Cell false p (List.length h) T P W) (Cell true p (List.length h) T P W) (h ++ [Some (OCell None)])) as (n & Hn & IH);
      [lia|eapply okty_wrap; eauto|apply Cell_good; assumption|apply Cell_write; [reflexivity|exact Gb_nil|exact Logic.I|exact HW]|].
    exists (S n). split; [lia|]. unfold mbind at 1, malloc at 1. apply box_open with (T := T); auto.
  - destruct (WP_option p T P W h HG HW) as [N HI]. unfold mbind. rewrite place_write_ok by apply HW.
    destruct (IHT q (inner_place p) P W _ ltac:(lia) (okty_wrap _ _ (or_intror eq_refl) HT) HG HI) as (n & Hn & r & h' & HV & HR).
    exists n. split; [lia|]. exists r, h'. split; [exact HV|exact HR].
  - exists O. split; [lia|]. apply okty_pair in HT. apply core_open with (T := TPair T1 T2) (p := p); auto. cbn [sq_wt]. split; [reflexivity|]. split; [apply HT|]. split; [apply HT|]. split; exact Logic.I.
  - exists O. split; [lia|]. apply core_open with (T := TVec T) (p := p); auto. cbn [sq_wt]. split; [reflexivity|]. split; [exact HT|]. split; [constructor|exact Logic.I].
  - exists O. split; [lia|]. apply core_open with (T := TArr T n) (p := p); auto. cbn [sq_wt]. split; [reflexivity|]. split; [exact HT|].
    split; [apply Forall_forall; intros x Hx; apply repeat_spec in Hx; subst x; exact Logic.I|]. split; [exact Logic.I|]. split; [apply repeat_length|]. split; [lia|reflexivity].
  - exists O. split; [lia|]. apply core_open with (T := TValue) (p := p); auto. cbn [sq_wt]. repeat split.
  - exists O. split; [lia|]. apply core_open with (T := TArray) (p := p); auto. cbn [sq_wt]. repeat split.
Qed.

Lemma vis_map_ok T : forall q p (P W : heap -> Prop) h, (wraps T < q)%nat -> okty T -> good2 P W -> WP p T P W h ->
  exists n, (n <= wraps T)%nat /\ exists r h', vis_map E q T p h = (r, h') /\ match r with Ok s => SIm n false s P W h' | Err => P h' | Fault _ => False end.
Proof.
  induction T; intros q p P W h Hq HT HG HW; cbn [wraps] in *; (destruct q as [|q]; [lia|]); cbn [vis_map];
    try (exists O; split; [lia|]; exists Err, h; split; [reflexivity|apply HW]; fail).
  - destruct (IHT q (slot0 (List.length h)) (Cell false p (List.length h) T P W) (Cell true p (List.length h) T P W) (h ++ [Some (OCell None)])) as (n & Hn & IH);
      [lia|eapply okty_wrap; eauto|apply Cell_good; assumption|apply Cell_write; [reflexivity|exact Gb_nil|exact Logic.I|exact HW]|].
    exists (S n). split; [lia|]. unfold mbind at 1, malloc at 1. apply box_open with (T := T); auto.
  - destruct (WP_option p T P W h HG HW) as [N HI]. unfold mbind. rewrite place_write_ok by apply HW.
    destruct (IHT q (inner_place p) P W _ ltac:(lia) (okty_wrap _ _ (or_intror eq_refl) HT) HG HI) as (n & Hn & r & h' & HV & HR).
    exists n. split; [lia|]. exists r, h'. split; [exact HV|exact HR].
  - exists O. split; [lia|]. eapply core_open with (p := p); eauto. cbn [mp_wt]. split; [eexists; reflexivity|].
    split; [unfold ClientInst.okty, fits in *; cbn [maxw ty_ok] in HT; rewrite andb_true_iff in HT; tauto|]. repeat (split; [solve [constructor|reflexivity]|]). exact Logic.I.
  - exists O. split; [lia|]. apply core_open with (T := TValue) (p := p); auto. cbn [mp_wt]. repeat split.
  - exists O. split; [lia|]. apply core_open with (T := TObject) (p := p); auto. cbn [mp_wt]. repeat split.
  - exists O. split; [lia|]. destruct (nth_error E id) as [[fs|ns]|] eqn:EN; try (exists Err, h; split; [reflexivity|apply HW]; fail).
    apply core_open with (T := TNamed id) (p := p); auto. cbn [mp_wt]. split; [exists id; auto|].
    clear. induction fs as [|f fs IH]; constructor; [|exact IH]. destruct (snd f); try exact Logic.I. cbn. constructor.
Qed.
End Vis.
