(** Safe clients of the Deserialize impls: invariants. *)
From Coq Require Import String ZArith List Bool Lia Floats.SpecFloat.
From Verif Require Import Base Utf8 F64 Lexer Driver Grammar LexSpec Types Impls Tree DriverFacts Denote
  HeapFacts HeapSeq HeapMap HeapMain Reading.
Import ListNotations.
Open Scope Z_scope.

Definition otyped E (t : ty) (x : option val) : Prop := match x with Some v => has_type E t v | None => True end.

Ltac len := repeat (progress (rewrite ?app_length in *; cbn [List.length] in *)); lia.
Ltac cs := repeat (split; [solve [auto|discriminate|reflexivity]|]); try assumption.

(** ** Writing to a place *)
Section Places.
Variable E : env.
(** What may lie around at the end of the heap. *)
Variable Gb : heap -> Prop.
Hypothesis Gb_nil : Gb [].
Hypothesis Gb_app : forall a b, Gb a -> Gb b -> Gb (a ++ b).
Hypothesis Gb_none : Gb [None].

Lemma Gb_cons M : Gb M -> Gb (None :: M).
Proof. intros H. apply (Gb_app [None] M Gb_none H). Qed.

Definition stable (P : heap -> Prop) : Prop := forall h M, P h -> Gb M -> P (h ++ M).
(** P: what must hold whenever control returns; W: what holds then if the place was
    written. *)
Definition good2 (P W : heap -> Prop) : Prop := stable P /\ stable W /\ (forall h, W h -> P h).
Definition WP (p : place) (t : ty) (P W : heap -> Prop) (h : heap) : Prop :=
  pvalid p h /\ P h /\ forall v, has_type E t v -> W (wr p (Some v) h).

Lemma WP_app p t P W h M : good2 P W -> WP p t P W h -> Gb M -> WP p t P W (h ++ M).
Proof.
  intros (S1 & S2 & _) (A & B & C) HM. split; [apply pvalid_app, A|]. split; [apply S1; assumption|].
  intros v Hv. rewrite wr_app by exact A. apply S2; [apply C, Hv|exact HM].
Qed.
Lemma WP_write p t P W h v : WP p t P W h -> has_type E t v -> WP p t W W (wr p (Some v) h).
Proof.
  intros (A & B & C) Hv. split; [apply pvalid_wr, A|]. split; [apply C, Hv|]. intros v' Hv'. rewrite wr_wr by exact A. apply C, Hv'.
Qed.
Lemma WP_weak p t P W h : good2 P W -> WP p t W W h -> WP p t P W h.
Proof. intros (_ & _ & S) (A & B & C). split; [exact A|]. split; [apply S, B|exact C]. Qed.
Lemma good_refl P : stable P -> good2 P P. Proof. intros H. repeat split; auto. Qed.

(** The cell of a Box builder, below it the place the box goes to. *)
Definition Cell (written : bool) (p : place) (c : nat) (t : ty) (P W : heap -> Prop) (hh : heap) : Prop :=
  exists H0 x M, hh = H0 ++ Some (OCell x) :: M /\ c = List.length H0 /\ Gb M /\ otyped E t x /\
    (written = true -> x <> None) /\ WP p (TBox t) P W H0.
Lemma Cell_good p c t P W : good2 (Cell false p c t P W) (Cell true p c t P W).
Proof.
  assert (ST : forall b, stable (Cell b p c t P W)).
  { intros b h M (H0 & x & M0 & -> & HC & HM & HX & HB & HW) G. exists H0, x, (M0 ++ M). rewrite <- app_assoc. cs. }
  split; [apply ST|]. split; [apply ST|]. intros h (H0 & x & M0 & A & B & C & D & _ & F). exists H0, x, M0. cs.
Qed.
Lemma Cell_write p c t P W H0 x M : c = List.length H0 -> Gb M -> otyped E t x -> WP p (TBox t) P W H0 ->
  WP (slot0 c) t (Cell false p c t P W) (Cell true p c t P W) (H0 ++ Some (OCell x) :: M).
Proof.
  intros -> HM HX HW. split; [apply pvalid_cell|]. split.
  - exists H0, x, M. cs.
  - intros v Hv. rewrite wr_cell. exists H0, (Some v), M. cs.
Qed.
End Places.

(** ** Builders, sequences and maps alike *)
Section Builders.
Variable E : env.
Variable k : nat.
Variable Gb : heap -> Prop.
Hypothesis Gb_nil : Gb [].
Hypothesis Gb_app : forall a b, Gb a -> Gb b -> Gb (a ++ b).
Hypothesis Gb_none : Gb [None].
(** okty: types whose visitors fit into the recursion budget. *)
Variable okty : ty -> Prop.
Variable K : Type.
Variable Kok : K -> Prop.
Variable el : K -> nat -> bh -> M vh.
Variable fin : nat -> bh -> M unit.
Variable drp : nat -> bh -> M unit.
Variable bx : place -> nat -> bh -> obj.
(** wt T o: o is a builder object for values of type T, in a consistent state. *)
Variable wt : ty -> obj -> Prop.
Hypothesis el_ign : forall key q h, el key (S q) BhIgnore h = (Ok VhIgnore, h).
Hypothesis fin_ign : forall q h, fin (S q) BhIgnore h = (Ok tt, h).
Hypothesis drp_ign : forall q h, drp (S q) BhIgnore h = (Ok tt, h).
Hypothesis el_box : forall key q A p c s R, el key (S q) (BhAt (List.length A)) (A ++ Some (bx p c s) :: R) = el key q s (A ++ Some (bx p c s) :: R).
Hypothesis drp_box : forall q A p c s R, drp (S q) (BhAt (List.length A)) (A ++ Some (bx p c s) :: R) =
  (do _ <- drp q s; do _ <- mfree c; mfree (List.length A)) (A ++ Some (bx p c s) :: R).
Hypothesis fin_box : forall q A p c s R, fin (S q) (BhAt (List.length A)) (A ++ Some (bx p c s) :: R) =
  (do _ <- fin q s; do _ <- drp q s; do _ <- mset (List.length A) (bx p c BhIgnore);
   do o' <- place_read (slot0 c);
   match o' with
   | None => crash FPanic
   | Some v => do _ <- place_write (slot0 c) None; place_write p (Some (VBox v))
   end) (A ++ Some (bx p c s) :: R).
Hypothesis el_core : forall T o key, wt T o -> Kok key -> exists r o', wt T o' /\ obj_out o' = obj_out o /\
  (forall q A R, el key (S q) (BhAt (List.length A)) (A ++ Some o :: R) =
     (match r with Some (Some (i, t)) => Ok (VhPlace (mkplace (List.length A) i 0) t) | Some None => Ok VhIgnore | None => Err end, A ++ Some o' :: R)) /\
  match r with
  | Some (Some (i, t)) => okty t /\ (exists s, get_slot o' i = Some s) /\
      forall v, has_type E t v -> wt T (set_slot o' i (Some v)) /\ obj_out (set_slot o' i (Some v)) = obj_out o
  | _ => True
  end.
Hypothesis fin_core : forall T o, wt T o -> exists r o', wt T o' /\ obj_out o' = obj_out o /\
  (forall q A R, pvalid (obj_out o) A -> fin (S q) (BhAt (List.length A)) (A ++ Some o :: R) =
     match r with Some v => (Ok tt, wr (obj_out o) (Some v) A ++ Some o' :: R) | None => (Err, A ++ Some o' :: R) end) /\
  match r with Some v => has_type E T v | None => True end.
Hypothesis drp_core : forall T o, wt T o -> forall q A R, drp (S q) (BhAt (List.length A)) (A ++ Some o :: R) = (Ok tt, A ++ None :: R).

Notation WP := (WP E).
Notation stable := (stable Gb).
Notation good2 := (good2 Gb).
Notation Cell := (Cell E Gb).

(** A live builder: d: it may panic when finished (again). *)
Inductive SI : nat -> bool -> bh -> (heap -> Prop) -> (heap -> Prop) -> heap -> Prop :=
| SI_ign n d (P W : heap -> Prop) h : P h -> (forall h, P h -> W h) -> SI n d BhIgnore P W h
| SI_core n d (P W : heap -> Prop) T A o M : Gb M -> wt T o -> WP (obj_out o) T P W A -> SI n d (BhAt (List.length A)) P W (A ++ Some o :: M)
| SI_box n d (P W : heap -> Prop) t p c s h1 M : Gb M -> SI n false s (Cell false p c t P W) (Cell true p c t P W) h1 ->
    SI (S n) d (BhAt (List.length h1)) P W (h1 ++ Some (bx p c s) :: M)
| SI_done n (P W : heap -> Prop) t p c h1 M : Gb M -> Cell false p c t P W h1 ->
    SI (S n) true (BhAt (List.length h1)) P W (h1 ++ Some (bx p c BhIgnore) :: M).

Lemma SI_stable n d s P W : stable P -> stable (SI n d s P W).
Proof.
  intros HP h M H G. destruct H.
  - apply SI_ign; [apply HP; assumption|assumption].
  - rewrite <- app_assoc. cbn [app]. eapply SI_core; eauto.
  - rewrite <- app_assoc. cbn [app]. eapply SI_box; eauto.
  - rewrite <- app_assoc. cbn [app]. eapply SI_done; eauto.
Qed.

Definition VI (v : vh) (P : heap -> Prop) (h : heap) : Prop :=
  match v with VhIgnore => P h | VhPlace p t => okty t /\ WP p t P P h end.

Lemma mfree_cell H0 x M R : mfree (List.length H0) ((H0 ++ Some (OCell x) :: M) ++ R) = (Ok tt, (H0 ++ None :: M) ++ R).
Proof. rewrite <- !app_assoc. cbn [app]. apply mfree_mid. Qed.

Lemma drp_ok n d s P W h : SI n d s P W h -> good2 P W -> forall q, (n < q)%nat ->
  exists h', (forall R, drp q s (h ++ R) = (Ok tt, h' ++ R)) /\ List.length h' = List.length h /\ P h'.
Proof.
  induction 1 as [n d P W h HP HW|n d P W T A o M HM HO HW|n d P W t p c s h1 M HM H IH|n P W t p c h1 M HM HC]; intros HG q Hq; (destruct q as [|q]; [lia|]).
  - exists h. split; [intros R; apply drp_ign|]. auto.
  - exists (A ++ None :: M). split; [|split].
    + intros R. rewrite <- !app_assoc. cbn [app]. apply (drp_core T o HO).
    + rewrite !app_length. reflexivity.
    + apply (proj1 HG); [apply HW|]. apply Gb_cons; assumption.
  - destruct (IH (Cell_good E Gb Gb_app p c t P W) q ltac:(lia)) as (h' & HR & HL & H0 & x & M0 & -> & HC & HM0 & HX & _ & HW).
    exists (H0 ++ None :: M0 ++ None :: M). split; [|split].
    + intros R. rewrite <- app_assoc. cbn [app]. rewrite drp_box. unfold mbind. rewrite HR. rewrite HC, mfree_cell.
      rewrite <- HL, app_length. cbn [List.length]. rewrite <- !app_assoc. cbn [app].
      rewrite mid_after. replace (List.length H0 + S (List.length M0))%nat with (List.length (H0 ++ None :: M0)) by (rewrite app_length; reflexivity).
      rewrite mfree_mid. repeat (rewrite <- app_assoc; cbn [app]). reflexivity.
    + len.
    + apply (proj1 HG); [apply HW|]. apply Gb_cons; auto. apply Gb_app; auto. apply Gb_cons; auto.
  - destruct HC as (H0 & x & M0 & -> & HC & HM0 & HX & _ & HW).
    exists (H0 ++ None :: M0 ++ None :: M). split; [|split].
    + intros R. rewrite <- app_assoc. cbn [app]. rewrite drp_box. destruct q as [|q]; [lia|]. unfold mbind. rewrite drp_ign. rewrite HC, mfree_cell.
      rewrite app_length. cbn [List.length]. rewrite <- !app_assoc. cbn [app].
      rewrite mid_after. replace (List.length H0 + S (List.length M0))%nat with (List.length (H0 ++ None :: M0)) by (rewrite app_length; reflexivity).
      rewrite mfree_mid. repeat (rewrite <- app_assoc; cbn [app]). reflexivity.
    + len.
    + apply (proj1 HG); [apply HW|]. apply Gb_cons; auto. apply Gb_app; auto. apply Gb_cons; auto.
Qed.

Lemma VI_box v n d P W t p c s (h1 M : heap) : Gb M -> (forall h, SI n false s (Cell false p c t P W) (Cell true p c t P W) h -> List.length h = List.length h1 ->
    SI (S n) d (BhAt (List.length h1)) P W (h ++ Some (bx p c s) :: M)) ->
  forall h', List.length h' = List.length h1 ->
  VI v (fun h => SI n false s (Cell false p c t P W) (Cell true p c t P W) h) h' ->
  VI v (SI (S n) d (BhAt (List.length h1)) P W) (h' ++ Some (bx p c s) :: M).
Proof.
  intros HM HS h' HL. destruct v as [p' t'|]; cbn [VI].
  - intros [HO (A & B & C)]. split; [exact HO|]. split; [apply pvalid_app, A|]. split; [apply HS; assumption|].
    intros v Hv. rewrite wr_app by exact A. apply HS; [apply C, Hv|]. rewrite wr_length by exact A. exact HL.
  - intros H. apply HS; assumption.
Qed.

Lemma el_ok key : Kok key -> forall n d s P W h, SI n d s P W h -> good2 P W -> forall q, (n < q)%nat ->
  exists r h', (forall R, el key q s (h ++ R) = (r, h' ++ R)) /\ List.length h' = List.length h /\
    match r with Ok v => VI v (SI n d s P W) h' | Err => SI n d s P W h' | Fault _ => False end.
Proof.
  intros HK. induction 1 as [n d P W h HP HW|n d P W T A o M HM HO HW|n d P W t p c s h1 M HM H IH|n P W t p c h1 M HM HC]; intros HG q Hq; (destruct q as [|q]; [lia|]).
  - exists (Ok VhIgnore), h. split; [intros R; apply el_ign|]. split; [reflexivity|]. cbn [VI]. apply SI_ign; assumption.
  - destruct (el_core T o key HO HK) as (r & o' & HO' & HOUT & HE & HR). rewrite <- HOUT in HW.
    exists (match r with Some (Some (i, t)) => Ok (VhPlace (mkplace (List.length A) i 0) t) | Some None => Ok VhIgnore | None => Err end), (A ++ Some o' :: M).
    split; [|split].
    + intros R. rewrite <- !app_assoc. cbn [app]. apply HE.
    + rewrite !app_length. reflexivity.
    + destruct r as [[[i t]|]|].
      * destruct HR as (HT & (s & Hs) & HV). cbn [VI]. split; [exact HT|]. split; [eapply pvalid_mid; exact Hs|]. split; [eapply SI_core; eauto|].
        intros v Hv. rewrite (wr_mid _ _ _ _ s) by exact Hs. destruct (HV v Hv) as [H1 H2]. eapply SI_core; eauto. rewrite H2, <- HOUT. exact HW.
      * cbn [VI]. eapply SI_core; eauto.
      * eapply SI_core; eauto.
  - destruct (IH (Cell_good E Gb Gb_app p c t P W) q ltac:(lia)) as (r & h' & HR & HL & HV).
    exists r, (h' ++ Some (bx p c s) :: M). split; [|split].
    + intros R. rewrite <- !app_assoc. cbn [app]. rewrite el_box. apply HR.
    + rewrite !app_length. cbn [List.length]. lia.
    + assert (HS : forall h, SI n false s (Cell false p c t P W) (Cell true p c t P W) h -> List.length h = List.length h1 ->
        SI (S n) d (BhAt (List.length h1)) P W (h ++ Some (bx p c s) :: M)) by (intros h HH <-; apply SI_box with (t := t); assumption).
      destruct r as [v| |f]; [|apply HS; assumption|exact HV].
      apply VI_box with (t := t); auto.
  - exists (Ok VhIgnore), (h1 ++ Some (bx p c BhIgnore) :: M). destruct q as [|q]; [lia|]. split; [|split; [reflexivity|]].
    + intros R. rewrite <- !app_assoc. cbn [app]. rewrite el_box. apply el_ign.
    + cbn [VI]. apply SI_done with (t := t); assumption.
Qed.

Lemma place_read_cell H0 x R : place_read (slot0 (List.length H0)) (H0 ++ Some (OCell x) :: R) = (Ok x, H0 ++ Some (OCell x) :: R).
Proof. unfold place_read, slot0, mbind. cbn [p_loc p_slot p_depth]. rewrite mget_mid. reflexivity. Qed.

(** The tail of a box's finish(), once the inner builder is gone. *)
Lemma box_tail written n P W t p c s h1 M R : good2 P W -> Gb M -> Cell written p c t P W h1 ->
  exists r h2, (do _ <- mset (List.length h1) (bx p c BhIgnore);
    do o' <- place_read (slot0 c);
    match o' with
    | None => crash FPanic
    | Some v => do _ <- place_write (slot0 c) None; place_write p (Some (VBox v))
    end) (h1 ++ Some (bx p c s) :: M ++ R) = (r, h2 ++ R) /\ List.length h2 = (List.length h1 + S (List.length M))%nat /\
    match r with
    | Ok _ => SI (S n) true (BhAt (List.length h1)) W W h2
    | Fault FPanic => written = false /\ SI (S n) true (BhAt (List.length h1)) P W h2
    | _ => False
    end /\ (forall R', (do _ <- mset (List.length h1) (bx p c BhIgnore);
    do o' <- place_read (slot0 c);
    match o' with
    | None => crash FPanic
    | Some v => do _ <- place_write (slot0 c) None; place_write p (Some (VBox v))
    end) (h1 ++ Some (bx p c s) :: M ++ R') = (r, h2 ++ R')).
Proof.
  intros HG HM (H0 & x & M0 & -> & HC & HM0 & HX & HB & HW).
  assert (E1 : forall R, (do _ <- mset (List.length (H0 ++ Some (OCell x) :: M0)) (bx p c BhIgnore);
    do o' <- place_read (slot0 c);
    match o' with
    | None => crash FPanic
    | Some v => do _ <- place_write (slot0 c) None; place_write p (Some (VBox v))
    end) ((H0 ++ Some (OCell x) :: M0) ++ Some (bx p c s) :: M ++ R) =
    match x with
    | None => (Fault FPanic, (((H0 ++ Some (OCell None) :: M0) ++ Some (bx p c BhIgnore) :: M)) ++ R)
    | Some v => (Ok tt, (((wr p (Some (VBox v)) H0 ++ Some (OCell None) :: M0) ++ Some (bx p c BhIgnore) :: M)) ++ R)
    end).
  { intros R'. unfold mbind. rewrite mset_mid. rewrite HC.
    assert (EA : forall y, (H0 ++ Some (OCell y) :: M0) ++ Some (bx p (List.length H0) BhIgnore) :: M ++ R' = H0 ++ Some (OCell y) :: (M0 ++ Some (bx p (List.length H0) BhIgnore) :: M ++ R')) by (intros y; rewrite <- app_assoc; reflexivity).
    rewrite EA, place_read_cell. destruct x as [v|].
    - rewrite place_write_ok by apply pvalid_cell. rewrite wr_cell.
      rewrite place_write_ok by (apply pvalid_app, HW). rewrite wr_app by apply HW. rewrite <- !app_assoc. cbn [app]. reflexivity.
    - cbn [crash]. unfold crash. rewrite <- !app_assoc. cbn [app]. reflexivity. }
  destruct x as [v|].
  - exists (Ok tt), ((wr p (Some (VBox v)) H0 ++ Some (OCell None) :: M0) ++ Some (bx p c BhIgnore) :: M).
    split; [apply E1|]. split; [|split; [|exact E1]].
    + rewrite !app_length. cbn [List.length]. rewrite wr_length by apply HW. lia.
    + replace (List.length (H0 ++ Some (OCell (Some v)) :: M0)) with (List.length (wr p (Some (VBox v)) H0 ++ Some (OCell None) :: M0)) by (rewrite !app_length; cbn [List.length]; rewrite wr_length by apply HW; reflexivity).
      apply SI_done with (t := t); [exact HM|]. exists (wr p (Some (VBox v)) H0), None, M0. split; [reflexivity|]. split; [rewrite wr_length by apply HW; exact HC|].
      split; [exact HM0|]. split; [exact Logic.I|]. split; [discriminate|]. apply (WP_write E p (TBox t) P W H0 (VBox v) HW). constructor. exact HX.
  - exists (Fault FPanic), ((H0 ++ Some (OCell None) :: M0) ++ Some (bx p c BhIgnore) :: M).
    split; [apply E1|]. split; [|split; [|exact E1]].
    + rewrite !app_length. reflexivity.
    + split; [destruct written; [|reflexivity]; destruct HB; reflexivity|]. apply SI_done with (t := t); [exact HM|]. exists H0, None, M0. cs.
Qed.

Lemma fin_ok n d s P W h : SI n d s P W h -> good2 P W -> forall q, (n < q)%nat ->
  exists r h', (forall R, fin q s (h ++ R) = (r, h' ++ R)) /\ List.length h' = List.length h /\
    match r with
    | Ok _ => SI n true s W W h'
    | Err => SI n d s P W h'
    | Fault FPanic => d = true /\ SI n true s P W h'
    | Fault _ => False
    end.
Proof.
  induction 1 as [n d P W h HP HW|n d P W T A o M HM HO HW|n d P W t p c s h1 M HM H IH|n P W t p c h1 M HM HC]; intros HG q Hq; (destruct q as [|q]; [lia|]).
  - exists (Ok tt), h. split; [intros R; apply fin_ign|]. split; [reflexivity|]. apply SI_ign; auto.
  - destruct (fin_core T o HO) as (r & o' & HO' & HOUT & HE & HR).
    exists (match r with Some _ => Ok tt | None => Err end), (match r with Some v => wr (obj_out o) (Some v) A ++ Some o' :: M | None => A ++ Some o' :: M end).
    split; [|split].
    + intros R. rewrite <- !app_assoc. cbn [app]. rewrite HE by apply HW. destruct r; rewrite <- !app_assoc; reflexivity.
    + destruct r; rewrite !app_length; [rewrite wr_length by apply HW|]; reflexivity.
    + destruct r as [v|].
      * replace (List.length A) with (List.length (wr (obj_out o) (Some v) A)) by (apply wr_length, HW). eapply SI_core; [exact HM|exact HO'|].
        rewrite HOUT. eapply WP_write; eassumption.
      * eapply SI_core; [exact HM|exact HO'|]. rewrite HOUT. exact HW.
  - destruct (IH (Cell_good E Gb Gb_app p c t P W) q ltac:(lia)) as (r & h' & HR & HL & HV).
    destruct r as [u| |f].
    + destruct (drp_ok _ _ _ _ _ _ HV (good_refl Gb _ (proj1 (proj2 (Cell_good E Gb Gb_app p c t P W)))) q ltac:(lia)) as (h2 & HD & HL2 & HC).
      destruct (box_tail true n P W t p c s h2 M [] HG HM HC) as (r & h3 & _ & HL3 & HF & HA).
      exists r, h3. split; [|split].
      * intros R. rewrite <- !app_assoc. cbn [app]. rewrite fin_box. unfold mbind at 1. rewrite HR. unfold mbind at 1. rewrite HD.
        rewrite <- HL, <- HL2. apply HA.
      * rewrite HL3, app_length. cbn [List.length]. lia.
      * rewrite <- HL, <- HL2. destruct r as [u'| |[]]; try contradiction; [exact HF|destruct HF; discriminate].
    + exists Err, (h' ++ Some (bx p c s) :: M). split; [|split].
      * intros R. rewrite <- !app_assoc. cbn [app]. rewrite fin_box. unfold mbind at 1. rewrite HR. reflexivity.
      * rewrite !app_length. cbn [List.length]. lia.
      * rewrite <- HL. apply SI_box with (t := t); assumption.
    + destruct f; try contradiction. destruct HV; discriminate.
  - destruct (box_tail false n P W t p c BhIgnore h1 M [] HG HM HC) as (r & h3 & _ & HL3 & HF & HA).
    exists r, h3. destruct q as [|q]; [lia|]. split; [|split].
    + intros R. rewrite <- !app_assoc. cbn [app]. rewrite fin_box. unfold mbind at 1. rewrite fin_ign. unfold mbind at 1. rewrite drp_ign. apply HA.
    + rewrite HL3, app_length. reflexivity.
    + destruct r as [u'| |[]]; try contradiction; [exact HF|]. destruct HF as [_ HF]. split; [reflexivity|exact HF].
Qed.
End Builders.
