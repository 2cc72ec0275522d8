(** Safe clients: the invariant of a run. *)
From Coq Require Import String ZArith List Bool Lia Floats.SpecFloat.
From Verif Require Import Base Utf8 F64 Lexer Driver Grammar LexSpec Types Impls Tree DriverFacts Denote
  HeapFacts HeapSeq HeapMap HeapMain Reading MapFacts TypedFacts NumFacts FromStr ClientSpec ClientFacts ClientInst ClientVis.
Import ListNotations.
Open Scope Z_scope.

Lemma seq_element_ign (key : unit) q h : seq_element (S q) BhIgnore h = (Ok VhIgnore, h). Proof. reflexivity. Qed.
Lemma seq_element_box (key : unit) q A p c s R : seq_element (S q) (BhAt (List.length A)) (A ++ Some (OBoxSeq p c s) :: R) = seq_element q s (A ++ Some (OBoxSeq p c s) :: R).
Proof. cbn [seq_element]. unfold mbind at 1. rewrite mget_mid. reflexivity. Qed.
Lemma seq_drop_box q A p c s R : seq_drop (S q) (BhAt (List.length A)) (A ++ Some (OBoxSeq p c s) :: R) =
  (do _ <- seq_drop q s; do _ <- mfree c; mfree (List.length A)) (A ++ Some (OBoxSeq p c s) :: R).
Proof. cbn [seq_drop]. unfold mbind at 1. rewrite mget_mid. reflexivity. Qed.
Lemma seq_finish_box q A p c s R : seq_finish (S q) (BhAt (List.length A)) (A ++ Some (OBoxSeq p c s) :: R) =
  (do _ <- seq_finish q s; do _ <- seq_drop q s; do _ <- mset (List.length A) (OBoxSeq p c BhIgnore);
   do o' <- place_read (slot0 c);
   match o' with
   | None => crash FPanic
   | Some v => do _ <- place_write (slot0 c) None; place_write p (Some (VBox v))
   end) (A ++ Some (OBoxSeq p c s) :: R).
Proof. cbn [seq_finish]. unfold mbind at 1. rewrite mget_mid. reflexivity. Qed.
Lemma map_key_box key q A p c s R : map_key (S q) (BhAt (List.length A)) key (A ++ Some (OBoxMap p c s) :: R) = map_key q s key (A ++ Some (OBoxMap p c s) :: R).
Proof. cbn [map_key]. unfold mbind at 1. rewrite mget_mid. reflexivity. Qed.
Lemma map_drop_box q A p c s R : map_drop (S q) (BhAt (List.length A)) (A ++ Some (OBoxMap p c s) :: R) =
  (do _ <- map_drop q s; do _ <- mfree c; mfree (List.length A)) (A ++ Some (OBoxMap p c s) :: R).
Proof. cbn [map_drop]. unfold mbind at 1. rewrite mget_mid. reflexivity. Qed.
Lemma map_finish_box q A p c s R : map_finish (S q) (BhAt (List.length A)) (A ++ Some (OBoxMap p c s) :: R) =
  (do _ <- map_finish q s; do _ <- map_drop q s; do _ <- mset (List.length A) (OBoxMap p c BhIgnore);
   do o' <- place_read (slot0 c);
   match o' with
   | None => crash FPanic
   | Some v => do _ <- place_write (slot0 c) None; place_write p (Some (VBox v))
   end) (A ++ Some (OBoxMap p c s) :: R).
Proof. cbn [map_finish]. unfold mbind at 1. rewrite mget_mid. reflexivity. Qed.

Section Main.
Variable E : env.
Variable k : nat.
Variable T : ty.
Hypothesis Hk : (wrap_depth E T < k)%nat.
Hypothesis HT : ty_ok T = true.
Hypothesis HE : env_ok E = true.
Variable Gb : heap -> Prop.
Hypothesis Gb_nil : Gb [].
Hypothesis Gb_app : forall a b, Gb a -> Gb b -> Gb (a ++ b).
Hypothesis Gb_none : Gb [None].

Lemma fitsE : forall id fs, nth_error E id = Some (DStruct fs) -> Forall (fun f => fits k (snd f)) fs.
Proof. apply (depth_fits E T k Hk). Qed.
Lemma k_pos : (0 < k)%nat. Proof. lia. Qed.
Lemma T_ok : okty k T. Proof. split; [apply (depth_fits E T k Hk)|exact HT]. Qed.

Notation SIq := (SI E Gb OBoxSeq (sq_wt E k)).
Notation SIm := (SI E Gb OBoxMap (mp_wt E k)).
Notation VI := (VI E (okty k)).

Definition q_el := el_ok E Gb Gb_app (okty k) unit (fun _ => True) (fun _ => seq_element) OBoxSeq (sq_wt E k) seq_element_ign seq_element_box (sq_el_core E k k_pos).
Definition q_fin := fin_ok E Gb Gb_app Gb_none seq_finish seq_drop OBoxSeq (sq_wt E k) (fun q h => eq_refl) (fun q h => eq_refl) seq_drop_box seq_finish_box (sq_fin_core E k k_pos) (sq_drp_core E k k_pos).
Definition q_drp := drp_ok E Gb Gb_app Gb_none seq_drop OBoxSeq (sq_wt E k) (fun q h => eq_refl) seq_drop_box (sq_drp_core E k k_pos).
Definition m_el := el_ok E Gb Gb_app (okty k) bytes (fun key => str_ok key = true) (fun key q m => map_key q m key) OBoxMap (mp_wt E k) (fun key q h => eq_refl) map_key_box (mp_el_core E k fitsE k_pos HE).
Definition m_fin := fin_ok E Gb Gb_app Gb_none map_finish map_drop OBoxMap (mp_wt E k) (fun q h => eq_refl) (fun q h => eq_refl) map_drop_box map_finish_box (mp_fin_core E k k_pos) (mp_drp_core E k k_pos).
Definition m_drp := drp_ok E Gb Gb_app Gb_none map_drop OBoxMap (mp_wt E k) (fun q h => eq_refl) map_drop_box (mp_drp_core E k k_pos).

Definition Root (h : heap) : Prop := exists x M, h = Some (OCell x) :: M /\ Gb M /\ otyped E T x.
Fixpoint SInv (st : list (handle * bool)) : heap -> Prop :=
  match st with
  | [] => Root
  | (HVisitor v, _) :: r => VI v (SInv r)
  | (HSeq s, d) :: r => fun h => exists n, (n < k)%nat /\ SIq n d s (SInv r) (SInv r) h
  | (HMap s, d) :: r => fun h => exists n, (n < k)%nat /\ SIm n d s (SInv r) (SInv r) h
  end.

Lemma VI_stable v P : stable Gb P -> stable Gb (VI v P).
Proof.
  intros HP h M. destruct v as [p t|]; cbn [VI]; [|apply HP]. intros [A B] HM. split; [exact A|]. eapply WP_app; [apply good_refl, HP|exact B|exact HM].
Qed.
Lemma SInv_stable st : stable Gb (SInv st).
Proof.
  induction st as [|[[v|s|s] d] r IH]; cbn [SInv].
  - intros h M (x & M0 & -> & A & B) HM. exists x, (M0 ++ M). split; [reflexivity|]. split; [apply Gb_app; assumption|exact B].
  - apply VI_stable, IH.
  - intros h M (n & Hn & H) HM. exists n. split; [exact Hn|]. apply SI_stable; auto.
  - intros h M (n & Hn & H) HM. exists n. split; [exact Hn|]. apply SI_stable; auto.
Qed.
Lemma SInv_good st : good2 Gb (SInv st) (SInv st). Proof. apply good_refl, SInv_stable. Qed.

(** The obligations of a visitor persist while it is used. *)
Lemma WP_self p t P h : stable Gb P -> okty k t -> WP E p t P P h -> WP E p t (VI (VhPlace p t) P) (VI (VhPlace p t) P) h.
Proof.
  intros HP HO HW. split; [apply HW|]. split; [split; [exact HO|exact HW]|]. intros v Hv. split; [exact HO|]. eapply WP_write; eassumption.
Qed.
Lemma okty_wraps t : okty k t -> (wraps t < k)%nat.
Proof. intros [A _]. unfold fits in A. pose proof (wraps_maxw t). lia. Qed.
Lemma VI_under v P h : VI v P h -> P h. Proof. destruct v; [intros [_ H]; apply H|auto]. Qed.

(** A panic comes from finish() on a builder already finished. *)
Definition allowed (op : cop) (s : cstate) (r : res unit) : Prop :=
  match r with
  | Ok _ => True
  | Err => match op with CpDone | CpForget | CpBegin | CpSet _ => False | _ => True end
  | Fault FPanic => op = CpFinish /\ exists b below, c_open s = (b, true) :: below
  | Fault _ => False
  end.

Lemma SI_under bx wt n d s P W h : (forall h : heap, Gb h) -> SI E Gb bx wt n d s P W h -> good2 Gb P W -> P h.
Proof.
  intros forget_ok. induction 1 as [n d P W h HP HW|n d P W t A o M HM HO HW|n d P W t p c s h1 M HM H IH|n P W t p c h1 M HM HC]; intros HG.
  - exact HP.
  - apply (proj1 HG); [apply HW|apply forget_ok].
  - specialize (IH (Cell_good E Gb Gb_app p c t P W)). destruct IH as (H0 & x & M0 & -> & _ & _ & _ & _ & HW). rewrite <- app_assoc. apply (proj1 HG); [apply HW|apply forget_ok].
  - destruct HC as (H0 & x & M0 & -> & _ & _ & _ & _ & HW). rewrite <- app_assoc. apply (proj1 HG); [apply HW|apply forget_ok].
Qed.

Lemma wr_root x y M : wr (slot0 0) y (Some (OCell x) :: M) = Some (OCell y) :: M.
Proof. exact (wr_cell [] x y M). Qed.
Lemma some_inj {A} (a b : A) : Some a = Some b -> a = b. Proof. congruence. Qed.
Lemma app_nil (h : heap) : h ++ [] = h. Proof. apply app_nil_r. Qed.

Lemma cstep_ok op s r s' : SInv (c_open s) (c_heap s) -> arg_ok E T op -> (forgets op = true -> forall h : heap, Gb h) ->
  cstep E k T op s = Some (r, s') -> SInv (c_open s') (c_heap s') /\ allowed op s r.
Proof.
  destruct s as [h [|[[v|q|m] d] below]]; cbn [c_open c_heap SInv]; intros HI HA HF HS.
  - (* nothing open *) destruct HI as (x0 & M & -> & HM & HX).
    destruct op; cbn [cstep c_open c_heap] in HS; try discriminate.
    + injection HS as <- <-. split; [|exact Logic.I]. cbn [c_open c_heap SInv VI]. split; [apply T_ok|]. split; [apply (pvalid_cell [] x0 M)|]. split; [exists x0, M; auto|].
      intros v Hv. rewrite wr_root. exists (Some v), M. auto.
    + rewrite place_write_ok in HS by apply (pvalid_cell [] x0 M). rewrite wr_root in HS. cbn [fst snd] in HS. injection HS as <- <-. cbn [c_open c_heap]. split; [|exact Logic.I]. exists x, M.
      split; [reflexivity|]. split; [exact HM|]. destruct x as [v|]; [exact HA|exact Logic.I].
  - (* a visitor *)
    destruct op; cbn [cstep c_open c_heap] in HS; try discriminate; apply some_inj in HS.
    + (* visit *) injection HS as <- <-. cbn [c_open c_heap SInv]. destruct v as [p t|]; cbn [vis].
      * destruct HI as [HO HW]. destruct (vis_prim_ok E k k_pos Gb Gb_nil Gb_app Gb_none ev) with (T := t) (q := k) (p := p) (P := VI (VhPlace p t) (SInv below)) (W := VI (VhPlace p t) (SInv below)) (h := h) as (r & h' & EV & HR).
        { intros T'. destruct ev; exact HA. } { apply okty_wraps, HO. } { apply HO. } { apply good_refl, VI_stable, SInv_stable. } { apply WP_self; auto using SInv_stable. }
        rewrite EV. cbn [fst snd]. destruct r as [u| |f]; [| |contradiction]; (split; [exact HR|exact Logic.I]).
      * cbn [ret fst snd]. split; [exact HI|exact Logic.I].
    + (* seq *) cbn [heap_iface v_seq] in HS. destruct v as [p t|].
      * destruct HI as [HO HW]. destruct (vis_seq_ok E k k_pos Gb Gb_nil Gb_app Gb_none t k p (VI (VhPlace p t) (SInv below)) (VI (VhPlace p t) (SInv below)) h) as (n & Hn & r' & h' & EV & HR).
        { apply okty_wraps, HO. } { apply HO. } { apply good_refl, VI_stable, SInv_stable. } { apply WP_self; auto using SInv_stable. }
        rewrite EV in HS. pose proof (okty_wraps t HO). destruct r' as [b| |f]; [| |contradiction]; injection HS as <- <-; cbn [c_open c_heap]; (split; [|exact Logic.I]); [|exact HR].
        cbn [SInv]. exists n. split; [lia|exact HR].
      * injection HS as <- <-. cbn [c_open c_heap]. split; [|exact Logic.I]. cbn [SInv]. exists O. split; [apply k_pos|]. apply SI_ign; auto.
    + (* map *) cbn [heap_iface v_map] in HS. destruct v as [p t|].
      * destruct HI as [HO HW]. destruct (vis_map_ok E k k_pos Gb Gb_nil Gb_app Gb_none t k p (VI (VhPlace p t) (SInv below)) (VI (VhPlace p t) (SInv below)) h) as (n & Hn & r' & h' & EV & HR).
        { apply okty_wraps, HO. } { apply HO. } { apply good_refl, VI_stable, SInv_stable. } { apply WP_self; auto using SInv_stable. }
        rewrite EV in HS. pose proof (okty_wraps t HO). destruct r' as [b| |f]; [| |contradiction]; injection HS as <- <-; cbn [c_open c_heap]; (split; [|exact Logic.I]); [|exact HR].
        cbn [SInv]. exists n. split; [lia|exact HR].
      * injection HS as <- <-. cbn [c_open c_heap]. split; [|exact Logic.I]. cbn [SInv]. exists O. split; [apply k_pos|]. apply SI_ign; auto.
    + injection HS as <- <-. cbn [c_open c_heap]. split; [eapply VI_under, HI|exact Logic.I].
    + injection HS as <- <-. cbn [c_open c_heap]. split; [eapply VI_under, HI|exact Logic.I].
  - (* a sequence builder *) destruct HI as (n & Hn & HI). pose proof (SInv_good below) as HG.
    destruct op; cbn [cstep c_open c_heap] in HS; try discriminate; apply some_inj in HS.
    + cbn [heap_iface s_element] in HS. destruct (q_el tt Logic.I n d q _ _ h HI HG k Hn) as (r' & h' & HR & _ & HV). specialize (HR []). rewrite !app_nil in HR.
      rewrite HR in HS. destruct r' as [v| |f]; [| |contradiction]; injection HS as <- <-; cbn [c_open c_heap]; (split; [|exact Logic.I]).
      * cbn [SInv]. destruct v as [p t|]; cbn [VI] in *.
        -- destruct HV as [HO (A & B & C)]. split; [exact HO|]. split; [exact A|]. split; [exists n; auto|]. intros v Hv. exists n. auto.
        -- exists n. auto.
      * cbn [SInv]. exists n. auto.
    + cbn [heap_iface s_finish] in HS. destruct (q_fin n d q _ _ h HI HG k Hn) as (r' & h' & HR & _ & HV). specialize (HR []). rewrite !app_nil in HR.
      unfold finishes in HS. rewrite HR in HS. cbn [fst snd] in HS. injection HS as <- <-. cbn [c_open c_heap]. destruct r' as [u| |[]]; try contradiction.
      * split; [|exact Logic.I]. cbn [SInv]. exists n. auto.
      * split; [|exact Logic.I]. cbn [SInv]. exists n. auto.
      * destruct HV as [-> HV]. split; [cbn [SInv]; exists n; auto|]. split; [reflexivity|]. eexists _, _. reflexivity.
    + cbn [heap_iface s_drop] in HS. destruct (q_drp n d q _ _ h HI HG k Hn) as (h' & HR & _ & HV). specialize (HR []). rewrite !app_nil in HR.
      rewrite HR in HS. injection HS as <- <-. cbn [c_open c_heap]. split; [exact HV|exact Logic.I].
    + injection HS as <- <-. cbn [c_open c_heap]. split; [|exact Logic.I]. eapply SI_under; eauto.
  - (* a map builder *) destruct HI as (n & Hn & HI). pose proof (SInv_good below) as HG.
    destruct op; cbn [cstep c_open c_heap] in HS; try discriminate; apply some_inj in HS.
    + cbn [heap_iface m_key] in HS. destruct (m_el key HA n d m _ _ h HI HG k Hn) as (r' & h' & HR & _ & HV). specialize (HR []). rewrite !app_nil in HR.
      rewrite HR in HS. destruct r' as [v| |f]; [| |contradiction]; injection HS as <- <-; cbn [c_open c_heap]; (split; [|exact Logic.I]).
      * cbn [SInv]. destruct v as [p t|]; cbn [VI] in *.
        -- destruct HV as [HO (A & B & C)]. split; [exact HO|]. split; [exact A|]. split; [exists n; auto|]. intros v Hv. exists n. auto.
        -- exists n. auto.
      * cbn [SInv]. exists n. auto.
    + cbn [heap_iface m_finish] in HS. destruct (m_fin n d m _ _ h HI HG k Hn) as (r' & h' & HR & _ & HV). specialize (HR []). rewrite !app_nil in HR.
      unfold finishes in HS. rewrite HR in HS. cbn [fst snd] in HS. injection HS as <- <-. cbn [c_open c_heap]. destruct r' as [u| |[]]; try contradiction.
      * split; [|exact Logic.I]. cbn [SInv]. exists n. auto.
      * split; [|exact Logic.I]. cbn [SInv]. exists n. auto.
      * destruct HV as [-> HV]. split; [cbn [SInv]; exists n; auto|]. split; [reflexivity|]. eexists _, _. reflexivity.
    + cbn [heap_iface m_drop] in HS. destruct (m_drp n d m _ _ h HI HG k Hn) as (h' & HR & _ & HV). specialize (HR []). rewrite !app_nil in HR.
      rewrite HR in HS. injection HS as <- <-. cbn [c_open c_heap]. split; [exact HV|exact Logic.I].
    + injection HS as <- <-. cbn [c_open c_heap]. split; [|exact Logic.I]. eapply SI_under; eauto.
Qed.

Lemma init_ok : SInv (c_open c_init) (c_heap c_init).
Proof. exists None, []. split; [reflexivity|]. split; [exact Gb_nil|exact Logic.I]. Qed.
End Main.
