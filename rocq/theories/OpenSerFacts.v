(** A value is serialized in the same way whatever surrounds it. *)
From Coq Require Import String ZArith List Bool Lia.
From Verif Require Import Base Utf8 F64 Lexer Types Ser SerSpec EscFacts SerFacts OpenSer OpenSerSpec.
Import ListNotations.
Open Scope Z_scope.

Section Frame.
Context {St D SQ MP : Type}.
Variable I : siface St D SQ MP.
Variable ryu : f64 -> bytes.
Notation loop := (ser_loop I ryu).
Notation cont := (cont I ryu).

Definition returns : Prop :=
  (forall d st, runs (fst (i_begin I d st))) /\
  (forall q st, runs (fst (fst (i_seq_next I q st)))) /\
  (forall m st, runs (fst (fst (i_map_next I m st)))) /\
  (forall q st, runs (fst (i_seq_drop I q st))) /\
  (forall m st, runs (fst (i_map_drop I m st))).
Hypothesis HR : returns.
Hypothesis HV : strs_valid I.

Definition framed (b : nat) (stack : list slayer) (out : bytes) (small : res bytes * St) (big : nat -> res bytes * St) : Prop :=
  match small with
  | (Ok s, st1) => exists n, (n <= b)%nat /\ forall k, big k = cont (n + k) (ser_pop I stack (out ++ s) st1)
  | (Fault FFuel, st1) => big 0%nat = (Fault FFuel, st1)
  | (Fault FPanic, st1) => forall k, big k = sunwind I stack st1
  | (r, st1) => forall k, big k = (r, st1)
  end.

Lemma unwind_app {A B} s0 : forall stack st,
  @sunwind _ _ _ _ I A (s0 ++ stack) st =
  match @sunwind _ _ _ _ I B s0 st with
  | (Fault FPanic, st') => sunwind I stack st'
  | (Fault f, st') => (Fault f, st')
  | (_, st') => (Err, st')
  end.
Proof.
  induction s0 as [|l s0 IH]; intros stack st; cbn [sunwind app]; [reflexivity|].
  destruct (sdrop I l st) as [[u| |[]] st1]; try apply IH; reflexivity.
Qed.
Lemma cont_unwind n ls st : cont n (sunwind I ls st) = sunwind I ls st.
Proof.
  revert st. induction ls as [|l ls IH]; intros st; cbn [sunwind]; [reflexivity|].
  destruct (sdrop I l st) as [[u| |[]] st1]; try apply IH; reflexivity.
Qed.
Lemma sdrop_runs l st : runs (fst (sdrop I l st)).
Proof. destruct HR as (_ & _ & _ & H1 & H2). destruct l; [apply H1|apply H2]. Qed.
Lemma unwind_outcome {A} ls : forall st, exists st', @sunwind _ _ _ _ I A ls st = (Fault FPanic, st') \/ @sunwind _ _ _ _ I A ls st = (Fault FAbort, st').
Proof.
  induction ls as [|l ls IH]; intros st; cbn [sunwind]; [eauto|].
  pose proof (sdrop_runs l st) as HS. destruct (sdrop I l st) as [r st1]. destruct HS as [[a E]|E]; cbn [fst] in E; subst r; eauto.
Qed.

Lemma framed_weaken b b' stack out small big : (b <= b')%nat -> framed b stack out small big -> framed b' stack out small big.
Proof. intros L. unfold framed. destruct small as [[s| |[]] st1]; try exact (fun H => H). intros [n [LN K]]. exists n. split; [lia|exact K]. Qed.
Lemma framed_unwind b stack out s0 st (big : nat -> res bytes * St) :
  (forall k, big k = sunwind I (s0 ++ stack) st) -> framed b stack out (sunwind I s0 st) big.
Proof.
  intros H. destruct (@unwind_outcome bytes s0 st) as [st' [K|K]]; rewrite K; cbn [framed]; intros k; rewrite H, (@unwind_app bytes bytes), K; reflexivity.
Qed.

Section Inner.
Variable fuel : nat.
Variable stack : list (slayer (SQ := SQ) (MP := MP)).
Variable out : bytes.
Hypothesis IHloop : forall d s0 o st, framed fuel stack out (loop fuel d s0 o st) (fun k => loop (fuel + k) d (s0 ++ stack) (out ++ o) st).
Lemma frame_pop s0 : forall o st,
  framed fuel stack out (cont fuel (ser_pop I s0 o st)) (fun k => cont (fuel + k) (ser_pop I (s0 ++ stack) (out ++ o) st)).
Proof.
  pose proof HR as (_ & H2 & H3 & H4 & H5). induction s0 as [|[q|m] s0 IH]; intros o st; cbn [app].
  - cbn. eauto.
  - cbn [ser_pop]. specialize (H2 q st). destruct (i_seq_next I q st) as [[r q'] st1]. cbn [fst] in H2. destruct H2 as [[[d|] ->]| ->].
    + cbn [cont]. rewrite <- app_assoc. apply (IHloop d (SLSeq q' :: s0)).
    + specialize (H4 q' st1). destruct (i_seq_drop I q' st1) as [r st2]. cbn [fst] in H4. destruct H4 as [[u ->]| ->].
      * rewrite <- app_assoc. apply IH.
      * cbn [son_fault]. rewrite cont_unwind. apply framed_unwind. intros k. apply cont_unwind.
    + cbn [son_fault]. rewrite cont_unwind. apply (framed_unwind _ _ _ (SLSeq q' :: s0)). intros k. apply cont_unwind.
  - cbn [ser_pop]. specialize (H3 m st). destruct (i_map_next I m st) as [[r m'] st1] eqn:EN. cbn [fst] in H3. destruct H3 as [[[[k d]|] ->]| ->].
    + pose proof (proj2 HV _ _ _ _ _ _ EN) as HK. rewrite !escape_str_eq by exact HK. cbn [cont]. rewrite <- !app_assoc. apply (IHloop d (SLMap m' :: s0)).
    + specialize (H5 m' st1). destruct (i_map_drop I m' st1) as [r st2]. cbn [fst] in H5. destruct H5 as [[u ->]| ->].
      * rewrite <- app_assoc. apply IH.
      * cbn [son_fault]. rewrite cont_unwind. apply framed_unwind. intros k. apply cont_unwind.
    + cbn [son_fault]. rewrite cont_unwind. apply (framed_unwind _ _ _ (SLMap m' :: s0)). intros k. apply cont_unwind.
Qed.
Lemma frame_turn f s0 o st : (forall s, f = FStr s -> str_ok s = true) ->
  framed fuel stack out (cont fuel (ser_turn I ryu f s0 o st)) (fun k => cont (fuel + k) (ser_turn I ryu f (s0 ++ stack) (out ++ o) st)).
Proof.
  intros HF. pose proof HR as (_ & H2 & H3 & H4 & H5). destruct f as [|b|s|z|z|f|q|m]; cbn [ser_turn ser_scalar].
  1, 2, 4, 5, 6: rewrite <- app_assoc; apply frame_pop.
  - rewrite !escape_str_eq by (apply HF; reflexivity). cbn [ser_scalar]. rewrite <- app_assoc. apply frame_pop.
  - specialize (H2 q st). destruct (i_seq_next I q st) as [[r q'] st1]. cbn [fst] in H2. destruct H2 as [[[d|] ->]| ->].
    + cbn [cont]. rewrite <- app_assoc. apply (IHloop d (SLSeq q' :: s0)).
    + specialize (H4 q' st1). destruct (i_seq_drop I q' st1) as [r st2]. cbn [fst] in H4. destruct H4 as [[u ->]| ->].
      * rewrite <- app_assoc. apply frame_pop.
      * cbn [son_fault]. rewrite cont_unwind. apply framed_unwind. intros k. apply cont_unwind.
    + cbn [son_fault]. rewrite cont_unwind. apply (framed_unwind _ _ _ (SLSeq q' :: s0)). intros k. apply cont_unwind.
  - specialize (H3 m st). destruct (i_map_next I m st) as [[r m'] st1] eqn:EN. cbn [fst] in H3. destruct H3 as [[[[k d]|] ->]| ->].
    + pose proof (proj2 HV _ _ _ _ _ _ EN) as HK. rewrite !escape_str_eq by exact HK. cbn [cont]. rewrite <- !app_assoc. apply (IHloop d (SLMap m' :: s0)).
    + specialize (H5 m' st1). destruct (i_map_drop I m' st1) as [r st2]. cbn [fst] in H5. destruct H5 as [[u ->]| ->].
      * rewrite <- app_assoc. apply frame_pop.
      * cbn [son_fault]. rewrite cont_unwind. apply framed_unwind. intros k. apply cont_unwind.
    + cbn [son_fault]. rewrite cont_unwind. apply (framed_unwind _ _ _ (SLMap m' :: s0)). intros k. apply cont_unwind.
Qed.
End Inner.

Lemma frame_loop stack out fuel : forall d s0 o st,
  framed (pred fuel) stack out (loop fuel d s0 o st) (fun k => loop (fuel + k) d (s0 ++ stack) (out ++ o) st).
Proof.
  pose proof HR as (H1 & _). induction fuel as [|fuel IH]; intros d s0 o st; [reflexivity|].
  cbn [Nat.add]. rewrite loop_S. specialize (H1 d st). destruct (i_begin I d st) as [r st1] eqn:EB. cbn [fst] in H1.
  assert (L : forall k, loop (S (fuel + k)) d (s0 ++ stack) (out ++ o) st = match i_begin I d st with
      | (Ok f, st1) => cont (fuel + k) (ser_turn I ryu f (s0 ++ stack) (out ++ o) st1)
      | (Err, st1) => (Err, st1)
      | (Fault e, st1) => son_fault I e (s0 ++ stack) st1
      end) by (intros k; apply loop_S).
  rewrite EB in L. destruct H1 as [[f ->]| ->].
  - cbn [pred]. pose proof (frame_turn fuel stack out (fun d s0 o st => framed_weaken _ fuel _ _ _ _ (Nat.le_pred_l fuel) (IH d s0 o st)) f s0 o st1) as K. specialize (K ltac:(intros s ->; eapply (proj1 HV), EB)).
    revert K. unfold framed. destruct (cont fuel (ser_turn I ryu f s0 o st1)) as [[s| |[]] st2]; intros K; try (intros k; rewrite L; apply K).
    + destruct K as [n [LN K]]. exists n. split; [exact LN|]. intros k. rewrite L. apply K.
    + rewrite L. apply K.
  - cbn [son_fault]. apply framed_unwind. exact L.
Qed.

(** Once it comes to an end, more fuel changes nothing. *)
Lemma loop_mono fuel d st r st' k : loop fuel d [] [] st = (r, st') -> r <> Fault FFuel -> loop (fuel + k) d [] [] st = (r, st').
Proof.
  intros E N. pose proof (frame_loop [] [] fuel d [] [] st) as F. rewrite E in F. cbn [framed app] in F. destruct r as [s| |[]]; try (apply F); try contradiction.
  destruct F as [n [_ F]]. rewrite F. cbn [ser_pop cont app]. reflexivity.
Qed.
Definition usual {A} (r : res A) : Prop := match r with Ok _ | Fault FPanic | Fault FAbort | Fault FFuel => True | _ => False end.
Lemma loop_usual fuel : (forall d s0 o st, usual (fst (loop fuel d s0 o st))) /\ (forall s0 o st, usual (fst (cont fuel (ser_pop I s0 o st)))).
Proof.
  assert (UN : forall ls st, usual (fst (@sunwind _ _ _ _ I bytes ls st))).
  { intros ls st. destruct (@unwind_outcome bytes ls st) as [st' [-> | ->]]; exact Logic.I. }
  pose proof HR as (H1 & H2 & H3 & H4 & H5). induction fuel as [|fuel [IH1 IH2]].
  - assert (L : forall d s0 o st, usual (fst (loop 0 d s0 o st))) by (intros; exact Logic.I). split; [exact L|].
    intros s0. induction s0 as [|[q|m] s0 IH]; intros o st; [exact Logic.I|..]; cbn [ser_pop].
    + specialize (H2 q st). destruct (i_seq_next I q st) as [[r q'] st1]. cbn [fst] in H2. destruct H2 as [[[d|] ->]| ->]; [apply L| |cbn [son_fault]; rewrite cont_unwind; apply UN].
      specialize (H4 q' st1). destruct (i_seq_drop I q' st1) as [r st2]. cbn [fst] in H4. destruct H4 as [[u ->]| ->]; [apply IH|cbn [son_fault]; rewrite cont_unwind; apply UN].
    + specialize (H3 m st). destruct (i_map_next I m st) as [[r m'] st1] eqn:EN. cbn [fst] in H3. destruct H3 as [[[[k d]|] ->]| ->]; [| |cbn [son_fault]; rewrite cont_unwind; apply UN].
      * rewrite !escape_str_eq by (apply (proj2 HV _ _ _ _ _ _ EN)). apply L.
      * specialize (H5 m' st1). destruct (i_map_drop I m' st1) as [r st2]. cbn [fst] in H5. destruct H5 as [[u ->]| ->]; [apply IH|cbn [son_fault]; rewrite cont_unwind; apply UN].
  - assert (L : forall d s0 o st, usual (fst (loop (S fuel) d s0 o st))).
    { intros d s0 o st. rewrite loop_S. specialize (H1 d st). destruct (i_begin I d st) as [r st1] eqn:EB. cbn [fst] in H1. destruct H1 as [[f ->]| ->]; [|apply UN].
      destruct f as [|b|s|z|z|f|q|m]; cbn [ser_turn ser_scalar]; try apply IH2.
      - rewrite !escape_str_eq by (eapply (proj1 HV), EB). apply IH2.
      - specialize (H2 q st1). destruct (i_seq_next I q st1) as [[r q'] st2]. cbn [fst] in H2. destruct H2 as [[[d'|] ->]| ->]; [apply IH1| |cbn [son_fault]; rewrite cont_unwind; apply UN].
        specialize (H4 q' st2). destruct (i_seq_drop I q' st2) as [r st3]. cbn [fst] in H4. destruct H4 as [[u ->]| ->]; [apply IH2|cbn [son_fault]; rewrite cont_unwind; apply UN].
      - specialize (H3 m st1). destruct (i_map_next I m st1) as [[r m'] st2] eqn:EN. cbn [fst] in H3. destruct H3 as [[[[k d']|] ->]| ->]; [| |cbn [son_fault]; rewrite cont_unwind; apply UN].
        + rewrite !escape_str_eq by (apply (proj2 HV _ _ _ _ _ _ EN)). apply IH1.
        + specialize (H5 m' st2). destruct (i_map_drop I m' st2) as [r st3]. cbn [fst] in H5. destruct H5 as [[u ->]| ->]; [apply IH2|cbn [son_fault]; rewrite cont_unwind; apply UN]. }
    split; [exact L|].
    intros s0. induction s0 as [|[q|m] s0 IH]; intros o st; [exact Logic.I|..]; cbn [ser_pop].
    + specialize (H2 q st). destruct (i_seq_next I q st) as [[r q'] st1]. cbn [fst] in H2. destruct H2 as [[[d|] ->]| ->]; [apply L| |cbn [son_fault]; rewrite cont_unwind; apply UN].
      specialize (H4 q' st1). destruct (i_seq_drop I q' st1) as [r st2]. cbn [fst] in H4. destruct H4 as [[u ->]| ->]; [apply IH|cbn [son_fault]; rewrite cont_unwind; apply UN].
    + specialize (H3 m st). destruct (i_map_next I m st) as [[r m'] st1] eqn:EN. cbn [fst] in H3. destruct H3 as [[[[k d]|] ->]| ->]; [| |cbn [son_fault]; rewrite cont_unwind; apply UN].
      * rewrite !escape_str_eq by (apply (proj2 HV _ _ _ _ _ _ EN)). apply L.
      * specialize (H5 m' st1). destruct (i_map_drop I m' st1) as [r st2]. cbn [fst] in H5. destruct H5 as [[u ->]| ->]; [apply IH|cbn [son_fault]; rewrite cont_unwind; apply UN].
Qed.

End Frame.

(** Any iterator, of a sequence or of a map. *)
Section Iter.
Context {St D SQ MP : Type}.
Variable I : siface St D SQ MP.
Variable ryu : f64 -> bytes.
Notation loop := (ser_loop I ryu).
Notation cont := (cont I ryu).
Notation layer := (slayer (SQ := SQ) (MP := MP)).
Hypothesis HR : returns I.
Hypothesis HV : strs_valid I.

Definition done (d : D) (st : St) (r : res bytes) (st' : St) : Prop :=
  exists fuel, loop fuel d [] [] st = (r, st') /\ r <> Fault FFuel.
Lemma done_det d st r st' r2 st2 : done d st r st' -> done d st r2 st2 -> r = r2 /\ st' = st2.
Proof.
  intros [n [E N]] [m [E2 N2]]. pose proof (loop_mono I ryu HR HV n d st r st' m E N) as A. pose proof (loop_mono I ryu HR HV m d st r2 st2 n E2 N2) as B.
  rewrite Nat.add_comm in B. rewrite A in B. inversion B. auto.
Qed.

Definition lnext (l : layer) (st : St) : res (option (bytes * D)) * layer * St :=
  match l with
  | SLSeq q => let '(r, q', st1) := i_seq_next I q st in
      (match r with Ok (Some d) => Ok (Some ([], d)) | Ok None => Ok None | Err => Err | Fault f => Fault f end, SLSeq q', st1)
  | SLMap m => let '(r, m', st1) := i_map_next I m st in
      (match r with Ok (Some (k, d)) => Ok (Some (quote k ++ [58], d)) | Ok None => Ok None | Err => Err | Fault f => Fault f end, SLMap m', st1)
  end.
Definition lopen (l : layer) : Z := match l with SLSeq _ => 91 | SLMap _ => 123 end.
Definition lclose (l : layer) : Z := match l with SLSeq _ => 93 | SLMap _ => 125 end.
Definition lfrag (l : layer) : fragment SQ MP := match l with SLSeq q => FSeq q | SLMap m => FMap m end.
Definition lstep (l : layer) (sep : Z) (endt : bytes) (out : bytes) (st : St) : res (sstep (D := D) (SQ := SQ) (MP := MP)) * St :=
  match lnext l st with
  | (Ok (Some (p, d)), l', st1) => (Ok (SBegin d [l'] (out ++ sep :: p)), st1)
  | (Ok None, l', st1) =>
      match sdrop I l' st1 with
      | (Fault f, st2) => (Fault f, st2)
      | (_, st2) => (Ok (SReturn (out ++ endt)), st2)
      end
  | (Err, l', st1) => (Err, st1)
  | (Fault f, l', st1) => son_fault I f [l'] st1
  end.
Lemma pop_lstep l out st : ser_pop I [l] out st = lstep l 44 [lclose l] out st.
Proof.
  pose proof HR as (_ & _ & _ & H4 & H5).
  destruct l as [q|m]; unfold lstep; cbn [ser_pop lnext lclose].
  - destruct (i_seq_next I q st) as [[[[d|]| |f] q'] st1]; try reflexivity. cbn [sdrop]. specialize (H4 q' st1). destruct (i_seq_drop I q' st1) as [r st2]. destruct H4 as [[u K]|K]; cbn [fst] in K; subst r; reflexivity.
  - destruct (i_map_next I m st) as [[[[[k d]|]| |f] m'] st1] eqn:EN; try reflexivity.
    + rewrite escape_str_eq by apply (proj2 HV _ _ _ _ _ _ EN). rewrite <- !app_assoc. reflexivity.
    + cbn [sdrop]. specialize (H5 m' st1). destruct (i_map_drop I m' st1) as [r st2]. destruct H5 as [[u K]|K]; cbn [fst] in K; subst r; reflexivity.
Qed.
Lemma turn_lstep l out st : ser_turn I ryu (lfrag l) [] out st = lstep l (lopen l) [lopen l; lclose l] out st.
Proof.
  pose proof HR as (_ & _ & _ & H4 & H5).
  destruct l as [q|m]; unfold lstep; cbn [ser_turn lnext lclose lopen lfrag ser_pop app].
  - destruct (i_seq_next I q st) as [[[[d|]| |f] q'] st1]; try reflexivity. cbn [sdrop]. specialize (H4 q' st1). destruct (i_seq_drop I q' st1) as [r st2]. destruct H4 as [[u K]|K]; cbn [fst] in K; subst r; reflexivity.
  - destruct (i_map_next I m st) as [[[[[k d]|]| |f] m'] st1] eqn:EN; try reflexivity.
    + rewrite escape_str_eq by apply (proj2 HV _ _ _ _ _ _ EN). rewrite <- !app_assoc. reflexivity.
    + cbn [sdrop]. specialize (H5 m' st1). destruct (i_map_drop I m' st1) as [r st2]. destruct H5 as [[u K]|K]; cbn [fst] in K; subst r; reflexivity.
Qed.
Lemma lnext_kind l st r l' st1 : lnext l st = (r, l', st1) -> lopen l' = lopen l /\ lclose l' = lclose l.
Proof.
  destruct l as [q|m]; cbn [lnext].
  - destruct (i_seq_next I q st) as [[r0 q'] st2]. intros E. inversion E. auto.
  - destruct (i_map_next I m st) as [[r0 m'] st2]. intros E. inversion E. auto.
Qed.
Lemma lnext_runs l st : runs (fst (fst (lnext l st))).
Proof.
  pose proof HR as (_ & H2 & H3 & _). destruct l as [q|m]; cbn [lnext].
  - specialize (H2 q st). destruct (i_seq_next I q st) as [[r q'] st1]. destruct H2 as [[[d|] K]|K]; cbn [fst] in *; subst r; unfold runs; eauto.
  - specialize (H3 m st). destruct (i_map_next I m st) as [[r q'] st1]. destruct H3 as [[[[k d]|] K]|K]; cbn [fst] in *; subst r; unfold runs; eauto.
Qed.

Definition cons_text (s : bytes) (r : res (list bytes)) : res (list bytes) :=
  match r with Ok ss => Ok (s :: ss) | Err => Err | Fault f => Fault f end.
(** A panic on its way out through the layer. *)
Inductive falls (l : layer) (st : St) : fault -> St -> Prop :=
| fa_ok u st' : sdrop I l st = (Ok u, st') -> falls l st FPanic st'
| fa_abort st' : sdrop I l st = (Fault FPanic, st') -> falls l st FAbort st'.
Inductive out_of : layer -> St -> res (list bytes) -> St -> Prop :=
| oo_end l st l' st1 u st2 : lnext l st = (Ok None, l', st1) -> sdrop I l' st1 = (Ok u, st2) -> out_of l st (Ok []) st2
| oo_end_panic l st l' st1 st2 : lnext l st = (Ok None, l', st1) -> sdrop I l' st1 = (Fault FPanic, st2) -> out_of l st (Fault FPanic) st2
| oo_panic l st l' st1 f st2 : lnext l st = (Fault FPanic, l', st1) -> falls l' st1 f st2 -> out_of l st (Fault f) st2
| oo_item l st p d l' st1 s st2 r st3 : lnext l st = (Ok (Some (p, d)), l', st1) -> done d st1 (Ok s) st2 -> out_of l' st2 r st3 -> out_of l st (cons_text (p ++ s) r) st3
| oo_item_panic l st p d l' st1 st2 f st3 : lnext l st = (Ok (Some (p, d)), l', st1) -> done d st1 (Fault FPanic) st2 -> falls l' st2 f st3 -> out_of l st (Fault f) st3
| oo_item_fault l st p d l' st1 f st2 : lnext l st = (Ok (Some (p, d)), l', st1) -> done d st1 (Fault f) st2 -> f <> FPanic -> out_of l st (Fault f) st2.

Definition final (sep close : Z) (endt out : bytes) (r : res (list bytes)) : res bytes :=
  match r with
  | Ok [] => Ok (out ++ endt)
  | Ok (s :: ss) => Ok (out ++ sep :: s ++ flat_map (fun s => 44 :: s) ss ++ [close])
  | Err => Err
  | Fault f => Fault f
  end.
Lemma final_cons sep close endt out p s r : final sep close endt out (cons_text (p ++ s) r) = final 44 close [close] ((out ++ sep :: p) ++ s) r.
Proof. destruct r as [[|s1 ss]| |f]; cbn [final cons_text]; try reflexivity; f_equal; repeat (cbn [app flat_map]; rewrite <- app_assoc); reflexivity. Qed.

Lemma falls_unwind l st : forall k, exists f st', falls l st f st' /\ cont k (sunwind I [l] st) = (Fault f, st').
Proof.
  intros k. rewrite cont_unwind. cbn [sunwind]. pose proof (sdrop_runs I HR l st) as HS. destruct (sdrop I l st) as [r st1] eqn:ED.
  destruct HS as [[u K]|K]; cbn [fst] in K; subst r; eauto using fa_ok, fa_abort.
Qed.
Lemma falls_det l st f st' : falls l st f st' -> forall A, @sunwind _ _ _ _ I A [l] st = (Fault f, st').
Proof. intros [u st1 E|st1 E] A; cbn [sunwind]; rewrite E; reflexivity. Qed.

Lemma out_fwd l st rs st' : out_of l st rs st' -> forall sep endt out,
  exists n, forall k, cont (n + k) (lstep l sep endt out st) = (final sep (lclose l) endt out rs, st').
Proof.
  intros H. induction H as [l st l' st1 u st2 E ED|l st l' st1 st2 E ED|l st l' st1 f st2 E HF|l st p d l' st1 s st2 r st3 E [m [HD _]] HO IH|l st p d l' st1 st2 f st3 E [m [HD _]] HF|l st p d l' st1 f st2 E [m [HD ND]] NP]; intros sep endt out; unfold lstep; rewrite E.
  - exists O. intros k. rewrite ED. reflexivity.
  - exists O. intros k. rewrite ED. reflexivity.
  - exists O. intros k. cbn [son_fault]. rewrite (falls_det _ _ _ _ HF). reflexivity.
  - pose proof (frame_loop I ryu HR HV [l'] (out ++ sep :: p) m d [] [] st1) as F. rewrite HD in F. cbn [framed] in F. destruct F as [n [_ F]].
    destruct (IH 44 [lclose l'] ((out ++ sep :: p) ++ s)) as [n2 IH2]. exists (m + n2)%nat. intros k. cbn [cont].
    specialize (F (n2 + k)%nat). cbn [app] in F. rewrite app_nil_r in F. rewrite <- Nat.add_assoc. rewrite F, pop_lstep. replace (n + (n2 + k))%nat with (n2 + (n + k))%nat by lia.
    rewrite IH2, final_cons. destruct (lnext_kind _ _ _ _ _ E) as [_ ->]. reflexivity.
  - pose proof (frame_loop I ryu HR HV [l'] (out ++ sep :: p) m d [] [] st1) as F. rewrite HD in F. cbn [framed] in F. exists m. intros k. cbn [cont].
    specialize (F k). cbn [app] in F. rewrite app_nil_r in F. rewrite F. apply falls_det, HF.
  - pose proof (frame_loop I ryu HR HV [l'] (out ++ sep :: p) m d [] [] st1) as F. rewrite HD in F. exists m. intros k. cbn [cont].
    assert (F' : forall k, loop (m + k) d [l'] (out ++ sep :: p) st1 = (Fault f, st2)). { cbn [app] in F. rewrite app_nil_r in F. destruct f; cbn [framed] in F; try exact F; contradiction. }
    apply F'.
Qed.
Lemma fault_eq_dec (a b : fault) : {a = b} + {a <> b}.
Proof. decide equality. Qed.
Lemma out_bwd fuel : forall l st sep endt out r st',
  cont fuel (lstep l sep endt out st) = (r, st') -> r <> Fault FFuel -> exists rs, out_of l st rs st' /\ r = final sep (lclose l) endt out rs.
Proof.
  induction fuel as [fuel IH] using (well_founded_induction Wf_nat.lt_wf). intros l st sep endt out r st' EC N. unfold lstep in EC.
  pose proof (lnext_runs l st) as HN. destruct (lnext l st) as [[rn l'] st1] eqn:E. cbn [fst] in HN. destruct HN as [[[[p d]|] ->]| ->].
  - cbn [cont] in EC. pose proof (frame_loop I ryu HR HV [l'] (out ++ sep :: p) fuel d [] [] st1) as F. cbn [app] in F. rewrite app_nil_r in F.
    pose proof (proj1 (loop_usual I ryu HR HV fuel) d [] [] st1) as NE.
    destruct (loop fuel d [] [] st1) as [rd st2] eqn:EL. cbn [fst] in NE. destruct rd as [s| |f]; [|contradiction|].
    + cbn [framed] in F. destruct F as [n [LN F]]. specialize (F O). rewrite !Nat.add_0_r in F. rewrite F, pop_lstep in EC.
      assert (LF : (n < fuel)%nat). { destruct fuel; [discriminate EL|cbn [pred] in LN; lia]. }
      destruct (IH n LF _ _ _ _ _ _ _ EC N) as [rs [HO ->]]. exists (cons_text (p ++ s) rs). split.
      * eapply oo_item; [exact E|exists fuel; split; [exact EL|discriminate]|exact HO].
      * destruct (lnext_kind _ _ _ _ _ E) as [_ ->]. symmetry. apply final_cons.
    + destruct (fault_eq_dec f FPanic) as [-> |NP].
      * cbn [framed] in F. specialize (F O). rewrite Nat.add_0_r in F. rewrite F in EC. destruct (falls_unwind l' st2 0) as (f & st3 & HF & _). rewrite (falls_det _ _ _ _ HF) in EC. inversion EC; subst.
        exists (Fault f). split; [|reflexivity]. eapply oo_item_panic; [exact E|exists fuel; split; [exact EL|discriminate]|exact HF].
      * assert (F' : loop fuel d [l'] (out ++ sep :: p) st1 = (Fault f, st2)). { destruct f; cbn [framed] in F; try contradiction; specialize (F O) || idtac; try rewrite Nat.add_0_r in F; exact F. }
        rewrite F' in EC. inversion EC; subst. exists (Fault f). split; [|reflexivity]. eapply oo_item_fault; [exact E|exists fuel; split; [exact EL|intros K; apply N; inversion K; reflexivity]|exact NP].
  - pose proof (sdrop_runs I HR l' st1) as HS. destruct (sdrop I l' st1) as [rd st2] eqn:ED. cbn [fst] in HS. destruct HS as [[u ->]| ->]; cbn [cont] in EC; inversion EC; subst.
    + exists (Ok []). split; [eapply oo_end; eassumption|reflexivity].
    + exists (Fault FPanic). split; [eapply oo_end_panic; eassumption|reflexivity].
  - cbn [son_fault] in EC. destruct (falls_unwind l' st1 fuel) as (f & st3 & HF & K). rewrite K in EC. inversion EC; subst.
    exists (Fault f). split; [eapply oo_panic; eassumption|reflexivity].
Qed.

Lemma out_not_fuel l st r st' : out_of l st r st' -> r <> Fault FFuel /\ r <> Err.
Proof.
  intros H. induction H as [| |l st l' st1 f st2 E HF| l st p d l' st1 s st2 r st3 E HD HO [IH1 IH2]|l st p d l' st1 st2 f st3 E HD HF|l st p d l' st1 f st2 E [m [HD ND]] NP].
  - split; discriminate.
  - split; discriminate.
  - destruct HF; split; discriminate.
  - destruct r; cbn [cons_text]; split; (discriminate || congruence).
  - destruct HF; split; discriminate.
  - split; [|discriminate]. intros K. apply ND. inversion K. reflexivity.
Qed.

Definition enclosed (l : layer) (r : res (list bytes)) : res bytes :=
  match r with Ok ss => Ok (lopen l :: commas ss ++ [lclose l]) | Err => Err | Fault f => Fault f end.
Lemma commas_cons s ss : commas (s :: ss) = s ++ flat_map (fun s => 44 :: s) ss.
Proof. rewrite <- (map_id (s :: ss)). apply (commas_tail (fun s => s)). Qed.
Lemma final_enclosed l r : final (lopen l) (lclose l) [lopen l; lclose l] [] r = enclosed l r.
Proof. destruct r as [[|s ss]| |f]; try reflexivity. cbn [final enclosed app]. rewrite commas_cons, <- app_assoc. reflexivity. Qed.

Theorem done_iter c l st st1 r st' : i_begin I c st = (Ok (lfrag l), st1) ->
  (done c st r st' <-> exists rs, out_of l st1 rs st' /\ r = enclosed l rs).
Proof.
  intros HB. unfold done. split.
  - intros [fuel [E N]]. destruct fuel as [|fuel]; [cbn in E; inversion E; subst; contradiction N; reflexivity|]. rewrite loop_S, HB, turn_lstep in E.
    destruct (out_bwd _ _ _ _ _ _ _ _ E N) as [rs [HO ->]]. exists rs. split; [exact HO|apply final_enclosed].
  - intros [rs [HO ->]]. destruct (out_fwd _ _ _ _ HO (lopen l) [lopen l; lclose l] []) as [n K]. exists (S (n + 0)). rewrite loop_S, HB, turn_lstep, K, final_enclosed.
    split; [reflexivity|]. destruct (out_not_fuel _ _ _ _ HO) as [A _]. destruct rs as [ss| |f]; cbn [enclosed]; try discriminate. congruence.
Qed.
Lemma done_usual c st r st' : done c st r st' -> (exists s, r = Ok s) \/ r = Fault FPanic \/ r = Fault FAbort.
Proof.
  intros [fuel [E N]]. pose proof (proj1 (loop_usual I ryu HR HV fuel) c [] [] st) as U. rewrite E in U. destruct r as [s| |[]]; cbn in U; eauto; contradiction.
Qed.
End Iter.
