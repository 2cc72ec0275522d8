(** Panicking Serialize implementations: proofs. *)
From Coq Require Import ZArith List Bool Lia Permutation.
From Verif Require Import Base Utf8 F64 Lexer Ser SerSpec EscFacts SerFacts ParseSpec PanicSpec SerPanicSpec.
Import ListNotations.

Section SerPanic.
Context {St D SQ MP : Type}.
Variable I : siface St D SQ MP.
Variable ryu : f64 -> bytes.
Notation NI := (numbered_ser I).
Notation lay := (@slayer (nat * SQ) (nat * MP)).
Notation nst := (@nst St).

Definition lid (l : lay) : nat := match l with SLSeq q => fst q | SLMap m => fst m end.
Definition ids (ls : list lay) : list nat := map lid ls.
Lemma nest_app l1 l2 : forall o, nest o (l1 ++ l2) = match nest o l1 with Some o' => nest o' l2 | None => None end.
Proof.
  induction l1 as [|e l1 IH]; intros o; [reflexivity|]. cbn [app nest]. destruct e as [[n|] r|n r|n r]; try apply IH.
  - destruct o as [|k o]; [reflexivity|]. destruct (Nat.eqb n k); [apply IH|reflexivity].
  - destruct o as [|k o]; [reflexivity|]. destruct (Nat.eqb n k); [apply IH|reflexivity].
Qed.
Lemma sev_app l1 l2 : forall s, sev_run s (l1 ++ l2) = match sev_run s l1 with Some s' => sev_run s' l2 | None => None end.
Proof. induction l1 as [|e l1 IH]; intros s; [reflexivity|]. cbn [app sev_run]. destruct (sev_step s e); [apply IH|reflexivity]. Qed.

(** State invariant: the log respects the nesting and ends with these iterators open; the
    iterators are numbered consecutively; the status. *)
Definition log_of (s : nst) : list sevent := snd s.
Definition Inv (s : nst) (ls : list nat) (x : status) : Prop :=
  nest [] (snd s) = Some ls /\ flat_map ev_opened (snd s) = seq 0 (snd (fst s)) /\ sev_run Running (snd s) = Some x.
Lemma inv_snoc st n l ls x e st1 ls' x' :
  Inv (st, n, l) ls x -> nest ls [e] = Some ls' -> ev_opened e = [] -> sev_step x e = Some x' -> Inv (st1, n, l ++ [e]) ls' x'.
Proof.
  unfold Inv. cbn [fst snd]. intros (H1 & H2 & H3) N O S. rewrite nest_app, H1, N. split; [reflexivity|].
  rewrite flat_map_app, H2. cbn [flat_map]. rewrite O. split; [apply app_nil_r|]. rewrite sev_app, H3. cbn [sev_run]. rewrite S. reflexivity.
Qed.
Lemma inv_open st n l ls st1 : Inv (st, n, l) ls Running -> Inv (st1, S n, l ++ [EBegin (Some n) OOk]) (n :: ls) Running.
Proof.
  unfold Inv. cbn [fst snd]. intros (H1 & H2 & H3). rewrite nest_app, H1. cbn [nest]. split; [reflexivity|].
  rewrite flat_map_app, H2. cbn [flat_map ev_opened app]. split; [symmetry; apply seq_S|]. rewrite sev_app, H3. reflexivity.
Qed.

Definition left_open (r : fault) (ls : list nat) : Prop := r = FPanic -> ls = [].
(** An exit: the log is in order, the status explains the result, and after a panic nothing is open. *)
Definition exits {A} (x : res A * nst) : Prop :=
  exists ls s, Inv (snd x) ls s /\
    match fst x with
    | Fault f => (s = (match f with FPanic => Panicking | f => Dead f end) \/ (f = FFuel /\ s = Running)) /\ left_open f ls
    | _ => False
    end.
Definition fstatus (f : fault) : status := match f with FPanic => Panicking | f => Dead f end.

Lemma sdrop_num l st n lg : sdrop NI l (st, n, lg) =
  let y := match l with SLSeq q => i_seq_drop I (snd q) st | SLMap m => i_map_drop I (snd m) st end in
  (fst y, (snd y, n, lg ++ [EDrop (lid l) (outcome_of (fst y))])).
Proof.
  destruct l as [q|m]; cbn [sdrop numbered_ser i_seq_drop i_map_drop lid].
  - destruct (i_seq_drop I (snd q) st); reflexivity.
  - destruct (i_map_drop I (snd m) st); reflexivity.
Qed.
Lemma unwind_exits {A} ls : forall st n lg, Inv (st, n, lg) (ids ls) Panicking -> exits (@sunwind _ _ _ _ NI A ls (st, n, lg)).
Proof.
  induction ls as [|l ls IH]; intros st n lg H; cbn [sunwind].
  - exists [], Panicking. split; [exact H|]. split; [left; reflexivity|intros _; reflexivity].
  - rewrite sdrop_num. cbn zeta. set (y := match l with SLSeq q => _ | SLMap m => _ end). clearbody y. destruct y as [[u| |f] st1]; cbn [fst snd outcome_of].
    + apply IH. eapply inv_snoc; [exact H|cbn [ids map nest]; rewrite Nat.eqb_refl; reflexivity|reflexivity|reflexivity].
    + apply IH. eapply inv_snoc; [exact H|cbn [ids map nest]; rewrite Nat.eqb_refl; reflexivity|reflexivity|reflexivity].
    + assert (K : forall x, sev_step Panicking (EDrop (lid l) (OFault f)) = Some x -> Inv (st1, n, lg ++ [EDrop (lid l) (OFault f)]) (ids ls) x).
      { intros x Hx. eapply inv_snoc; [exact H|cbn [ids map nest]; rewrite Nat.eqb_refl; reflexivity|reflexivity|exact Hx]. }
      destruct f; (do 2 eexists; split; [apply K; reflexivity|split; [left; reflexivity|discriminate]]).
Qed.
Lemma fault_exits {A} f ls st n lg : Inv (st, n, lg) (ids ls) (fstatus f) -> exits (@son_fault _ _ _ _ NI A f ls (st, n, lg)).
Proof.
  intros H. destruct f; cbn [son_fault]; try (do 2 eexists; split; [exact H|split; [left; reflexivity|discriminate]]). apply unwind_exits, H.
Qed.
Lemma fault_step f e : sev_outcome e = OFault f -> sev_step Running e = Some (fstatus f).
Proof. intros H. unfold sev_step. rewrite H. destruct (sev_drop e), f; reflexivity. Qed.

Hypothesis HV : strs_valid I.
Hypothesis HI : infallible I.

Definition PS (x : res (@sstep D (nat * SQ) (nat * MP)) * nst) : Prop :=
  match fst x with
  | Ok (SReturn _) => Inv (snd x) [] Running
  | Ok (SBegin _ stack _) => Inv (snd x) (ids stack) Running
  | _ => exits x
  end.
Lemma exits_PS x : exits x -> PS x.
Proof. intros H. unfold PS. destruct x as [[a| |f] s]; cbn [fst]; try exact H. destruct H as (? & ? & _ & []). Qed.
(** The drop of an exhausted iterator. *)
Lemma drop_then l st n lg ls (k : res unit * nst -> res (@sstep D (nat * SQ) (nat * MP)) * nst) :
  Inv (st, n, lg) (lid l :: ids ls) Running ->
  (forall r s, is_fault r = false -> Inv s (ids ls) Running -> PS (k (r, s))) ->
  (forall f s, k (Fault f, s) = son_fault NI f ls s) ->
  PS (k (sdrop NI l (st, n, lg))).
Proof.
  intros H HK HF. rewrite sdrop_num. cbn zeta. set (y := match l with SLSeq q => _ | SLMap m => _ end). clearbody y. destruct y as [[u| |f] st1]; cbn [fst snd outcome_of].
  - apply HK; [reflexivity|]. eapply inv_snoc; [exact H|cbn [nest]; rewrite Nat.eqb_refl; reflexivity|reflexivity|reflexivity].
  - apply HK; [reflexivity|]. eapply inv_snoc; [exact H|cbn [nest]; rewrite Nat.eqb_refl; reflexivity|reflexivity|reflexivity].
  - rewrite HF. apply exits_PS, fault_exits. eapply inv_snoc; [exact H|cbn [nest]; rewrite Nat.eqb_refl; reflexivity|reflexivity|apply fault_step; reflexivity].
Qed.
Lemma next_inv st n lg k ls o st1 x : Inv (st, n, lg) (k :: ls) Running -> sev_step Running (ENext k o) = Some x ->
  Inv (st1, n, lg ++ [ENext k o]) (k :: ls) x.
Proof. intros H Hs. eapply inv_snoc; [exact H|cbn [nest]; rewrite Nat.eqb_refl; reflexivity|reflexivity|exact Hs]. Qed.

Lemma seq_case q st n lg ls (close : bytes) d1 d2 : Inv (st, n, lg) (fst q :: ids ls) Running ->
  (forall out s, Inv s (ids ls) Running -> PS (ser_pop NI ls out s)) ->
  PS (match i_seq_next NI q (st, n, lg) with
      | (Ok (Some d), q', st1) => (Ok (SBegin d (SLSeq q' :: ls) d1), st1)
      | (Ok None, q', st1) =>
          match i_seq_drop NI q' st1 with
          | (Fault f, st2) => son_fault NI f ls st2
          | (_, st2) => ser_pop NI ls d2 st2
          end
      | (Err, q', st1) => (Err, st1)
      | (Fault f, q', st1) => son_fault NI f (SLSeq q' :: ls) st1
      end).
Proof.
  intros H HP. cbn [numbered_ser i_seq_next]. pose proof (proj1 (proj2 HI) (snd q) st) as HE.
  destruct (i_seq_next I (snd q) st) as [[[[d|]| |f] q'] st1]; cbn [fst snd outcome_of] in *.
  - unfold PS. cbn [fst snd ids map lid]. apply (next_inv st); [exact H|reflexivity].
  - apply (drop_then (SLSeq (fst q, q')) st1 n _ ls (fun y => match y with (Fault f, st2) => son_fault NI f ls st2 | (_, st2) => ser_pop NI ls d2 st2 end)).
    + apply (next_inv st); [exact H|reflexivity].
    + intros [u| |f] s Hr Hs; [apply HP, Hs|apply HP, Hs|discriminate].
    + reflexivity.
  - destruct (HE eq_refl).
  - apply exits_PS, fault_exits. apply (next_inv st); [exact H|apply fault_step; reflexivity].
Qed.
Lemma map_case m st n lg ls o1 d2 : Inv (st, n, lg) (fst m :: ids ls) Running ->
  (forall out s, Inv s (ids ls) Running -> PS (ser_pop NI ls out s)) ->
  PS (match i_map_next NI m (st, n, lg) with
      | (Ok (Some (key, d)), m', st1) =>
          match escape_str key o1 with
          | Ok out1 => (Ok (SBegin d (SLMap m' :: ls) (out1 ++ [58])), st1)
          | Err => (Err, st1)
          | Fault f => son_fault NI f (SLMap m' :: ls) st1
          end
      | (Ok None, m', st1) =>
          match i_map_drop NI m' st1 with
          | (Fault f, st2) => son_fault NI f ls st2
          | (_, st2) => ser_pop NI ls d2 st2
          end
      | (Err, m', st1) => (Err, st1)
      | (Fault f, m', st1) => son_fault NI f (SLMap m' :: ls) st1
      end).
Proof.
  intros H HP. cbn [numbered_ser i_map_next]. pose proof (proj2 (proj2 HI) (snd m) st) as HE.
  destruct (i_map_next I (snd m) st) as [[[[[key d]|]| |f] m'] st1] eqn:EN; cbn [fst snd outcome_of] in *.
  - rewrite escape_str_eq by (eapply (proj2 HV), EN). unfold PS. cbn [fst snd ids map lid]. apply (next_inv st); [exact H|reflexivity].
  - apply (drop_then (SLMap (fst m, m')) st1 n _ ls (fun y => match y with (Fault f, st2) => son_fault NI f ls st2 | (_, st2) => ser_pop NI ls d2 st2 end)).
    + apply (next_inv st); [exact H|reflexivity].
    + intros [u| |f] s Hr Hs; [apply HP, Hs|apply HP, Hs|discriminate].
    + reflexivity.
  - destruct (HE eq_refl).
  - apply exits_PS, fault_exits. apply (next_inv st); [exact H|apply fault_step; reflexivity].
Qed.
Lemma pop_inv stack : forall out s, Inv s (ids stack) Running -> PS (ser_pop NI stack out s).
Proof.
  induction stack as [|[q|m] stack IH]; intros out [[st n] lg] H; cbn [ser_pop]; [exact H| |].
  - apply seq_case; [exact []|exact H|exact IH].
  - apply map_case; [exact H|exact IH].
Qed.
Lemma turn_inv f stack out s : (forall t, f = FStr t -> str_ok t = true) ->
  Inv s (match f with FSeq q => fst q :: ids stack | FMap m => fst m :: ids stack | _ => ids stack end) Running ->
  PS (ser_turn NI ryu f stack out s).
Proof.
  intros HS H. destruct f as [|b|t|z|z|f|q|m]; cbn [ser_turn ser_scalar]; try (apply pop_inv, H).
  - rewrite escape_str_eq by (apply HS; reflexivity). apply pop_inv, H.
  - destruct s as [[st n] lg]. apply seq_case; [exact []|exact H|apply pop_inv].
  - destruct s as [[st n] lg]. apply map_case; [exact H|apply pop_inv].
Qed.
Definition PL (x : res bytes * nst) : Prop := match fst x with Ok _ => Inv (snd x) [] Running | _ => exits x end.
Lemma exits_cast {A B} f s : exits (@Fault A f, s) -> exits (@Fault B f, s).
Proof. exact (fun x => x). Qed.
Lemma loop_inv fuel : forall d stack out s, Inv s (ids stack) Running -> PL (ser_loop NI ryu fuel d stack out s).
Proof.
  induction fuel as [|fuel IH]; intros d stack out [[st n] lg] H; cbn [ser_loop].
  - exists (ids stack), Running. split; [exact H|]. split; [right; auto|discriminate].
  - cbn [numbered_ser i_begin]. pose proof (proj1 HI d st) as HE. pose proof (proj1 HV d st) as HT.
    assert (K : forall f s, (forall t, f = FStr t -> str_ok t = true) ->
      Inv s (match f with FSeq q => fst q :: ids stack | FMap m => fst m :: ids stack | _ => ids stack end) Running ->
      PL (match ser_turn NI ryu f stack out s with
          | (Ok (SReturn out'), st2) => (Ok out', st2)
          | (Ok (SBegin d' stack' out'), st2) => ser_loop NI ryu fuel d' stack' out' st2
          | (Err, st2) => (Err, st2)
          | (Fault e, st2) => (Fault e, st2)
          end)).
    { intros f s Hf Hs. pose proof (turn_inv f stack out s Hf Hs) as P. unfold PS in P.
      destruct (ser_turn NI ryu f stack out s) as [[[o|d' stack' o]| |e] s1]; cbn [fst snd] in P; [exact P|apply IH, P|destruct P as (? & ? & _ & [])|exact P]. }
    assert (KB : Inv (st, n, lg ++ [EBegin None OOk]) (ids stack) Running) by (eapply inv_snoc; [exact H|reflexivity..]).
    assert (KO : forall st1, Inv (st1, n, lg ++ [EBegin None OOk]) (ids stack) Running) by (intros; eapply inv_snoc; [exact H|reflexivity..]).
    destruct (i_begin I d st) as [[[|b|t|z|z|f|q|m]| |e] st1] eqn:EB; cbn [fst] in HE; try (apply K; [discriminate|first [apply KO|apply (inv_open st), H]]).
    + apply K; [|apply KO]. intros t' [= <-]. eapply HT. reflexivity.
    + destruct (HE eq_refl).
    + assert (P : exits (@son_fault _ _ _ _ NI bytes e stack (st1, n, lg ++ [EBegin None (OFault e)]))).
      { apply fault_exits. eapply inv_snoc; [exact H|reflexivity|reflexivity|apply fault_step; reflexivity]. }
      unfold PL. destruct (son_fault NI e stack _) as [[o| |f] s]; cbn [fst] in *; try exact P. destruct P as (? & ? & _ & []).
Qed.
Theorem numbered_run fuel d st : PL (to_string_impl NI ryu fuel d (st, 0%nat, [])).
Proof. apply loop_inv. repeat split. Qed.
End SerPanic.

(** Nesting implies that what was opened is dropped or still open. *)
Lemma nest_perm l : forall o o', nest o l = Some o' -> Permutation (o ++ flat_map ev_opened l) (flat_map ev_dropped l ++ o').
Proof.
  induction l as [|e l IH]; intros o o' H; cbn [nest flat_map] in *.
  - injection H as <-. rewrite app_nil_r. reflexivity.
  - destruct e as [[n|] r|n r|n r]; cbn [ev_opened ev_dropped app] in *.
    + apply IH in H. rewrite <- H. cbn [app]. symmetry. apply Permutation_middle.
    + apply IH, H.
    + destruct o as [|k o]; [discriminate|]. destruct (Nat.eqb_spec n k) as [->|]; [|discriminate]. apply IH in H. exact H.
    + destruct o as [|k o]; [discriminate|]. destruct (Nat.eqb_spec n k) as [->|]; [|discriminate]. apply IH in H. cbn [app]. constructor. exact H.
Qed.

(** ** Numbering is transparent *)
Section Transparent.
Context {St D SQ MP : Type}.
Variable I : siface St D SQ MP.
Variable ryu : f64 -> bytes.
Notation NI := (numbered_ser I).
Definition bare (l : @slayer (nat * SQ) (nat * MP)) : @slayer SQ MP := match l with SLSeq q => SLSeq (snd q) | SLMap m => SLMap (snd m) end.
Definition st_of (s : @nst St) : St := fst (fst s).
Definition erase {A} (x : res A * @nst St) : res A * St := (fst x, st_of (snd x)).
Definition erase_step (x : res (@sstep D (nat * SQ) (nat * MP)) * @nst St) : res (@sstep D SQ MP) * St :=
  (match fst x with Ok (SReturn o) => Ok (SReturn o) | Ok (SBegin d ls o) => Ok (SBegin d (map bare ls) o) | Err => Err | Fault f => Fault f end, st_of (snd x)).
Lemma erase_drop l s : erase (sdrop NI l s) = sdrop I (bare l) (st_of s).
Proof.
  destruct s as [[st n] lg]. destruct l as [q|m]; cbn [sdrop numbered_ser i_seq_drop i_map_drop bare st_of fst].
  - destruct (i_seq_drop I (snd q) st); reflexivity.
  - destruct (i_map_drop I (snd m) st); reflexivity.
Qed.
Lemma erase_unwind {A} ls : forall s, erase (@sunwind _ _ _ _ NI A ls s) = sunwind I (map bare ls) (st_of s).
Proof.
  induction ls as [|l ls IH]; intros s; cbn [sunwind map]; [reflexivity|]. rewrite <- erase_drop.
  destruct (sdrop NI l s) as [[u| |[]] s1]; cbn [erase fst snd]; try apply IH; reflexivity.
Qed.
Lemma erase_fault {A} f ls s : erase (@son_fault _ _ _ _ NI A f ls s) = son_fault I f (map bare ls) (st_of s).
Proof. destruct f; try reflexivity. apply erase_unwind. Qed.
Lemma unwind_no_ok {A} ls : forall s, exists f s', @sunwind _ _ _ _ NI A ls s = (Fault f, s').
Proof.
  induction ls as [|l ls IH]; intros s; cbn [sunwind]; [eauto|]. destruct (sdrop NI l s) as [[u| |[]] s1]; eauto.
Qed.
Lemma erase_fault_step f ls s : erase_step (son_fault NI f ls s) = son_fault I f (map bare ls) (st_of s).
Proof.
  destruct f; try reflexivity. cbn [son_fault]. pose proof (@erase_unwind (@sstep D SQ MP) ls s) as E.
  assert (G : forall A B, exists f s', @sunwind _ _ _ _ NI A ls s = (Fault f, s') /\ @sunwind _ _ _ _ NI B ls s = (Fault f, s')).
  { intros A B. clear E. revert s. induction ls as [|l ls IH]; intros s; cbn [sunwind]; [eauto|]. destruct (sdrop NI l s) as [[u| |[]] s1]; eauto. }
  destruct (G (@sstep D (nat * SQ) (nat * MP)) (@sstep D SQ MP)) as (f & s' & E1 & E2). rewrite E1. rewrite E2 in E. exact E.
Qed.
Lemma erase_pop stack : forall out s, erase_step (ser_pop NI stack out s) = ser_pop I (map bare stack) out (st_of s).
Proof.
  induction stack as [|[q|m] stack IH]; intros out [[st n] lg]; cbn [ser_pop map bare st_of fst snd]; [reflexivity| |].
  - cbn [numbered_ser i_seq_next]. destruct (i_seq_next I (snd q) st) as [[[[d|]| |f] q'] st1]; cbn [fst snd]; try reflexivity.
    + cbn [i_seq_drop numbered_ser snd]. destruct (i_seq_drop I q' st1) as [[u| |f] st2]; [apply IH|apply IH|]. fold NI. apply erase_fault_step.
    + fold NI. apply (erase_fault_step f (SLSeq (fst q, q') :: stack)).
  - cbn [numbered_ser i_map_next]. destruct (i_map_next I (snd m) st) as [[[[[key d]|]| |f] q'] st1]; cbn [fst snd]; try reflexivity.
    + destruct (escape_str key (out ++ [44%Z])) as [o| |f]; try reflexivity. fold NI. apply (erase_fault_step f (SLMap (fst m, q') :: stack)).
    + cbn [i_map_drop numbered_ser snd]. destruct (i_map_drop I q' st1) as [[u| |f] st2]; [apply IH|apply IH|]. fold NI. apply erase_fault_step.
    + fold NI. apply (erase_fault_step f (SLMap (fst m, q') :: stack)).
Qed.
Definition bare_frag (f : fragment (nat * SQ) (nat * MP)) : fragment SQ MP :=
  match f with FNull => FNull | FBool b => FBool b | FStr s => FStr s | FU64 z => FU64 z | FI64 z => FI64 z | FF64 f => FF64 f | FSeq q => FSeq (snd q) | FMap m => FMap (snd m) end.
Lemma erase_scalar r stack s : erase_step (ser_scalar NI r stack s) = ser_scalar I r (map bare stack) (st_of s).
Proof. destruct r; cbn [ser_scalar]; [apply erase_pop|reflexivity|apply erase_fault_step]. Qed.
Lemma erase_turn f stack out s : erase_step (ser_turn NI ryu f stack out s) = ser_turn I ryu (bare_frag f) (map bare stack) out (st_of s).
Proof.
  destruct f as [|b|t|z|z|f|q|m]; cbn [ser_turn bare_frag]; try apply erase_scalar; destruct s as [[st n] lg]; cbn [st_of fst].
  - cbn [numbered_ser i_seq_next]. destruct (i_seq_next I (snd q) st) as [[[[d|]| |f] q'] st1]; cbn [fst snd]; try reflexivity.
    + cbn [i_seq_drop numbered_ser snd]. destruct (i_seq_drop I q' st1) as [[u| |f] st2]; fold NI; [apply erase_pop|apply erase_pop|apply erase_fault_step].
    + fold NI. apply (erase_fault_step f (SLSeq (fst q, q') :: stack)).
  - cbn [numbered_ser i_map_next]. destruct (i_map_next I (snd m) st) as [[[[[key d]|]| |f] q'] st1]; cbn [fst snd]; try reflexivity.
    + destruct (escape_str key (out ++ [123%Z])) as [o| |f]; try reflexivity. fold NI. apply (erase_fault_step f (SLMap (fst m, q') :: stack)).
    + cbn [i_map_drop numbered_ser snd]. destruct (i_map_drop I q' st1) as [[u| |f] st2]; fold NI; [apply erase_pop|apply erase_pop|apply erase_fault_step].
    + fold NI. apply (erase_fault_step f (SLMap (fst m, q') :: stack)).
Qed.
Lemma erase_loop fuel : forall d stack out s, erase (ser_loop NI ryu fuel d stack out s) = ser_loop I ryu fuel d (map bare stack) out (st_of s).
Proof.
  induction fuel as [|fuel IH]; intros d stack out s; cbn [ser_loop]; [reflexivity|].
  assert (K : forall f s1, erase (match ser_turn NI ryu f stack out s1 with
          | (Ok (SReturn out'), st2) => (Ok out', st2)
          | (Ok (SBegin d' stack' out'), st2) => ser_loop NI ryu fuel d' stack' out' st2
          | (Err, st2) => (Err, st2)
          | (Fault e, st2) => (Fault e, st2)
          end) = match ser_turn I ryu (bare_frag f) (map bare stack) out (st_of s1) with
          | (Ok (SReturn out'), st2) => (Ok out', st2)
          | (Ok (SBegin d' stack' out'), st2) => ser_loop I ryu fuel d' stack' out' st2
          | (Err, st2) => (Err, st2)
          | (Fault e, st2) => (Fault e, st2)
          end).
  { intros f s1. rewrite <- erase_turn. destruct (ser_turn NI ryu f stack out s1) as [[[o|d' stack' o]| |e] s2]; cbn [erase_step fst snd]; try reflexivity. apply IH. }
  destruct s as [[st n] lg]. cbn [numbered_ser i_begin st_of fst]. fold NI. destruct (i_begin I d st) as [[[|b|t|z|z|f|q|m]| |e] st1]; try (rewrite K; reflexivity); try reflexivity.
  apply erase_fault.
Qed.
Theorem numbered_transparent fuel d st : erase (to_string_impl NI ryu fuel d (st, 0%nat, [])) = to_string_impl I ryu fuel d st.
Proof. apply erase_loop. Qed.
End Transparent.
