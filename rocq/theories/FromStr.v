(** from_str, for every target type: the composition of the driver refinement
    (DriverFacts), the heap refinement (HeapMain), the grammar (GrammarFacts) and the
    reading relation (ReadMain). *)
From Coq Require Import String ZArith List Bool Lia Floats.SpecFloat.
From Verif Require Import Base Utf8 Utf8Facts F64 Lexer Driver Grammar LexSpec LexFacts Types Impls Tree TreeFacts DriverFacts
  GrammarFacts Denote HeapFacts HeapSeq HeapMain Reading ReadFacts ReadMain RunFacts RunText.
Import ListNotations.
Open Scope Z_scope.

(** A Rust [&str] with no more than 2^31-1 consecutive digits outside string literals
    (in particular every text shorter than 2 GiB). *)
Definition text_ok (s : bytes) : Prop := Utf8 s /\ digit_runs i32_MAX s.

(** Nesting of Box/Option directly inside one another, the only source of native
    recursion: at T itself and in every derived struct's fields. *)
Definition decl_depth (d : decl) : nat :=
  match d with DStruct fs => fold_right Nat.max O (map (fun f => maxw (snd f)) fs) | DEnum _ => O end.
Definition wrap_depth (E : env) (T : ty) : nat :=
  Nat.max (maxw T) (fold_right Nat.max O (map decl_depth E)).

Lemma fold_max_in l x : In x l -> (x <= fold_right Nat.max O l)%nat.
Proof. induction l as [|y l IH]; cbn [In fold_right]; [contradiction|]. intros [->|H]; [lia|]. apply IH in H. lia. Qed.

Lemma depth_fits E T k : (wrap_depth E T < k)%nat ->
  fits k T /\ (forall id fs, nth_error E id = Some (DStruct fs) -> Forall (fun f => fits k (snd f)) fs) /\ (0 < k)%nat.
Proof.
  unfold wrap_depth, fits. intros H. split; [lia|]. split; [|lia].
  intros id fs HN. apply nth_error_In in HN. apply (in_map decl_depth) in HN. apply fold_max_in in HN.
  cbn [decl_depth] in HN. apply Forall_forall. intros f Hf.
  apply (in_map (fun f => maxw (snd f))) in Hf. apply fold_max_in in Hf. lia.
Qed.

(** What the text denotes at type T. *)
Definition text_val (E : env) (T : ty) (s : bytes) : option val :=
  let '(t, o) := pv s in
  match de E t T, o with
  | Some v, Some r => match skip_ws r with [] => Some v | _ :: _ => None end
  | _, _ => None
  end.

Theorem from_str_heap_eq E k oc T s : text_ok s -> (wrap_depth E T < k)%nat ->
  match text_val E T s with
  | Some v => exists M, from_str_heap E k oc T s = (Ok v, Some (OCell (Some v)) :: M) /\ Ns M
  | None => exists x M, from_str_heap E k oc T s = (Err, Some (OCell x) :: M) /\ Ns M
  end.
Proof.
  intros [Hu HL] Hk. apply str_ok_spec in Hu. destruct (depth_fits _ _ _ Hk) as (H1 & H2 & H3).
  unfold from_str_heap, text_val.
  assert (HW : from_str_impl (heap_iface E k) oc s (VhPlace (slot0 0) T) [Some (OCell None)] =
               walk_result (heap_iface E k) s (VhPlace (slot0 0) T) [Some (OCell None)]).
  { apply from_str_impl_walk; [assumption..|]. unfold walk_result. destruct (pv s) as [t o].
    assert (HP : pvalid (slot0 0) [Some (OCell None)]) by (exists (OCell None), None; repeat split; discriminate).
    pose proof (feed_heap E k H2 H3 t T (slot0 0) [Some (OCell None)] H1 HP) as HF.
    destruct (de E t T) as [v|]; [destruct HF as (M & -> & HM)|destruct HF as (hh & M & -> & Ht & HM); reflexivity].
    destruct o as [r|]; [destruct (skip_ws r)|]; reflexivity. }
  rewrite HW. unfold walk_result. destruct (pv s) as [t o].
  assert (HP : pvalid (slot0 0) [Some (OCell None)]) by (exists (OCell None), None; repeat split; discriminate).
  pose proof (feed_heap E k H2 H3 t T (slot0 0) [Some (OCell None)] H1 HP) as HF.
  destruct (de E t T) as [v|].
  - destruct HF as (M & -> & HM). unfold wr. cbn [place_write].
    destruct o as [r|]; [destruct (skip_ws r)|]; cbn [fst snd bind app].
    + exists M. split; [reflexivity|exact HM].
    + exists (Some v), M. split; [reflexivity|exact HM].
    + exists (Some v), M. split; [reflexivity|exact HM].
  - destruct HF as (hh & M & -> & Ht & HM). cbn [fst snd bind].
    destruct Ht as [->|[x ->]]; [exists None, M|exists x, M]; (split; [reflexivity|exact HM]).
Qed.

Lemma skip_ws_nil s : skip_ws s = [] <-> Ws s.
Proof.
  split.
  - induction s as [|c s IH]; [constructor|]. cbn [skip_ws]. destruct (is_ws c) eqn:EW; [|discriminate].
    intros H. constructor; [|apply IH, H]. unfold is_ws in EW. unfold ws_char. lia.
  - induction 1 as [|c s Hc _ IH]; [reflexivity|]. cbn [skip_ws].
    replace (is_ws c) with true; [exact IH|]. unfold is_ws, ws_char in *. lia.
Qed.

Lemma utf8_bytes s : Utf8 s -> Forall byte_le s.
Proof. intros H. apply str_ok_spec in H. apply str_ok_bytes in H. eapply Forall_impl; [|exact H]. intros a Ha. apply Ha. Qed.

Theorem text_val_reads E T s v : Utf8 s -> ty_ok T = true -> env_ok E = true ->
  (text_val E T s = Some v <-> exists d, JText d s /\ Reads E T d v).
Proof.
  intros Hu HT HE. unfold text_val. split.
  - destruct (pv s) as [t o] eqn:EP. destruct (de E t T) as [w|] eqn:ED; [|discriminate].
    destruct o as [r|]; [|discriminate]. destruct (skip_ws r) eqn:ER; [|discriminate]. intros [= <-].
    apply skip_ws_nil in ER. destruct (pv_text_inv _ _ _ (utf8_bytes _ Hu) EP ER) as (d & Hd & Ht).
    exists d. split; [exact Hd|]. apply (reads_de E HE d (JText_doc_ok _ _ Hd) T w HT). eauto.
  - intros (d & Hd & HR). apply (reads_de E HE d (JText_doc_ok _ _ Hd) T v HT) in HR.
    destruct HR as (t & Ht & HD). destruct (pv_text _ _ _ Hd Ht) as (r & EP & Hr).
    rewrite EP, HD. apply skip_ws_nil in Hr. rewrite Hr. reflexivity.
Qed.

Theorem from_str_total E k oc T s : text_ok s -> (wrap_depth E T < k)%nat ->
  from_str E k oc T s = match text_val E T s with Some v => Ok v | None => Err end.
Proof.
  intros Hs Hk. pose proof (from_str_heap_eq E k oc T s Hs Hk) as H. unfold from_str.
  destruct (text_val E T s); [destruct H as (M & -> & _)|destruct H as (x & M & -> & _)]; reflexivity.
Qed.

Theorem from_str_reads E k oc T s v : text_ok s -> ty_ok T = true -> env_ok E = true -> (wrap_depth E T < k)%nat ->
  (from_str E k oc T s = Ok v <-> exists d, JText d s /\ Reads E T d v).
Proof.
  intros Hs HT HE Hk. rewrite <- (text_val_reads E T s v) by (try assumption; apply Hs).
  rewrite from_str_total by assumption. destruct (text_val E T s) as [w|]; split; intros H; congruence.
Qed.
