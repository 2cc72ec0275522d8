(** C56, C58, C60, continued: derived enums. *)
From Coq Require Import String ZArith List Bool Lia.
From Verif Require Import Base Utf8 F64 Lexer Driver Grammar LexSpec DocSpec Reading ReadFacts Types Impls Tree TreeFacts DriverFacts Denote FromStr RunText MapFacts UserTypes UserSpec UserFacts UserMain UserText ExactPrint Ser SerSpec ClaimsUser ClaimsClosed OpenSer OpenSerSpec ClaimsOpenSer RoundSpec ClaimsRound EvolveSpec ClaimsEvolve.
Import ListNotations.
Open Scope nat_scope.

Lemma arm_find s ns : forall i, enum_arm s ns i = match find_name s ns i with Some j => Ok j | None => Err end.
Proof.
  induction ns as [|n ns IH]; intros i; [reflexivity|]. cbn [enum_arm find_name]. destruct (list_eq_dec Z.eq_dec s n) as [->|N].
  - rewrite (proj2 (bytes_eqb_eq n n) eq_refl). reflexivity.
  - destruct (bytes_eqb s n) eqn:E; [apply bytes_eqb_eq in E; contradiction|apply IH].
Qed.
Lemma enum_reads {G} ns t (g : G) o : reads (uenum ns) t g o =
  match t with
  | PLeaf (EStr s) => match find_name s ns 0 with Some i => (Ok tt, (g, Some i)) | None => (Err, (g, o)) end
  | _ => (Err, (g, o))
  end.
Proof.
  destruct t as [|ev|l c|l c]; try reflexivity. destruct ev; try reflexivity. unfold reads. cbn [uenum u_begin feed u_ops enum_ops v_str].
  rewrite arm_find. destruct (find_name s ns 0); reflexivity.
Qed.
Lemma enum_regular {G} ns : regular (uenum ns : utype G nat).
Proof.
  split; [intros [[]|[]]|]. split.
  - intros t g g' o. rewrite enum_reads. destruct t as [|[]|l c|l c]; try (intros K; discriminate K). destruct (find_name s ns 0); intros K; [injection K as <- <-; discriminate|discriminate K].
  - intros t g o1 o2. rewrite !enum_reads. destruct t as [|[]|l c|l c]; try (split; [reflexivity|split; [reflexivity|intros K; discriminate K]]).
    destruct (find_name s ns 0); [repeat split|split; [reflexivity|split; [reflexivity|intros K; discriminate K]]].
Qed.
Theorem C56_enum_models_closed E id ns : nth_error E id = Some (DEnum ns) -> models E (uenum ns) VEnum (TNamed id).
Proof.
  intros HE. split; [apply enum_regular|]. split; [exists None; split; reflexivity|]. intros t. rewrite enum_reads.
  assert (D : de E t (TNamed id) = match t with PLeaf (EStr s) => option_map VEnum (find_name s ns 0) | _ => None end).
  { destruct t as [|ev|l c|l c]; [reflexivity| |destruct c; reflexivity|destruct c; [|reflexivity]; cbn [de de_wrap de_map]; rewrite HE; reflexivity].
    destruct ev; try reflexivity. cbn [de de_wrap leaf_prim]. rewrite HE. destruct (find_name s ns 0); reflexivity. }
  rewrite D. destruct t as [|[]|l c|l c]; eauto. destruct (find_name s ns 0) as [i|]; cbn [option_map]; eauto.
Qed.

(** Which texts are a derived enum: the JSON strings that spell the name of a variant; it is
    the first one of that name. Nothing else happens in the world. *)
Theorem C56_enum (G : Type) ns oc s (g : G) : text_ok s ->
  snd (user_from_str (uenum ns) oc s g) = g /\
  (forall i, fst (user_from_str (uenum ns) oc s g) = Ok i <-> exists k, JText (DStr k) s /\ VariantAt ns k i) /\
  (forall e, fst (user_from_str (uenum ns) oc s g) <> Fault e).
Proof.
  intros Hs. pose proof (enum_regular (G := G) ns) as (HQ & _ & _). pose proof (C56_enum_models_closed [DEnum ns] 0 ns eq_refl) as HM.
  pose proof (C56_agrees_with_closed_model _ _ _ _ _ oc 4 s HM Hs ltac:(cbn; lia)) as AG.
  assert (S1 : user_from_str (uenum ns) oc s g = (fst (user_from_str (uenum ns) oc s tt), g)).
  { rewrite !C56_from_str by (assumption || apply HM). unfold read_text. destruct (pv s) as [t rest]. rewrite !enum_reads.
    destruct t as [|[]|l c|l c]; try reflexivity. destruct (find_name s0 ns 0); [|reflexivity]. reflexivity. }
  rewrite S1. cbn [fst snd]. split; [reflexivity|]. pose proof (fun v => from_str_reads [DEnum ns] 4 oc (TNamed 0) s v Hs eq_refl eq_refl ltac:(cbn; lia)) as RD. split.
  - intros i. specialize (RD (VEnum i)). rewrite <- AG in RD. split.
    + intros E. rewrite E in RD. destruct (proj1 RD eq_refl) as (d & J & R). inversion R; subst. match goal with [HN : nth_error [DEnum ns] 0 = Some (DEnum _) |- _] => injection HN as -> end. eauto.
    + intros (k & J & V). destruct (user_from_str (uenum ns) oc s tt) as [[j| |f] []]; cbn [fst rmap] in *;
        (assert (K : exists d, JText d s /\ Reads [DEnum ns] (TNamed 0) d (VEnum i)) by (exists (DStr k); split; [exact J|]; eapply rd_enum; [reflexivity|exact V])); apply RD in K; congruence.
  - intros e E. rewrite E in AG. cbn [rmap] in AG. rewrite (from_str_total [DEnum ns] 4 oc (TNamed 0) s Hs ltac:(cbn; lia)) in AG. destruct (text_val [DEnum ns] (TNamed 0) s); discriminate AG.
Qed.

Section Round.
Context {G St X K SQ MP : Type}.
Variable U : user St X K SQ MP.
Variable ryu : f64 -> bytes.
Variable oc : bool.
Notation comes_back T c a := (comes_back (G := G) U ryu oc T c a).

Lemma string_variant ns n i c : (forall st, writes U ryu c st (Ok (quote (text n))) st) -> VariantAt ns (text n) i -> comes_back (uenum ns) c i.
Proof.
  intros W V st g. destruct (quote_key (text n) (text_utf8 n)) as [QO QK]. exists (quote (text n)), st, g. split; [apply W|]. split; [exact QO|].
  split; [exists (DStr (text n)); split; [exact QK|constructor]|]. destruct (C56_enum G ns oc _ g QO) as (E1 & E2 & _).
  rewrite (surjective_pairing (user_from_str _ _ _ _)), E1. f_equal. apply E2. eauto.
Qed.
(** A unit variant comes back as itself if no earlier variant has its name... *)
Theorem C58_enum ns n i : VariantAt ns (text n) i -> comes_back (uenum ns) (CVariant n) i.
Proof. apply string_variant. intros st. apply (C57_scalars U ryu st). split; reflexivity. Qed.
(** ... and so does a string that spells its name. *)
Theorem C60_string_as_variant ns n i : VariantAt ns (text n) i -> comes_back (uenum ns) (CStr n) i.
Proof. apply string_variant. intros st. apply (C57_scalars U ryu st). split; reflexivity. Qed.
End Round.

Definition colours : list bytes := [bs "Red"; bs "Green"; bs "Red"].
Example ex_variant : VariantAt colours (bs "Green") 1 /\ VariantAt colours (bs "Red") 0 /\ ~ VariantAt colours (bs "Red") 2.
Proof.
  split; [|split].
  - split; [reflexivity|]. intros [|[|j]] H; [intros E; discriminate E|lia|lia].
  - split; [reflexivity|]. intros j H. lia.
  - intros [_ H]. apply (H 0); [lia|reflexivity].
Qed.
Example ex_enum_text oc : fst (user_from_str (uenum colours) oc (bs " ""Gr\u0065en"" ") tt) = Ok 1 /\ fst (user_from_str (uenum colours) oc (bs "1") tt) = Err.
Proof. destruct oc; split; vm_compute; reflexivity. Qed.
