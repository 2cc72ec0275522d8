(** Claims about serialization: C18, C22 (writing), C27 - C35, C43. *)
From Coq Require Import String ZArith List Bool Lia Reals Lra Permutation Floats.SpecFloat.
From Flocq Require Import Core.Core IEEE754.BinarySingleNaN.
From Verif Require Import Base Utf8 Utf8Facts F64 Lexer Grammar LexSpec Types Impls Ser JsonValue HeapSeq TokenFacts Reading ReadFacts FromStr Unambiguous VisitFacts NumValue DocSpec
  FloatOps FloatRead NumFacts ClaimsParse ClaimsNum TypedFacts ClaimsTypes SerSpec SerFacts RenderFacts WriteFacts FloatRT ExactPrint RenderRuns RoundTrip RunFacts RunText.
Import ListNotations.
Open Scope Z_scope.

(** ** C27, C28: any implementation of Serialize *)
Section Any.
Context {St D SQ MP : Type}.
Variable I : siface St D SQ MP.
Variable ryu : f64 -> bytes.

(** A Serialize object that describes a finite tree is written as the text of that tree. *)
Theorem C27_any_serialize d st t st' fuel :
  strs_valid I -> Describes I d st t st' -> (nodes t <= fuel)%nat ->
  to_string_impl I ryu fuel d st = (Ok (render itoa ryu t), st').
Proof. intros HV HD HF. apply describes_written; assumption. Qed.
(** Conversely, whatever to_string returns is the text of the tree the object described. *)
Theorem C27_only_what_was_described d st o st' fuel :
  strs_valid I -> to_string_impl I ryu fuel d st = (Ok o, st') ->
  exists t, Describes I d st t st' /\ (nodes t <= fuel)%nat /\ o = render itoa ryu t.
Proof. intros HV. apply written_describes, HV. Qed.
(** The loop itself never panics: it returns the text or keeps running. *)
Theorem C27_no_panic d st fuel :
  strs_valid I -> methods_return I ->
  (exists o, fst (to_string_impl I ryu fuel d st) = Ok o) \/ fst (to_string_impl I ryu fuel d st) = Fault FFuel.
Proof. intros HV HM. unfold to_string_impl. apply loop_total; assumption. Qed.
(** The text is a JSON text which denotes the tree, and only one document. *)
Theorem C27_text_is_json t :
  ryu_ok ryu -> stree_ok t = true ->
  exists doc, JText doc (render itoa ryu t) /\ Denotes t doc /\ forall doc', JText doc' (render itoa ryu t) -> doc' = doc.
Proof.
  intros HR HO. destruct (render_jtext ryu HR t HO) as (d & A & B). exists d. split; [exact B|]. split; [exact A|]. intros d' H. eapply JText_unique; eassumption.
Qed.
(** Valid UTF-8, no control characters. *)
Theorem C28_output_is_printable d st t st' fuel :
  strs_valid I -> ryu_ok ryu -> Describes I d st t st' -> stree_ok t = true -> (nodes t <= fuel)%nat ->
  exists s, fst (to_string_impl I ryu fuel d st) = Ok s /\ Utf8 s /\ Forall (fun c => 32 <= c) s.
Proof.
  intros HV HR HD HO HF. exists (render itoa ryu t). rewrite (C27_any_serialize d st t st' fuel HV HD HF). split; [reflexivity|].
  destruct (render_printable ryu HR t HO) as [A B]. split; [apply str_ok_spec in A; exact A|exact B].
Qed.
End Any.

(** ** The crate's impls *)
(** The standing assumptions: integer types of the language, field names are `str`s, a
    HashMap iterates over its entries in some order, ryu prints decimals that round to
    its argument, enough stack for the Box/Option nesting of the type. *)
Definition setting (E : env) (hm : nat -> list (val * val) -> list (val * val)) (ryu : f64 -> bytes) (k : nat) (T : ty) : Prop :=
  ty_ok T = true /\ env_ok E = true /\ names_ok E = true /\ orders hm /\ ryu_ok ryu /\ (wrap_depth E T < k)%nat.

Lemma stree_strs t : stree_ok t = true -> strs_ok t = true.
Proof.
  induction t as [|b|s|n|n|f|l IH|l IH] using stree_ind'; cbn [stree_ok strs_ok]; intros H; try reflexivity; try assumption.
  - rewrite forallb_forall in *. rewrite Forall_forall in IH. auto.
  - rewrite forallb_forall in *. rewrite Forall_forall in IH. intros x Hx. specialize (H _ Hx). apply andb_true_iff in H. destruct H as [H1 H2]. rewrite H1. cbn [andb]. auto.
Qed.
Lemma to_string_fun E hm ryu k T v s1 s2 : to_string_is E hm ryu k T v s1 -> to_string_is E hm ryu k T v s2 -> s1 = s2.
Proof. intros [N1 H1] [N2 H2]. specialize (H1 (N1 + N2)%nat ltac:(lia)). specialize (H2 (N1 + N2)%nat ltac:(lia)). congruence. Qed.

(** Every value of every type is written, as the text of the tree it stands for. *)
Theorem C27_typed E hm ryu k T v :
  setting E hm ryu k T -> has_type E T v ->
  exists t, Writes E T v t /\ stree_ok t = true /\
    forall fuel, (nodes t <= fuel)%nat -> to_string E hm ryu k fuel T v = Ok (render itoa ryu t).
Proof.
  intros (HT & HE & HN & HO & HR & Hk) Hv. destruct (depth_fits E T k Hk) as (F1 & F2 & F3).
  assert (F1' : (maxw T < k)%nat) by exact F1.
  destruct (Pv_describes E hm k F3 v T 0%nat) as (t & n2 & A & B & C); auto.
  { apply typed_describes; auto. intros f Hf. apply widen_spec, Hf. }
  exists t. split; [exact B|]. split; [exact C|]. intros fuel HF. unfold to_string.
  rewrite (described_written _ ryu _ _ _ _ fuel A (stree_strs _ C) HF). reflexivity.
Qed.
Lemma written_tree E hm ryu k T v s : setting E hm ryu k T -> has_type E T v -> to_string_is E hm ryu k T v s ->
  exists t d, Writes E T v t /\ stree_ok t = true /\ s = render itoa ryu t /\ Denotes t d /\ JText d s.
Proof.
  intros HS Hv Hs. destruct (C27_typed E hm ryu k T v HS Hv) as (t & A & B & C).
  assert (s = render itoa ryu t) as -> by (eapply to_string_fun; [exact Hs|exists (nodes t); exact C]).
  destruct (render_jtext ryu ltac:(apply HS) t B) as (d & D1 & D2). exists t, d. auto.
Qed.
Theorem C28_typed E hm ryu k T v :
  setting E hm ryu k T -> has_type E T v ->
  exists s, to_string_is E hm ryu k T v s /\ Utf8 s /\ Forall (fun c => 32 <= c) s.
Proof.
  intros HS Hv. destruct (C27_typed E hm ryu k T v HS Hv) as (t & A & B & C). exists (render itoa ryu t). split; [exists (nodes t); exact C|].
  destruct (render_printable ryu ltac:(apply HS) t B) as [P1 P2]. split; [apply str_ok_spec in P1; exact P1|exact P2].
Qed.
(** What to_string writes has no long runs of digits outside strings. *)
Lemma written_runs E hm ryu k T v s : setting E hm ryu k T -> has_type E T v -> to_string_is E hm ryu k T v s -> digit_runs digit_limit s.
Proof.
  intros HS Hv Hs. destruct (written_tree _ _ _ _ _ _ _ HS Hv Hs) as (t & d & _ & B & -> & _).
  eapply runs_mono; [|apply (render_runs ryu ltac:(apply HS) t B)]. unfold digit_limit. lia.
Qed.
Lemma text_of_ok E hm ryu k T v s : setting E hm ryu k T -> has_type E T v -> to_string_is E hm ryu k T v s -> Utf8 s.
Proof.
  intros HS Hv Hs. destruct (C28_typed E hm ryu k T v HS Hv) as (s' & A & B & _). rewrite (to_string_fun _ _ _ _ _ _ _ _ Hs A). exact B.
Qed.

(** ** C29: non-finite floats *)
Lemma num_not_null n t : NumText n t -> t <> bs "null".
Proof.
  intros H ->. apply NumText_chars in H. destruct H as [H _]. inversion H as [|? ? HC _]; subst. unfold num_char in HC. revert HC. cbn. lia.
Qed.
Lemma f64_tree E hm ryu k f : setting E hm ryu k TF64 -> f64_ok f = true ->
  to_string_is E hm ryu k TF64 (VF64 f) (if f_is_finite f then ryu f else bs "null").
Proof.
  intros HS Hf. destruct (C27_typed E hm ryu k TF64 (VF64 f) HS (ht_f64 _ _ Hf)) as (t & A & _ & C). inversion A; subst. exists 1%nat. exact C.
Qed.
Lemma f32_tree E hm ryu k g : setting E hm ryu k TF32 -> f32_ok g = true ->
  to_string_is E hm ryu k TF32 (VF32 g) (if f_is_finite g then ryu (f64_of_f32 g) else bs "null").
Proof.
  intros HS Hf. destruct (C27_typed E hm ryu k TF32 (VF32 g) HS (ht_f32 _ _ Hf)) as (t & A & _ & C). inversion A; subst. exists 1%nat.
  destruct (widen_spec g Hf) as (_ & F & _). cbn [render] in C. rewrite F in C. exact C.
Qed.
Theorem C29_f64 E hm ryu k f :
  setting E hm ryu k TF64 -> f64_ok f = true ->
  (to_string_is E hm ryu k TF64 (VF64 f) (bs "null") <-> f_is_finite f = false) /\
  (f_is_finite f = true -> exists n s, to_string_is E hm ryu k TF64 (VF64 f) s /\ NumText n s).
Proof.
  intros HS Hf. pose proof (f64_tree E hm ryu k f HS Hf) as HT. assert (HR : ryu_ok ryu) by apply HS. destruct (f_is_finite f) eqn:F.
  - destruct (HR f Hf F) as [(n & A & _) _]. split.
    + split; [|discriminate]. intros H. apply (to_string_fun _ _ _ _ _ _ _ _ HT) in H. exfalso. eapply num_not_null; eassumption.
    + intros _. exists n, (ryu f). auto.
  - split; [|discriminate]. split; [reflexivity|]. intros _. exact HT.
Qed.
Theorem C29_f32 E hm ryu k g :
  setting E hm ryu k TF32 -> f32_ok g = true ->
  (to_string_is E hm ryu k TF32 (VF32 g) (bs "null") <-> f_is_finite g = false) /\
  (f_is_finite g = true -> exists n s, to_string_is E hm ryu k TF32 (VF32 g) s /\ NumText n s).
Proof.
  intros HS Hf. pose proof (f32_tree E hm ryu k g HS Hf) as HT. assert (HR : ryu_ok ryu) by apply HS. destruct (widen_spec g Hf) as (V & F' & _). destruct (f_is_finite g) eqn:F.
  - destruct (HR _ V F') as [(n & A & _) _]. split.
    + split; [|discriminate]. intros H. apply (to_string_fun _ _ _ _ _ _ _ _ HT) in H. exfalso. eapply num_not_null; eassumption.
    + intros _. eexists n, _. split; [exact HT|exact A].
  - split; [|discriminate]. split; [reflexivity|]. intros _. exact HT.
Qed.

(** ** C35: reading back what was written *)
Lemma text_dlits d s : JText d s -> digit_runs digit_limit s -> dlits d.
Proof.
  intros Hd HL. pose proof (text_short d s Hd HL) as HS. destruct Hd as (w1 & t & w2 & _ & _ & Ht & _). apply (proj1 text_lits_ok) in Ht.
  unfold dlits. rewrite Forall_forall in *. auto.
Qed.
(** Every value is read back, as a value that differs from it only as [Back] says. *)
Theorem C35_round_trip E hm ryu k oc T v s :
  setting E hm ryu k T -> distinct_names E -> has_type E T v -> floats_ok v ->
  to_string_is E hm ryu k T v s ->
  exists v', from_str E k oc T s = Ok v' /\ Back E T v v'.
Proof.
  intros HS HN Hv HF Hs. pose proof (written_runs _ _ _ _ _ _ _ HS Hv Hs) as HL. pose proof (text_of_ok _ _ _ _ _ _ _ HS Hv Hs) as Hu. destruct (written_tree _ _ _ _ _ _ _ HS Hv Hs) as (t & d & A & B & _ & C & HD).
  destruct HS as (HT & HE & _ & _ & _ & Hk). destruct (written_reads E HE HN v T t d) as (v' & R & BK); auto; [eapply text_dlits; eassumption|].
  exists v'. split; [|exact BK]. apply from_str_reads; auto using limit_i32. eauto.
Qed.
(** A value without f64s, without I64(n >= 0), without Some(..) that prints as null and
    without non-finite f32s is read back unchanged. *)
Theorem C35_plain_values_unchanged E hm ryu k oc T v s :
  setting E hm ryu k T -> distinct_names E -> has_type E T v -> plain v = true ->
  to_string_is E hm ryu k T v s ->
  from_str E k oc T s = Ok v.
Proof.
  intros HS HN Hv HP Hs. destruct (C35_round_trip E hm ryu k oc T v s) as (v' & R & B); auto using plain_floats.
  rewrite R. f_equal. eapply plain_back; eassumption.
Qed.

(** Types all of whose values are plain, but for non-finite f32s. *)
Fixpoint nullable (T : ty) : bool :=
  match T with
  | TUnit | TOption _ | TF32 | TF64 | TValue | TNumber => true
  | TBox T => nullable T
  | _ => false
  end.
Fixpoint exact_ty (T : ty) : bool :=
  match T with
  | TF32 | TF64 | TValue | TNumber | TArray | TObject => false
  | TBox T | TVec T | TArr T _ | TMap _ _ T => exact_ty T
  | TOption T => negb (nullable T) && exact_ty T
  | TPair A B => exact_ty A && exact_ty B
  | _ => true
  end.
Definition exact_env (E : env) : bool :=
  forallb (fun d => match d with DStruct fs => forallb (fun f => exact_ty (snd f)) fs | DEnum _ => true end) E.
Lemma not_nullable E v : forall T, has_type E T v -> nullable T = false -> prints_null v = false.
Proof.
  induction v as [|b|s|z|f|f|v IH| |v IH|a b IHa IHb|l IH|l IH|j|m|l|l|l IH|i] using val_ind'; intros T HT HN; inversion HT; subst; try discriminate; try reflexivity.
  cbn [nullable prints_null] in *. eapply IH; eassumption.
Qed.
Lemma exact_plain E v : exact_env E = true -> forall T, has_type E T v -> exact_ty T = true -> plain v = true.
Proof.
  intros HE. induction v as [|b|s|z|f|f|v IH| |v IH|a b IHa IHb|l IH|l IH|j|m|l|l|l IH|i] using val_ind'; intros T HT HX; inversion HT; subst; cbn [exact_ty plain] in *; try discriminate; try reflexivity; eauto.
  - apply andb_true_iff in HX. destruct HX as [X1 X2]. apply negb_true_iff in X1. erewrite not_nullable by eassumption. cbn [negb andb]. eauto.
  - apply andb_true_iff in HX. destruct HX. erewrite IHa, IHb by eassumption. reflexivity.
  - apply forallb_forall. intros x Hx. rewrite Forall_forall in *. eauto.
  - apply forallb_forall. intros x Hx. rewrite Forall_forall in *. eauto.
  - apply forallb_forall. intros x Hx. rewrite Forall_forall in *. eauto.
  - match goal with HX : nth_error E id = Some (DStruct fs) |- _ => apply nth_error_In in HX; unfold exact_env in HE; rewrite forallb_forall in HE; specialize (HE _ HX); cbn in HE end.
    rewrite forallb_forall in HE. apply forallb_forall. intros x Hx.
    match goal with HY : Forall2 _ fs l |- _ => destruct (forall2_in_r _ _ _ _ HY Hx) as (f & Hf & Hty) end. rewrite Forall_forall in IH. eapply IH; eauto.
Qed.
Theorem C35_exact_types E hm ryu k oc T v s :
  setting E hm ryu k T -> distinct_names E -> exact_ty T = true -> exact_env E = true -> has_type E T v ->
  to_string_is E hm ryu k T v s ->
  from_str E k oc T s = Ok v.
Proof. intros HS HN H1 H2 Hv. apply C35_plain_values_unchanged; auto. eapply exact_plain; eassumption. Qed.

(** ** C30: strings *)
Theorem C30_strings_round_trip E hm ryu k oc s :
  setting E hm ryu k TString -> str_ok s = true ->
  to_string_is E hm ryu k TString (VStr s) (quote s) /\ from_str E k oc TString (quote s) = Ok (VStr s).
Proof.
  intros HS Hs. destruct (C27_typed E hm ryu k TString (VStr s) HS (ht_string _ _ Hs)) as (t & A & _ & C). inversion A; subst.
  split; [exists 1%nat; exact C|]. apply from_str_reads; try apply HS; auto.
  - apply limit_i32; [|apply quote_runs; [exact Hs|unfold digit_limit; lia]]. eapply text_of_ok; [exact HS|constructor; exact Hs|exists 1%nat; exact C].
  - exists (DStr s). split; [|constructor]. exists [], (quote s), []. rewrite app_nil_r. split; [reflexivity|]. split; [constructor|]. split; [|constructor].
    constructor. apply quote_text_ok, Hs.
Qed.
(** Each character is written raw, or as its escape; only the quote, the backslash and
    control characters are escaped. *)
Theorem C30_only_specials_are_escaped c : 0 <= c ->
  (quote_char c = [c] <-> 32 <= c /\ c <> 34 /\ c <> 92) /\
  (quote_char c <> [c] -> exists e, quote_char c = 92 :: e /\
     (e = [c] \/ In (c, e) [(8, bs "b"); (9, bs "t"); (10, bs "n"); (12, bs "f"); (13, bs "r")] \/
      ~ In c [8; 9; 10; 12; 13] /\ exists h l, e = bs "u00" ++ [h; l] /\ HexDigit h (c / 16) /\ HexDigit l (c mod 16))).
Proof.
  intros Hc. unfold quote_char.
  destruct (c =? 34) eqn:E1; [apply Z.eqb_eq in E1; subst; split; [split; [discriminate|lia]|intros _; eexists; split; [reflexivity|left; reflexivity]]|].
  destruct (c =? 92) eqn:E2; [apply Z.eqb_eq in E2; subst; split; [split; [discriminate|lia]|intros _; eexists; split; [reflexivity|left; reflexivity]]|].
  apply Z.eqb_neq in E1, E2.
  destruct (c =? 8) eqn:E3; [apply Z.eqb_eq in E3; subst; split; [split; [discriminate|lia]|intros _; eexists; split; [reflexivity|right; left; cbn; tauto]]|].
  destruct (c =? 9) eqn:E4; [apply Z.eqb_eq in E4; subst; split; [split; [discriminate|lia]|intros _; eexists; split; [reflexivity|right; left; cbn; tauto]]|].
  destruct (c =? 10) eqn:E5; [apply Z.eqb_eq in E5; subst; split; [split; [discriminate|lia]|intros _; eexists; split; [reflexivity|right; left; cbn; tauto]]|].
  destruct (c =? 12) eqn:E6; [apply Z.eqb_eq in E6; subst; split; [split; [discriminate|lia]|intros _; eexists; split; [reflexivity|right; left; cbn; tauto]]|].
  destruct (c =? 13) eqn:E7; [apply Z.eqb_eq in E7; subst; split; [split; [discriminate|lia]|intros _; eexists; split; [reflexivity|right; left; cbn; tauto]]|].
  apply Z.eqb_neq in E3, E4, E5, E6, E7.
  destruct (c <? 32) eqn:E8; [apply Z.ltb_lt in E8|apply Z.ltb_ge in E8].
  - split; [split; [discriminate|lia]|]. intros _. eexists. split; [reflexivity|]. right. right. split; [cbn; intuition|].
    eexists _, _. split; [reflexivity|]. split; apply hex_char_digit.
    + split; [apply Z.div_pos; lia|]. assert (c / 16 < 2) by (apply Z.div_lt_upper_bound; lia). lia.
    + pose proof (Z.mod_pos_bound c 16). lia.
  - split; [tauto|]. intros H. congruence.
Qed.

(** ** C31: integers *)
Theorem C31_integers_round_trip E hm ryu k oc sg b z :
  setting E hm ryu k (TInt sg b) -> int_ok sg b z = true ->
  exists s, to_string_is E hm ryu k (TInt sg b) (VInt z) s /\ int_text z s /\ from_str E k oc (TInt sg b) s = Ok (VInt z).
Proof.
  intros HS Hz. pose proof HS as (HT & HE & _ & _ & _ & Hk). destruct (C27_typed E hm ryu k _ _ HS (ht_int _ _ _ _ Hz)) as (t & A & _ & C). exists (itoa z).
  assert (C' : to_string_is E hm ryu k (TInt sg b) (VInt z) (itoa z)) by (exists 1%nat; inversion A; subst; exact C).
  split; [exact C'|]. split; [apply itoa_spec|].
  pose proof (written_runs _ _ _ _ _ _ _ HS (ht_int _ _ _ _ Hz) C') as HL.
  destruct (written_tree _ _ _ _ _ _ _ HS (ht_int _ _ _ _ Hz) C') as (t' & d & W & B & _ & DD & HD).
  apply from_str_reads; auto; [apply limit_i32; [eapply text_of_ok; [exact HS|constructor; exact Hz|exact C']|exact HL]|].
  exists d. split; [exact HD|]. unfold int_ok in Hz. apply andb_true_iff in Hz. rewrite !Z.leb_le in Hz.
  inversion W; subst; inversion DD; subst; constructor; auto; try lia.
  intros Hn. rewrite Hn in *. match goal with HX : true = (lit_int _ <? 0) |- _ => symmetry in HX; apply Z.ltb_lt in HX end. unfold int_min in Hz. lia.
Qed.

(** ** C32, C33: floats *)
Lemma ryu_len ryu f : ryu_ok ryu -> f64_ok f = true -> f_is_finite f = true -> digit_runs digit_limit (ryu f).
Proof. intros HR V F. destruct (HR f V F) as [_ H]. apply runs_of_length. unfold digit_limit. lia. Qed.
Theorem C32_f32_round_trip E hm ryu k oc g :
  setting E hm ryu k TF32 -> f32_ok g = true -> f_is_finite g = true ->
  exists s, to_string_is E hm ryu k TF32 (VF32 g) s /\ from_str E k oc TF32 s = Ok (VF32 g).
Proof.
  intros HS V F. pose proof HS as (HT & HE & _ & _ & HR & Hk). pose proof (f32_tree E hm ryu k g HS V) as HX. rewrite F in HX.
  exists (ryu (f64_of_f32 g)). split; [exact HX|]. destruct (widen_spec g V) as (V' & F' & _).
  destruct (written_tree _ _ _ _ _ _ _ HS (ht_f32 _ _ V) HX) as (t' & d & W & B & ER & DD & HD).
  assert (HL : digit_runs digit_limit (ryu (f64_of_f32 g))) by (apply ryu_len; [exact HR|exact V'|congruence]).
  apply from_str_reads; auto; [apply limit_i32; [eapply text_of_ok; [exact HS|constructor; exact V|exact HX]|exact HL]|].
  exists d. split; [exact HD|]. inversion W; subst. destruct (widen_spec g V) as (_ & _ & S & R).
  inversion DD as [| | | | |? n F2 HI HSg HV|? F2| |]; subst; [|congruence].
  pose proof (text_dlits _ _ HD HL) as HDl. apply dlits_num in HDl. destruct HDl as [L1 L2].
  destruct (f32_back n g) as (y & Hy & Hf); auto; try congruence. rewrite <- Hf. apply rd_f32; exact Hy.
Qed.
Lemma f64_reads_back E hm ryu k oc f : setting E hm ryu k TF64 -> f64_ok f = true -> f_is_finite f = true ->
  exists n, NumText n (ryu f) /\ ~ is_int_lit n /\ n_neg n = sign_SF f /\ nearest64 (lit_value n) = freal f /\ lit_ok n /\ lit_short n /\
    to_string_is E hm ryu k TF64 (VF64 f) (ryu f) /\ text_ok (ryu f) /\ JText (DNum n) (ryu f) /\
    forall y, reads_f n y -> from_str E k oc TF64 (ryu f) = Ok (VF64 y).
Proof.
  intros HS V F. pose proof HS as (HT & HE & _ & _ & HR & Hk). pose proof (f64_tree E hm ryu k f HS V) as HX. rewrite F in HX.
  destruct (HR f V F) as [(n & A & B & C & D) HL]. exists n.
  assert (HJ : JText (DNum n) (ryu f)) by (exists [], (ryu f), []; rewrite app_nil_r; split; [reflexivity|]; split; [constructor|]; split; [constructor; exact A|constructor]).
  assert (HLim : digit_runs digit_limit (ryu f)) by (apply ryu_len; assumption).
  pose proof (text_dlits _ _ HJ HLim) as HDl. apply dlits_num in HDl. destruct HDl as [L1 L2].
  assert (text_ok (ryu f)) by (apply limit_i32; [eapply text_of_ok; [exact HS|constructor; exact V|exact HX]|exact HLim]).
  repeat (split; [assumption|]). intros y Hy. apply from_str_reads; auto. exists (DNum n). split; [exact HJ|]. apply rd_f64, Hy.
Qed.
(** An f64 comes back within 2^-49 relatively plus 2^-1071 absolutely, with the same sign. *)
Theorem C33_f64_round_trip E hm ryu k oc f :
  setting E hm ryu k TF64 -> f64_ok f = true -> f64_inner f ->
  exists s y, to_string_is E hm ryu k TF64 (VF64 f) s /\ from_str E k oc TF64 s = Ok (VF64 y) /\ f64_close f y.
Proof.
  intros HS V [F HB]. destruct (f64_reads_back E hm ryu k oc f HS V F) as (n & A & B & C & D & L1 & L2 & HX & Hs & HJ & HRd).
  destruct (reads_back n (freal f) L1 L2 B D HB) as (y & Hy & [Vy Fy] & Sy & HD). exists (ryu f), y. split; [exact HX|]. split; [apply HRd, Hy|].
  split; [exact Vy|]. split; [rewrite <- finite_SF; exact Fy|]. split; [congruence|exact HD].
Qed.
(** Exactly, when at most 2^53 with at most 22 decimals (or zeros) has been printed. *)
Theorem C33_short_decimals_round_trip E hm ryu k oc f n :
  setting E hm ryu k TF64 -> f64_ok f = true -> f_is_finite f = true ->
  NumText n (ryu f) -> lit_mantissa n <= 2 ^ 53 -> -22 <= lit_scale n <= 22 ->
  exists s, to_string_is E hm ryu k TF64 (VF64 f) s /\ from_str E k oc TF64 s = Ok (VF64 f).
Proof.
  intros HS V F HN HM HC. destruct (f64_reads_back E hm ryu k oc f HS V F) as (n' & A & B & C & D & L1 & L2 & HX & Hs & HJ & HRd).
  assert (n' = n) by (destruct (num_cancel n' (ryu f) n (ryu f) [] []); auto). subst n'.
  exists (ryu f). split; [exact HX|]. destruct (reads64_short E n L1 L2 HM HC) as (y & Ry & [Vy Fy] & Ey).
  assert (Hy : reads_f n y). { inversion Ry as [| | | |? ? [[? _]|[? _]]| | | | | | | | | | | | | | | | | |]; subst; try contradiction. assumption. }
  rewrite (HRd y Hy). f_equal. f_equal. destruct (lit_event_finite n y L1 Hy) as [_ Sy].
  apply (float_inj 53 1024 eq_refl eq_refl); [exact Vy|exact V|exact Fy|rewrite finite_SF; exact F| |congruence]. unfold freal in D. congruence.
Qed.
(** In general the value does not come back exactly: 1e-23. *)
Definition f_1em23 : f64 := S754_finite false 6805647338418769 (-129).
Lemma f_1em23_prints : prints_float f_1em23 (bs "1e-23").
Proof.
  exists (mknum false [1] None (Some (true, [2; 3]))). split.
  { change (bs "1e-23") with ((if false then [45] else []) ++ dtext [1] ++ [] ++ (101 :: [45] ++ dtext [2; 3])). constructor; [apply int_nonzero; [lia|constructor]|constructor|].
    constructor; [left; reflexivity|constructor|]. repeat constructor; lia. }
  split; [intros [_ H]; discriminate|]. split; [reflexivity|].
  assert (EV : lit_value (mknum false [1] None (Some (true, [2; 3]))) = (/ 100000000000000000000000)%R).
  { unfold lit_value, lit_mantissa, lit_scale, frac_digits. cbn [n_neg n_int n_frac n_exp List.length app]. change (digits_val [1]) with 1.
    change (- digits_val [2; 3] - Z.of_nat 0) with (-(23)). rewrite powerRZ_neg'. rewrite <- (pow_powerRZ 10) by lia. change (10 ^ 23) with 100000000000000000000000. lra. }
  rewrite EV. unfold nearest64, round, scaled_mantissa.
  assert (HM : mag radix2 (/ 100000000000000000000000) = (-76) :> Z).
  { apply mag_unique. rewrite Rabs_pos_eq by lra. change (-76 - 1) with (-(77)). change (-76) with (-(76)). rewrite !bpow_opp.
    assert (E77 : bpow radix2 77 = 151115727451828646838272%R) by reflexivity. assert (E76 : bpow radix2 76 = 75557863725914323419136%R) by reflexivity.
    rewrite E77, E76. split; [apply Rinv_le_contravar; lra|apply Rinv_lt_contravar; lra]. }
  assert (HC : cexp radix2 (FLT_exp (-1074) 53) (/ 100000000000000000000000) = -129).
  { unfold cexp, FLT_exp. rewrite HM. reflexivity. }
  rewrite HC. change (- -129) with 129. assert (E129 : bpow radix2 129 = 680564733841876926926749214863536422912%R) by reflexivity. rewrite E129.
  rewrite (Znearest_imp _ _ 6805647338418769); [reflexivity|].
  apply Rabs_def1; lra.
Qed.
Theorem C33_exact_round_trip_refuted E hm k oc :
  ty_ok TF64 = true -> env_ok E = true -> names_ok E = true -> orders hm -> (wrap_depth E TF64 < k)%nat ->
  (forall ryu, ryu_ok ryu -> ryu f_1em23 = bs "1e-23" ->
     exists y, to_string_is E hm ryu k TF64 (VF64 f_1em23) (bs "1e-23") /\ from_str E k oc TF64 (bs "1e-23") = Ok (VF64 y) /\ y <> f_1em23) /\
  (exists ryu, ryu_ok ryu /\ ryu f_1em23 = bs "1e-23").
Proof.
  intros HT HE HN HO Hk. split.
  - intros ryu HR HX. assert (HS : setting E hm ryu k TF64) by (unfold setting; auto 10).
    destruct (f64_reads_back E hm ryu k oc f_1em23 HS eq_refl eq_refl) as (n & A & B & C & D & L1 & L2 & HT' & Hs & HJ & HRd). rewrite HX in *.
    assert (n = mknum false [1] None (Some (true, [2; 3]))) as ->.
    { destruct f_1em23_prints as (n' & A' & _). destruct (num_cancel n (bs "1e-23") (mknum false [1] None (Some (true, [2; 3]))) (bs "1e-23") [] []); auto.
      change (bs "1e-23") with ((if false then [45] else []) ++ dtext [1] ++ [] ++ (101 :: [45] ++ dtext [2; 3])). constructor; [apply int_nonzero; [lia|constructor]|constructor|].
      constructor; [left; reflexivity|constructor|]. repeat constructor; lia. }
    exists (S754_finite false 6805647338418770 (-129)). split; [exact HT'|]. split; [|discriminate]. apply HRd. vm_compute. reflexivity.
  - exists (override f_1em23 (bs "1e-23") exact_print). split; [apply override_ok; [apply f_1em23_prints|cbn; lia|apply exact_print_ok]|].
    unfold override. destruct (float_dec f_1em23 f_1em23); congruence.
Qed.
