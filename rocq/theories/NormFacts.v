(** C65: two documents say the same iff their values are the same; two values are the same iff
    their texts are. *)
From Coq Require Import String ZArith List Bool Lia Reals Floats.SpecFloat.
From Flocq Require Import Core.Core IEEE754.BinarySingleNaN.
From Verif Require Import Base Utf8 Utf8Facts F64 Lexer Grammar LexSpec Types Impls Reading MapFacts NumValue DocSpec NumFacts ReadFacts TypedFacts
  Ser SerSpec RenderFacts WriteFacts FloatRT Unambiguous DebugSpec DebugInj SizeFacts VisitFacts TreeFacts NormSpec.
Import ListNotations.
Open Scope Z_scope.

(** ** Literals *)
Lemma same_literal_number n n' m m' : num_ok n -> num_ok n' -> JReads (DNum n) (JvNum m) -> JReads (DNum n') (JvNum m') ->
  lit_ok n -> lit_ok n' ->
  (same_literal n n' <-> same_number m m').
Proof.
  intros HN HN' H H' HL HL'.
  assert (C : forall n m, num_ok n -> lit_ok n -> JReads (DNum n) (JvNum m) ->
    (is_int_lit n /\ i64_MIN <= lit_int n <= u64_MAX /\ (m = NU64 (lit_int n) \/ m = NI64 (lit_int n)) /\ forall f, ~ reads_f n f) \/
    (exists f, m = NF64 f /\ reads_f n f /\ ~ (is_int_lit n /\ i64_MIN <= lit_int n <= u64_MAX))).
  { intros x y HX HLX HJ. inversion HJ as [| | |? z U|? z U|? f F| |]; subst.
    - left. destruct (int_range x z (or_introl U) HLX) as (A & -> & B). split; [exact A|]. split; [exact B|]. split; [auto|].
      intros f F. apply (lit_event_u x _ HX) in U. unfold reads_f in F. congruence.
    - left. destruct (int_range x z (or_intror U) HLX) as (A & -> & B). split; [exact A|]. split; [exact B|]. split; [auto|].
      intros f F. apply (lit_event_i x _ HX) in U. unfold reads_f in F. congruence.
    - right. exists f. split; [reflexivity|]. split; [exact F|]. intros [A B]. unfold reads_f in F.
      destruct (n_neg x) eqn:NG.
      + assert (U : reads_i x (lit_int x)) by (unfold reads_i; repeat split; try apply A; auto; lia). apply (lit_event_i x _ HX) in U. congruence.
      + assert (U : reads_u x (lit_int x)) by (unfold reads_u; repeat split; try apply A; auto; lia). apply (lit_event_u x _ HX) in U. congruence. }
  destruct (C n m HN HL H) as [(A1 & A2 & A3 & A4)|(f & -> & A3 & A4)]; destruct (C n' m' HN' HL' H') as [(B1 & B2 & B3 & B4)|(f' & -> & B3 & B4)].
  - split.
    + intros [_ _ _ E|f F _]; [|destruct (A4 f F)]. rewrite <- E in B3. econstructor; eassumption.
    + intros SN; inversion SN as [x y z X Y|f]; subst; [|destruct A3; discriminate]. apply sl_integer; try assumption. assert (z = lit_int n) by (clear - X A3; destruct X, A3; congruence). assert (z = lit_int n') by (clear - Y B3; destruct Y, B3; congruence). congruence.
  - split.
    + intros [_ X R E|f F _]; [|destruct (A4 f F)]. destruct B4. split; [exact X|lia].
    + intros X; inversion X as [? ? z Y Z|]; subst; [destruct Z; discriminate|destruct A3; discriminate].
  - split.
    + intros [X _ R E|g _ F]; [|destruct (B4 g F)]. destruct A4. split; assumption.
    + intros X; inversion X as [? ? z Y Z|]; subst; [destruct Y; discriminate|destruct B3; discriminate].
  - split.
    + intros [X _ R E|g F F']; [destruct A4; split; assumption|]. assert (f = g) by (unfold reads_f in *; congruence). assert (f' = g) by (unfold reads_f in *; congruence). subst. constructor.
    + intros X; inversion X as [? ? z [Y|Y] Z|]; subst; try discriminate. eapply sl_float; eassumption.
Qed.

(** ** Documents *)
Definition entries_read (l : list (bytes * doc)) (kvs : list (bytes * jval)) : Prop :=
  Forall2 (fun kd kj => fst kd = fst kj /\ JReads (snd kd) (snd kj)) l kvs.
Lemma last_read l kvs k : entries_read l kvs ->
  (forall d, last_binding l k d -> exists j, last_binding kvs k j /\ JReads d j) /\
  (forall j, last_binding kvs k j -> exists d, last_binding l k d /\ JReads d j).
Proof.
  intros H. assert (NB : forall l kvs, entries_read l kvs -> (Forall (fun kv => fst kv <> k) l <-> Forall (fun kv => fst kv <> k) kvs)).
  { clear. intros l kvs H. induction H as [|a b l kvs [E _] H IH]; [split; constructor|]. rewrite !Forall_cons_iff, IH, E. reflexivity. }
  split.
  - intros d (l1 & l2 & -> & N). apply Forall2_app_inv_l in H. destruct H as (k1 & k2 & H1 & H2 & ->). inversion H2 as [|? [k' j] ? k2' [E R] H3]; subst. cbn [fst snd] in *. subst k'.
    exists j. split; [|exact R]. exists k1, k2'. split; [reflexivity|]. apply (NB _ _ H3), N.
  - intros j (l1 & l2 & -> & N). apply Forall2_app_inv_r in H. destruct H as (k1 & k2 & H1 & H2 & ->). inversion H2 as [|[k' d] ? k2' ? [E R] H3]; subst. cbn [fst snd] in *. subst k'.
    exists d. split; [|exact R]. exists k1, k2'. split; [reflexivity|]. apply (NB _ _ H3), N.
Qed.
Lemma sorted_below {A} k (v : A) m : sorted_keys bytes_cmp ((k, v) :: m) = true -> sorted_keys bytes_cmp m = true /\ Forall (fun kv => bytes_cmp k (fst kv) = Lt) m.
Proof.
  intros H. apply (sorted_cons bytes_cmp (fun _ => True)) in H; [|intros; eapply bytes_cmp_trans; eassumption|apply Forall_forall; auto]. destruct H as [H1 H2]. split; assumption.
Qed.
(** Two sorted maps with the same keys and related values. *)
Lemma sorted_forall2 {A B} (R : A -> B -> Prop) (m : list (bytes * A)) : forall (m' : list (bytes * B)), sorted_keys bytes_cmp m = true -> sorted_keys bytes_cmp m' = true ->
  (forall k a, In (k, a) m -> exists b, In (k, b) m' /\ R a b) -> (forall k b, In (k, b) m' -> exists a, In (k, a) m /\ R a b) ->
  Forall2 (fun x y => fst x = fst y /\ R (snd x) (snd y)) m m'.
Proof.
  induction m as [|[k a] m IH]; intros [|[k' b] m'] S1 S2 H1 H2.
  - constructor.
  - destruct (H2 k' b (or_introl eq_refl)) as (? & [] & _).
  - destruct (H1 k a (or_introl eq_refl)) as (? & [] & _).
  - apply sorted_below in S1, S2. destruct S1 as [S1 B1], S2 as [S2 B2]. rewrite Forall_forall in B1, B2.
    assert (NL : forall x, bytes_cmp x x <> Lt) by (intros x; rewrite bytes_cmp_refl; discriminate).
    assert (E : k = k').
    { destruct (H1 k a (or_introl eq_refl)) as (b1 & [E|I1] & _); [congruence|]. destruct (H2 k' b (or_introl eq_refl)) as (a1 & [E|I2] & _); [congruence|].
      apply B2 in I1. apply B1 in I2. cbn [fst] in *. destruct (NL k (bytes_cmp_trans _ _ _ I2 I1)). }
    subst k'.
    assert (RA : R a b).
    { destruct (H1 k a (or_introl eq_refl)) as (b1 & [E|I1] & RR); [congruence|]. apply B2 in I1. destruct (NL k I1). }
    constructor; [split; [reflexivity|exact RA]|]. apply IH; auto.
    + intros k1 a1 I1. destruct (H1 k1 a1 (or_intror I1)) as (b1 & [E|I2] & RR); [|eauto]. injection E as <- <-. apply B1 in I1. destruct (NL _ I1).
    + intros k1 b1 I1. destruct (H2 k1 b1 (or_intror I1)) as (a1 & [E|I2] & RR); [|eauto]. injection E as <- <-. apply B2 in I1. destruct (NL _ I1).
Qed.

Lemma dgood_lit n : dgood (DNum n) -> lit_ok n.
Proof. intros [_ H]. inversion H; assumption. Qed.
Lemma same_doc_value d : forall d' j j', dgood d -> dgood d' -> JReads d j -> JReads d' j' -> (same_doc d d' <-> same_value j j').
Proof.
  induction d as [|b|s|n|l IH|l IH] using doc_ind'; intros d' j j' G G' H H'.
  - inversion H; subst. split; intros X; inversion X; subst; [inversion H'; constructor|inversion H'; constructor].
  - inversion H; subst. split; intros X; inversion X; subst; inversion H'; constructor.
  - inversion H; subst. split; intros X; inversion X; subst; inversion H'; constructor.
  - assert (exists m, j = JvNum m) as [m ->] by (inversion H; eauto).
    assert (D : forall n' m', d' = DNum n' -> j' = JvNum m' -> (same_literal n n' <-> same_number m m')).
    { intros n' m' -> ->. apply dgood_lit in G, G'. apply same_literal_number; auto; [apply G|apply G']. }
    split; intros X; inversion X as [| | |? n' SL| |]; subst.
    + assert (exists m', j' = JvNum m') as [m' ->] by (inversion H'; eauto). constructor. apply (D n' m' eq_refl eq_refl), SL.
    + inversion H'; subst; constructor; apply (D _ _ eq_refl eq_refl); assumption.
  - inversion H as [| | | | | |? js HF|]; subst. apply dgood_arr in G.
    assert (K : forall l' js', dgood (DArr l') -> Forall2 JReads l' js' -> (Forall2 same_doc l l' <-> Forall2 same_value js js')).
    { clear H H' j' d' G'. revert js HF G. induction IH as [|d l Hd IH IHl]; intros js HF G l' js' G' HF'; inversion HF; subst.
      - split; intros X; inversion X; subst; inversion HF'; constructor.
      - inversion G as [|? ? G1 G2]; subst. apply dgood_arr in G'. inversion HF' as [|d2 j2 l2 js2 R1 R2]; subst; [split; intros X; inversion X|].
        inversion G' as [|? ? G3 G4]; subst.
        match goal with A : JReads d ?y, B : Forall2 JReads l ?ys |- _ => pose proof (Hd d2 y j2 G1 G3 A R1) as HD1; pose proof (IHl ys B G2 l2 js2 (proj2 (dgood_arr l2) G4) R2) as HL1 end.
        split; intros X; inversion X; subst; constructor; tauto. }
    split; intros X; inversion X; subst; inversion H'; subst; constructor; eapply K; try eassumption.
  - inversion H as [| | | | | | |? kvs m HF HM]; subst. destruct HM as [HS HM]. apply dgood_obj in G.
    assert (K : forall l' m', DObj l' = d' -> JvObj m' = j' -> (same_doc (DObj l) (DObj l') <-> Forall2 (fun a b => fst a = fst b /\ same_value (snd a) (snd b)) m m')).
    { intros l' m' <- <-. inversion H' as [| | | | | | |? kvs' m2 HF' HM']; subst. destruct HM' as [HS' HM']. apply dgood_obj in G'.
      rewrite Forall_forall in IH, G, G'.
      assert (ST : forall k d d2 j1 j2, In (k, d) l -> In (k, d2) l' -> JReads d j1 -> JReads d2 j2 -> (same_doc d d2 <-> same_value j1 j2)).
      { intros k d d2 j1 j2 I1 I2 R1 R2. apply (IH (k, d) I1); cbn [snd]; auto; [apply (G _ I1)|apply (G' _ I2)]. }
      split.
      - intros X. inversion X as [| | | | |? ? X1 X2]; subst. apply sorted_forall2; auto.
        + intros k a I1. apply HM in I1. destruct (proj2 (last_read l kvs k HF) a I1) as (d & L1 & R1). destruct (X1 k d L1) as (d2 & L2 & SD).
          destruct (proj1 (last_read l' kvs' k HF') d2 L2) as (b & L3 & R2). exists b. split; [apply HM', L3|]. apply (ST k d d2); auto using last_in.
        + intros k b I1. apply HM' in I1. destruct (proj2 (last_read l' kvs' k HF') b I1) as (d2 & L1 & R1). destruct (X2 k d2 L1) as (d & L2 & SD).
          destruct (proj1 (last_read l kvs k HF) d L2) as (a & L3 & R2). exists a. split; [apply HM, L3|]. apply (ST k d d2); auto using last_in.
      - intros F.
        assert (F1 : forall k a, In (k, a) m -> exists b, In (k, b) m' /\ same_value a b).
        { clear -F. induction F as [|[k1 a1] [k2 b2] m m' [E S] F IH]; intros k a []; cbn [fst snd] in *; [|destruct (IH k a H) as (b & I & SV); exists b; split; [right; exact I|exact SV]].
          injection H as <- <-. subst k2. exists b2. split; [left; reflexivity|exact S]. }
        assert (F2 : forall k b, In (k, b) m' -> exists a, In (k, a) m /\ same_value a b).
        { clear -F. induction F as [|[k1 a1] [k2 b2] m m' [E S] F IH]; intros k a []; cbn [fst snd] in *; [|destruct (IH k a H) as (b & I & SV); exists b; split; [right; exact I|exact SV]].
          injection H as <- <-. subst k2. exists a1. split; [left; reflexivity|exact S]. }
        constructor.
        + intros k d L1. destruct (proj1 (last_read l kvs k HF) d L1) as (a & L2 & R1). destruct (F1 k a (proj2 (HM k a) L2)) as (b & I2 & SV). apply HM' in I2.
          destruct (proj2 (last_read l' kvs' k HF') b I2) as (d2 & L3 & R2). exists d2. split; [exact L3|]. apply (ST k d d2 a b); auto using last_in.
        + intros k d2 L1. destruct (proj1 (last_read l' kvs' k HF') d2 L1) as (b & L2 & R1). destruct (F2 k b (proj2 (HM' k b) L2)) as (a & I2 & SV). apply HM in I2.
          destruct (proj2 (last_read l kvs k HF) a I2) as (d & L3 & R2). exists d. split; [exact L3|]. apply (ST k d d2 a b); auto using last_in. }
    split; intros X; inversion X; subst.
    + inversion H'; subst. constructor. apply (K _ _ eq_refl eq_refl), X.
    + inversion H'; subst. apply (K _ _ eq_refl eq_refl). assumption.
Qed.

(** ** Values and texts *)
Fixpoint all_finite (j : jval) : bool :=
  match j with
  | JvNum (NF64 f) => f_is_finite f
  | JvArr l => forallb all_finite l
  | JvObj l => forallb (fun kj => all_finite (snd kj)) l
  | _ => true
  end.
Lemma read_finite d : forall j, dgood d -> JReads d j -> all_finite j = true.
Proof.
  induction d as [|b|s|n|l IH|l IH] using doc_ind'; intros j G H; inversion H as [| | | | |? f F|? js HF|? kvs m HF [HS HM]]; subst; try reflexivity.
  - apply dgood_lit in G. cbn [all_finite]. apply (FloatRead.lit_event_finite n f G F).
  - apply dgood_arr in G. cbn [all_finite]. clear H. induction HF as [|d j l js R HF IHF]; [reflexivity|]. inversion IH; inversion G; subst. cbn [forallb]. apply andb_true_intro. split; auto.
  - apply dgood_obj in G. cbn [all_finite]. apply forallb_forall. intros [k a] I1. apply HM in I1. destruct (proj2 (last_read l kvs k HF) a I1) as (d & L & R). apply last_in in L.
    rewrite Forall_forall in IH, G. apply (IH _ L a (proj2 (G _ L)) R).
Qed.
Lemma denotes_same j : forall j' d, jval_ok j = true -> jval_ok j' = true -> all_finite j = true -> all_finite j' = true ->
  Denotes (jtree j) d -> Denotes (jtree j') d -> same_value j j'.
Proof.
  induction j as [|b|m|s|l IH|l IH] using jval_ind'; intros j' d O O' F F' H H'.
  - cbn [jtree] in H. inversion H; subst. destruct j' as [|b'|[z|z|f]|s'|l'|l']; cbn [jtree] in H'; inversion H'; subst; try constructor. cbn [all_finite] in F'. congruence.
  - cbn [jtree] in H. inversion H; subst. destruct j' as [|b'|[z|z|f]|s'|l'|l']; cbn [jtree] in H'; inversion H'; subst; constructor.
  - assert (exists n, d = DNum n) as [n ->] by (destruct m as [z|z|f]; cbn [jtree all_finite] in *; inversion H; subst; eauto; congruence).
    assert (exists m', j' = JvNum m') as [m' ->] by (destruct j' as [|b'|m'|s'|l'|l']; cbn [jtree] in H'; inversion H'; subst; eauto).
    constructor. destruct m as [z|z|f], m' as [z'|z'|f']; cbn [jtree] in *; inversion H; inversion H'; subst; try contradiction;
      try (eapply sn_int; [left; reflexivity|left; reflexivity]); try (eapply sn_int; [left; reflexivity|right; reflexivity]); try (eapply sn_int; [right; reflexivity|left; reflexivity]); try (eapply sn_int; [right; reflexivity|right; reflexivity]).
    assert (f = f') as ->; [|constructor]. apply (float_inj 53 1024 eq_refl eq_refl); try assumption; [|congruence]. unfold freal in *. congruence.
  - cbn [jtree] in H. inversion H; subst. destruct j' as [|b'|[z|z|f]|s'|l'|l']; cbn [jtree] in H'; inversion H'; subst; constructor.
  - cbn [jtree] in H. inversion H as [| | | | | | |? ds HD|]; subst. destruct j' as [|b'|[z|z|f]|s'|l'|l']; cbn [jtree] in H'; inversion H' as [| | | | | | |? ds' HD'|]; subst. constructor.
    cbn [jval_ok all_finite] in *. clear H H'. revert ds l' HD HD' O O' F F'. induction IH as [|j l Hj IH IHl]; intros ds l' HD HD' O O' F F'.
    + inversion HD; subst. destruct l'; [constructor|]. inversion HD'.
    + inversion HD; subst. destruct l' as [|j' l']; [inversion HD'|]. inversion HD'; subst. cbn [forallb] in *. rewrite !andb_true_iff in *. constructor; [eapply Hj; try eassumption; tauto|eapply IHl; try eassumption; tauto].
  - cbn [jtree] in H. inversion H as [| | | | | | | |? ds HD]; subst. destruct j' as [|b'|[z|z|f]|s'|l'|l']; cbn [jtree] in H'; inversion H' as [| | | | | | | |? ds' HD']; subst. constructor.
    cbn [jval_ok all_finite] in *. apply andb_true_iff in O, O'. destruct O as [_ O], O' as [_ O']. clear H H'. revert ds l' HD HD' O O' F F'. induction IH as [|j l Hj IH IHl]; intros ds l' HD HD' O O' F F'.
    + inversion HD; subst. destruct l'; [constructor|]. inversion HD'.
    + inversion HD as [|? ? ? ? [E1 E2]]; subst. destruct l' as [|j' l']; [inversion HD'|]. inversion HD' as [|? ? ? ? [E1' E2']]; subst. cbn [forallb fst snd] in *. rewrite !andb_true_iff in *.
      constructor; [split; [congruence|eapply Hj; try eassumption; tauto]|eapply IHl; try eassumption; tauto].
Qed.

(** ** Sizes *)
Lemma quote_char_len c : (List.length (quote_char c) <= 6)%nat.
Proof. unfold quote_char. repeat match goal with |- context [if ?b then _ else _] => destruct b end; cbn; lia. Qed.
Lemma short_esc_len e c : ShortEsc e c -> (List.length (quote_char c) <= 2)%nat.
Proof. intros []; cbn; lia. Qed.
Lemma quote_enc_len n : ~ high_surrogate n -> ~ low_surrogate n -> 0 <= n <= 1114111 -> (List.length (flat_map quote_char (utf8_enc n)) <= 6)%nat.
Proof.
  intros H1 H2 HN. assert (SC : is_scalar n = true) by (apply is_scalar_spec; unfold high_surrogate, low_surrogate in *; lia).
  destruct (Z_lt_ge_dec n 128) as [L|L].
  - unfold utf8_enc. rewrite (proj2 (Z.ltb_lt n 128)) by lia. cbn [flat_map]. rewrite app_nil_r. apply quote_char_len.
  - rewrite quote_high by (apply utf8_enc_high; [exact SC|lia]). pose proof (enc_len n). lia.
Qed.
Lemma hex4_range h n : Hex4 h n -> 0 <= n <= 65535 /\ List.length h = 4%nat.
Proof.
  intros [a b c d va vb vc vd A B C D]. assert (R : forall a v, HexDigit a v -> 0 <= v <= 15) by (intros ? ? []; lia). apply R in A, B, C, D. split; [lia|reflexivity].
Qed.
Lemma body_quote_len t s : StrBody t s -> (List.length (flat_map quote_char s) <= List.length t)%nat.
Proof.
  induction 1 as [|c t s HC N1 N2 H IH|e c t s HE H IH|h n t s HH N1 N2 H IH|h1 n1 h2 n2 t s HH1 S1 HH2 S2 H IH]; cbn [flat_map List.length]; rewrite ?flat_map_app, ?app_length in *; cbn [List.length]; rewrite ?app_length in *; cbn [List.length].
  - lia.
  - assert (List.length (quote_char c) = 1)%nat; [|lia]. unfold quote_char. repeat match goal with |- context [?a =? ?b] => destruct (Z.eqb_spec a b); [try lia|] end. all: try reflexivity. destruct (Z.ltb_spec c 32); [lia|reflexivity].
  - apply short_esc_len in HE. lia.
  - apply hex4_range in HH. destruct HH as [R ->]. pose proof (quote_enc_len n N1 N2 ltac:(lia)). lia.
  - pose proof (hex4_range _ _ HH1) as [R1 ->]. pose proof (hex4_range _ _ HH2) as [R2 ->]. unfold high_surrogate, low_surrogate in *.
    pose proof (quote_enc_len (65536 + (n1 - 55296) * 1024 + (n2 - 56320)) ltac:(unfold high_surrogate; lia) ltac:(unfold low_surrogate; lia) ltac:(lia)). lia.
Qed.
Lemma str_quote_len t s : StrText t s -> (List.length (quote s) <= List.length t)%nat.
Proof. intros (b & -> & H). apply body_quote_len in H. unfold quote. cbn [List.length]. rewrite !app_length. cbn [List.length]. lia. Qed.

(** Canonical digit sequences are the shortest. *)
Lemma dtext_length ds : List.length (dtext ds) = List.length ds.
Proof. apply map_length. Qed.
Lemma int_digits_lower d ds : 1 <= d -> Forall digit ds -> 10 ^ Z.of_nat (List.length ds) <= digits_val (d :: ds).
Proof.
  intros Hd. induction ds as [|x ds IH] using rev_ind; intros HF; [cbn; lia|]. apply Forall_app in HF. destruct HF as [HF HX]. inversion HX; subst. specialize (IH HF).
  change (d :: ds ++ [x]) with ((d :: ds) ++ [x]). rewrite digits_val_snoc, app_length. cbn [List.length]. rewrite Nat2Z.inj_add, Z.pow_add_r by lia. change (10 ^ Z.of_nat 1) with 10. unfold digit in *. lia.
Qed.
Lemma int_digits_upper ds : Forall digit ds -> 0 <= digits_val ds < 10 ^ Z.of_nat (List.length ds).
Proof.
  induction ds as [|x ds IH] using rev_ind; intros HF; [cbn; lia|]. apply Forall_app in HF. destruct HF as [HF HX]. inversion HX; subst. specialize (IH HF).
  rewrite digits_val_snoc, app_length. cbn [List.length]. rewrite Nat2Z.inj_add, Z.pow_add_r by lia. change (10 ^ Z.of_nat 1) with 10. unfold digit in *. lia.
Qed.
Lemma int_digits_shortest a b : IntDigits a -> Forall digit b -> b <> [] -> digits_val a = digits_val b -> (List.length a <= List.length b)%nat.
Proof.
  intros HA HB HN E. destruct HA as [|d ds Hd HF]; [destruct b; [contradiction|cbn; lia]|].
  pose proof (int_digits_lower d ds ltac:(lia) HF). pose proof (int_digits_upper b HB). cbn [List.length].
  assert (10 ^ Z.of_nat (List.length ds) < 10 ^ Z.of_nat (List.length b)) as P by lia. apply Z.pow_lt_mono_r_iff in P; lia.
Qed.
Lemma num_itoa_len n t : NumText n t -> is_int_lit n -> (List.length (itoa (lit_int n)) <= List.length t)%nat.
Proof.
  intros HT [HF HE]. destruct (itoa_spec (lit_int n)) as (n' & HT' & HF' & HE' & HV & HS).
  remember (itoa (lit_int n)) as o eqn:EO. clear EO. destruct n as [neg i f e], n' as [neg' i' f' e']. cbn [n_frac n_exp n_neg] in *. subst f e f' e'.
  inversion HT as [? ? ? ft ? et HI H1 H2]; subst. inversion HT' as [? ? ? ft' ? et' HI' H1' H2']; subst.
  inversion H1; inversion H2; inversion H1'; inversion H2'; subst. rewrite !app_nil_r, !app_length, !dtext_length.
  unfold lit_int in *. cbn [n_neg n_int] in *.
  assert (NI : i <> []) by (destruct HI; discriminate).
  pose proof (int_digits_upper i (int_digits_all _ HI)) as U. pose proof (int_digits_upper i' (int_digits_all _ HI')) as U'.
  destruct neg; [destruct (Z.ltb_spec (- digits_val i) 0)|destruct (Z.ltb_spec (digits_val i) 0); [lia|]]; cbn [List.length].
  - pose proof (int_digits_shortest i' i HI' (int_digits_all _ HI) NI ltac:(lia)). lia.
  - pose proof (int_digits_shortest i' i HI' (int_digits_all _ HI) NI ltac:(lia)). lia.
  - pose proof (int_digits_shortest i' i HI' (int_digits_all _ HI) NI ltac:(lia)). lia.
Qed.

Fixpoint no_floats (j : jval) : bool :=
  match j with
  | JvNum (NF64 _) => false
  | JvArr l => forallb no_floats l
  | JvObj l => forallb (fun kj => no_floats (snd kj)) l
  | _ => true
  end.
(** A lower bound for the texts of a document. *)
Fixpoint wlen (d : doc) : nat :=
  match d with
  | DNull => 4
  | DBool b => if b then 4 else 5
  | DStr s => List.length (quote s)
  | DNum n => match n_frac n, n_exp n with None, None => List.length (itoa (lit_int n)) | _, _ => 0 end
  | DArr l => Nat.max 2 (1 + list_sum (map (fun d => S (wlen d)) l))
  | DObj l => Nat.max 2 (1 + list_sum (map (fun kd => List.length (quote (fst kd)) + 2 + wlen (snd kd)) l))
  end%nat.
Lemma text_wlen :
  (forall d x, VText d x -> (wlen d <= List.length x)%nat) /\
  (forall l x, EText l x -> (list_sum (map (fun d => S (wlen d)) l) <= S (List.length x))%nat) /\
  (forall l x, MText l x -> (list_sum (map (fun kd => List.length (quote (fst kd)) + 2 + wlen (snd kd)) l) <= S (List.length x))%nat).
Proof.
  apply Text_mutind; intros; cbn [wlen map list_sum fold_right fst snd] in *; unfold list_sum in *; cbn [fold_right];
    repeat match goal with H : StrText _ _ |- _ => apply str_quote_len in H end; cbn [List.length]; rewrite ?app_length in *; cbn [List.length] in *; rewrite ?app_length in *; cbn [List.length] in *; rewrite ?app_length in *; cbn [List.length] in *; try lia.
  all: try (vm_compute; lia).
  match goal with H : NumText ?n _ |- _ => destruct (n_frac n) eqn:E1; [lia|]; destruct (n_exp n) eqn:E2; [lia|]; apply num_itoa_len in H; [exact H|split; assumption] end.
Qed.
Lemma commas_len l : List.length (91 :: commas l ++ [93]) = Nat.max 2 (1 + list_sum (map (fun x => S (List.length x)) l)).
Proof.
  cbn [List.length]. rewrite app_length. cbn [List.length].
  assert (H : l <> [] -> S (List.length (commas l)) = list_sum (map (fun x => S (List.length x)) l)).
  { induction l as [|x [|y l] IH]; [contradiction| |]; intros _.
    - cbn. lia.
    - change (commas (x :: y :: l)) with (x ++ 44 :: commas (y :: l)). rewrite app_length. cbn [List.length]. cbn [map]. cbn [map] in IH. unfold list_sum in *. cbn [fold_right]. cbn [fold_right] in IH. rewrite IH by discriminate. lia. }
  destruct l as [|x l]; [reflexivity|]. rewrite <- H by discriminate. lia.
Qed.
Lemma render_wlen ryu d : forall j, JReads d j -> no_floats j = true -> (List.length (render itoa ryu (jtree j)) <= wlen d)%nat.
Proof.
  induction d as [|b|s|n|l IH|l IH] using doc_ind'; intros j H NF; inversion H as [| | |? z U|? z U|? f F|? js HF|? kvs m HF HM]; subst.
  - cbn. lia.
  - destruct b; cbn; lia.
  - cbn [jtree render wlen]. lia.
  - destruct U as ((E1 & E2) & _ & -> & _). cbn [jtree render wlen]. rewrite E1, E2. lia.
  - destruct U as ((E1 & E2) & _ & -> & _). cbn [jtree render wlen]. rewrite E1, E2. lia.
  - discriminate NF.
  - cbn [jtree render wlen]. rewrite commas_len, !map_map. cbn [no_floats] in NF.
    assert (K : (list_sum (map (fun x => S (List.length (render itoa ryu (jtree x)))) js) <= list_sum (map (fun d => S (wlen d)) l))%nat); [|lia].
    clear H. induction HF as [|d j l js R HF IHF]; [cbn; lia|]. inversion IH as [|? ? I1 I2]; subst. cbn [forallb] in NF. apply andb_true_iff in NF. destruct NF as [N1 N2]. specialize (IHF I2 N2). specialize (I1 j R N1).
    cbn [map]. unfold list_sum in *. cbn [fold_right]. lia.
  - cbn [jtree render wlen].
    replace (List.length (123 :: commas (map (fun kt => quote (fst kt) ++ 58 :: render itoa ryu (snd kt)) (map (fun kj => (fst kj, jtree (snd kj))) m)) ++ [125]))
      with (List.length (91 :: commas (map (fun kt => quote (fst kt) ++ 58 :: render itoa ryu (snd kt)) (map (fun kj => (fst kj, jtree (snd kj))) m)) ++ [93])) by (cbn [List.length]; rewrite !app_length; reflexivity).
    rewrite commas_len, !map_map. cbn [fst snd]. cbn [no_floats] in NF.
    set (g := fun kj : bytes * jval => if no_floats (snd kj) then S (List.length (quote (fst kj) ++ 58 :: render itoa ryu (jtree (snd kj)))) else O).
    assert (K1 : map (fun x => S (List.length (quote (fst x) ++ 58 :: render itoa ryu (jtree (snd x))))) m = map g m).
    { apply map_ext_in. intros x Hx. rewrite forallb_forall in NF. unfold g. rewrite (NF x Hx). reflexivity. }
    rewrite K1.
    assert (K2 : (list_sum (map g kvs) <= list_sum (map (fun kd => List.length (quote (fst kd)) + 2 + wlen (snd kd)) l))%nat).
    { eapply sum_forall2; [exact HF|]. intros [k d] [k' j] I1 [E R]. cbn [fst snd] in *. subst k'. unfold g. cbn [fst snd]. destruct (no_floats j) eqn:NJ; [|lia].
      rewrite Forall_forall in IH. specialize (IH _ I1 j R NJ). cbn [snd] in IH. rewrite app_length. cbn [List.length]. lia. }
    pose proof (bytes_map_total g kvs m HM). lia.
Qed.
Lemma integers_arr l : integers_only (DArr l) <-> Forall integers_only l.
Proof. induction l as [|d l IH]; [split; [constructor|intros; exact Logic.I]|]. rewrite Forall_cons_iff, <- IH. reflexivity. Qed.
Lemma integers_obj l : integers_only (DObj l) <-> Forall (fun kd => integers_only (snd kd)) l.
Proof. induction l as [|d l IH]; [split; [constructor|intros; exact Logic.I]|]. rewrite Forall_cons_iff, <- IH. reflexivity. Qed.
Lemma integers_no_floats d : forall j, doc_ok d -> integers_only d -> JReads d j -> no_floats j = true.
Proof.
  induction d as [|b|s|n|l IH|l IH] using doc_ind'; intros j O HI H; inversion H as [| | |? z U|? z U|? f F|? js HF|? kvs m HF [HS HM]]; subst; try reflexivity.
  - exfalso. destruct HI as [A B]. cbn [doc_ok] in O. unfold reads_f in F. destruct (n_neg n) eqn:NG.
    + assert (U : reads_i n (lit_int n)) by (unfold reads_i; repeat split; try apply A; auto; lia). apply (lit_event_i n _ O) in U. congruence.
    + assert (U : reads_u n (lit_int n)) by (unfold reads_u; repeat split; try apply A; auto; lia). apply (lit_event_u n _ O) in U. congruence.
  - apply integers_arr in HI. apply doc_ok_arr in O. cbn [no_floats]. clear H. induction HF as [|d j l js R HF IHF]; [reflexivity|]. inversion IH; inversion HI; inversion O; subst. cbn [forallb]. apply andb_true_intro. split; auto.
  - apply integers_obj in HI. apply doc_ok_obj in O. cbn [no_floats]. apply forallb_forall. intros [k a] I1. apply HM in I1. destruct (proj2 (last_read l kvs k HF) a I1) as (d & L & R). apply last_in in L.
    rewrite Forall_forall in IH, HI, O. apply (IH _ L a (O _ L) (HI _ L) R).
Qed.
Lemma no_floats_nff j : no_floats j = true -> no_finite_floats j = true.
Proof.
  induction j as [|b|m|s|l IH|l IH] using jval_ind'; intros H; try reflexivity.
  - destruct m; [reflexivity|reflexivity|discriminate].
  - cbn [no_floats no_finite_floats] in *. rewrite forallb_forall in *. rewrite Forall_forall in IH. auto.
  - cbn [no_floats no_finite_floats] in *. rewrite forallb_forall in *. rewrite Forall_forall in IH. auto.
Qed.
