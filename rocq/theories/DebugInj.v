(** Debug output is a prefix code: nothing inside a string or a number can be taken for
    structure. *)
From Coq Require Import String ZArith List Bool Lia Floats.SpecFloat.
From Flocq Require Import Core.Core IEEE754.BinarySingleNaN.
From Verif Require Import Base F64 Utf8 Utf8Facts Types JsonValue Grammar LexSpec SerSpec RenderFacts WriteFacts Unambiguous NumValue DocSpec FloatOps FloatRT ClaimsJson DebugFmt DebugSpec DebugFacts.
Import ListNotations.
Open Scope Z_scope.

(** ** Hexadecimal *)
Definition unhex (b : Z) : Z := if b <? 58 then b - 48 else b - 87.
Lemma unhex_digit d : 0 <= d < 16 -> unhex (hex_digit d) = d.
Proof. intros H. unfold unhex, hex_digit. destruct (Z.ltb_spec d 10); [rewrite (proj2 (Z.ltb_lt _ 58))|rewrite (proj2 (Z.ltb_ge _ 58))]; lia. Qed.
Lemma hex_value fuel : forall c acc, 0 <= c < 16 ^ Z.of_nat fuel -> (0 < fuel)%nat ->
  fold_left (fun v d => v * 16 + unhex d) (hex fuel c acc) 0 = fold_left (fun v d => v * 16 + unhex d) acc c.
Proof.
  induction fuel as [|f IH]; intros c acc Hc HF; [lia|]. cbn [hex]. destruct (Z.ltb_spec c 16).
  - cbn [fold_left]. rewrite unhex_digit by lia. reflexivity.
  - assert (f <> O). { intros ->. cbn in Hc. lia. }
    rewrite IH; [|split; [apply Z.div_pos; lia|apply Z.div_lt_upper_bound; [lia|]; rewrite Nat2Z.inj_succ, Z.pow_succ_r in Hc by lia; lia]|lia].
    cbn [fold_left]. rewrite unhex_digit by (apply Z.mod_pos_bound; lia). f_equal. rewrite (Z.div_mod c 16) at 3 by lia. lia.
Qed.
Lemma hex_inj c c' : is_scalar c = true -> is_scalar c' = true -> hex 8 c [] = hex 8 c' [] -> c = c'.
Proof.
  intros H H' E. apply is_scalar_spec in H, H'. change (c = c'). assert (R : 16 ^ Z.of_nat 8 = 4294967296) by reflexivity.
  transitivity (fold_left (fun v d => v * 16 + unhex d) [] c); [reflexivity|]. rewrite <- (hex_value 8 c []) by lia. rewrite E, hex_value by lia. reflexivity.
Qed.

(** Two texts without the byte x, each followed by x. *)
Lemma cut (x : Z) (a a' r r' : bytes) : ~ In x a -> ~ In x a' -> a ++ x :: r = a' ++ x :: r' -> a = a' /\ r = r'.
Proof.
  revert a'. induction a as [|b a IH]; intros [|b' a'] H H' E; cbn [app] in E.
  - injection E as E. auto.
  - exfalso. injection E as -> _. apply H'. left. reflexivity.
  - exfalso. injection E as -> _. apply H. left. reflexivity.
  - injection E as -> E. destruct (IH a') as [-> ->]; auto. intros HI; apply H; right; exact HI. intros HI; apply H'; right; exact HI.
Qed.

(** ** Characters and strings *)
Definition special (c e : Z) : Prop :=
  (c = 0 /\ e = 48) \/ (c = 9 /\ e = 116) \/ (c = 13 /\ e = 114) \/ (c = 10 /\ e = 110) \/ (c = 34 /\ e = 34) \/ (c = 92 /\ e = 92).
Lemma esc_cases sa c : is_scalar c = true ->
  (exists e, escape_debug sa c = [92; e] /\ special c e) \/
  (escape_debug sa c = utf8_enc c /\ exists b t, utf8_enc c = b :: t /\ b <> 34 /\ b <> 92) \/
  (escape_debug sa c = 92 :: 117 :: 123 :: hex 8 c [] ++ [125]).
Proof.
  intros HC. unfold escape_debug.
  destruct (Z.eqb_spec c 0) as [->|]; [left; exists 48; split; [reflexivity|unfold special; tauto]|]. destruct (Z.eqb_spec c 9) as [->|]; [left; exists 116; split; [reflexivity|unfold special; tauto]|].
  destruct (Z.eqb_spec c 13) as [->|]; [left; exists 114; split; [reflexivity|unfold special; tauto]|]. destruct (Z.eqb_spec c 10) as [->|]; [left; exists 110; split; [reflexivity|unfold special; tauto]|].
  destruct (Z.eqb_spec c 34) as [->|]; [left; exists 34; split; [reflexivity|unfold special; tauto]|]. destruct (Z.eqb_spec c 92) as [->|]; [left; exists 92; split; [reflexivity|unfold special; tauto]|].
  right. destruct (sa c); [left; split; [reflexivity|]|right; reflexivity].
  apply is_scalar_spec in HC. unfold utf8_enc. destruct (Z.ltb_spec c 128); [exists c, []; repeat split; assumption|].
  destruct (Z.ltb_spec c 2048); [|destruct (Z.ltb_spec c 65536)]; eexists; eexists; (split; [reflexivity|]); split; Z.to_euclidean_division_equations; lia.
Qed.
Lemma special_code c e : special c e -> e <> 117.
Proof. unfold special. lia. Qed.
Lemma hex_no_brace c : is_scalar c = true -> ~ In 125 (hex 8 c []).
Proof.
  intros H HI. apply is_scalar_spec in H. pose proof (hex_visible 8 c [] ltac:(lia) ltac:(constructor)) as F. rewrite Forall_forall in F. specialize (F _ HI). cbv beta in F. lia.
Qed.
Lemma esc_prefix sa c c' r r' : is_scalar c = true -> is_scalar c' = true ->
  escape_debug sa c ++ r = escape_debug sa c' ++ r' -> c = c' /\ r = r'.
Proof.
  intros HC HC' E.
  destruct (esc_cases sa c HC) as [(e & E1 & S1)|[(E1 & b & t & E1' & N1 & N2)|E1]];
  destruct (esc_cases sa c' HC') as [(e' & E2 & S2)|[(E2 & b' & t' & E2' & N1' & N2')|E2]]; rewrite E1, E2 in E.
  - cbn [app] in E. injection E as -> ->. split; [|reflexivity]. unfold special in *. lia.
  - rewrite E2' in E. cbn [app] in E. injection E as E _. congruence.
  - cbn [app] in E. injection E as E _. apply special_code in S1. congruence.
  - rewrite E1' in E. cbn [app] in E. injection E as E _. congruence.
  - pose proof (f_equal chars E) as EC. rewrite !chars_enc in EC by assumption. injection EC as -> _. split; [reflexivity|]. eapply app_inv_head, E.
  - rewrite E1' in E. cbn [app] in E. injection E as E _. congruence.
  - cbn [app] in E. injection E as E _. apply special_code in S2. congruence.
  - rewrite E2' in E. cbn [app] in E. injection E as E _. congruence.
  - cbn [app] in E. injection E as E. rewrite <- !app_assoc in E. cbn [app] in E. apply cut in E; try apply hex_no_brace; auto. destruct E as [E ->]. split; [|reflexivity]. apply hex_inj; assumption.
Qed.
Lemma esc_not_quote sa c r r' : is_scalar c = true -> escape_debug sa c ++ r = 34 :: r' -> False.
Proof.
  intros HC E. destruct (esc_cases sa c HC) as [(e & E1 & S1)|[(E1 & b & t & E1' & N1 & N2)|E1]]; rewrite E1 in E; try rewrite E1' in E; cbn [app] in E; injection E as E _; congruence.
Qed.
Lemma quoted_prefix sa cs cs' r r' : forallb is_scalar cs = true -> forallb is_scalar cs' = true ->
  quoted sa cs ++ r = quoted sa cs' ++ r' -> cs = cs' /\ r = r'.
Proof.
  unfold quoted. rewrite <- !app_assoc. cbn [app]. intros H H' E. injection E as E. revert cs' H' E. induction cs as [|c cs IH]; intros [|c' cs'] H' E; cbn [map concat forallb app] in *; rewrite <- ?app_assoc in E; cbn [app] in E.
  - injection E as E. auto.
  - exfalso. apply andb_true_iff in H'. symmetry in E. apply (esc_not_quote sa c' _ _ (proj1 H') E).
  - exfalso. apply andb_true_iff in H. apply (esc_not_quote sa c _ _ (proj1 H) E).
  - apply andb_true_iff in H, H'. destruct H as [H1 H2], H' as [H1' H2']. apply esc_prefix in E; try assumption. destruct E as [-> E]. destruct (IH H2 cs' H2' E) as [-> ->]. auto.
Qed.
Lemma quoted_prefix_str sa s s' r r' : str_ok s = true -> str_ok s' = true ->
  quoted sa (chars s) ++ r = quoted sa (chars s') ++ r' -> s = s' /\ r = r'.
Proof. intros H H' E. apply quoted_prefix in E; [|apply chars_spec, H|apply chars_spec, H']. destruct E as [E ->]. split; [|reflexivity]. apply chars_inj; assumption. Qed.

(** ** Numbers *)
Lemma numtext_chars n t : NumText n t -> ~ In 41 t /\ exists c r, t = c :: r /\ (c = 45 \/ 48 <= c <= 57) /\ (c = 45 -> exists c' r', r = c' :: r' /\ 48 <= c' <= 57).
Proof.
  intros [neg i f ft e et H1 H2 H3]. assert (DT : forall ds, Forall digit ds -> ~ In 41 (dtext ds)).
  { intros ds HF HI. unfold dtext in HI. apply in_map_iff in HI. destruct HI as (d & E & Hd). rewrite Forall_forall in HF. specialize (HF d Hd). unfold digit in HF. lia. }
  assert (HI : Forall digit i). { destruct H1; [repeat constructor; unfold digit; lia|constructor; [unfold digit; lia|assumption]]. }
  split.
  - rewrite !in_app_iff. intros [HX|[HX|[HX|HX]]].
    + destruct neg; cbn in HX; intuition discriminate.
    + exact (DT i HI HX).
    + destruct H2 as [|d ds HD]; [destruct HX|]. destruct HX as [HX|HX]; [discriminate HX|exact (DT _ HD HX)].
    + destruct H3 as [|e0 sg st d ds He HS HD]; [destruct HX|]. destruct HX as [HX|HX]; [destruct He; lia|]. apply in_app_iff in HX. destruct HX as [HX|HX]; [|exact (DT _ HD HX)]. destruct HS; cbn in HX; intuition discriminate.
  - assert (exists d ds, i = d :: ds /\ digit d) as (d & ds & -> & Hd) by (destruct H1; [exists 0, []; split; [reflexivity|unfold digit; lia]|exists d, ds; split; [reflexivity|unfold digit; lia]]).
    unfold digit in Hd. destruct neg; cbn [app dtext map].
    + eexists _, _. split; [reflexivity|]. split; [left; reflexivity|]. intros _. eexists _, _. split; [reflexivity|lia].
    + eexists _, _. split; [reflexivity|]. split; [right; lia|]. lia.
Qed.
Lemma numtext_unique n n' t : NumText n t -> NumText n' t -> n = n'.
Proof.
  intros H H'. assert (J : forall n, NumText n t -> JText (DNum n) t).
  { intros m Hm. exists [], t, []. rewrite app_nil_r. split; [reflexivity|]. split; [constructor|]. split; [constructor; exact Hm|constructor]. }
  pose proof (JText_unique _ _ _ (J _ H) (J _ H')) as E. injection E as ->. reflexivity.
Qed.

Section Inj.
Variable sa : Z -> bool.
Variable ryu : f64 -> bytes.
Hypothesis HR : ryu_ok ryu.
Notation shown := (shown sa ryu).
Notation display := (number_display ryu).

(** How a number is displayed: a literal, or one of three words. *)
Inductive word : f64 -> bytes -> Prop :=
| w_nan : word S754_nan (bs "NaN") | w_inf : word (S754_infinity false) (bs "inf") | w_ninf : word (S754_infinity true) (bs "-inf").
Lemma display_cases n : jnum_ok n = true ->
  (exists z l, (n = NU64 z \/ n = NI64 z) /\ NumText l (display n) /\ is_int_lit l /\ lit_int l = z) \/
  (exists f l, n = NF64 f /\ f64_ok f = true /\ f_is_finite f = true /\ NumText l (display n) /\ ~ is_int_lit l /\ n_neg l = sign_SF f /\ nearest64 (lit_value l) = freal f) \/
  (exists f, n = NF64 f /\ word f (display n)).
Proof.
  destruct n as [z|z|f]; intros H; cbn [number_display].
  - left. destruct (itoa_spec z) as (l & A & B & B2 & C & _). exists z, l. split; [auto|]. split; [exact A|]. split; [split; assumption|exact C].
  - left. destruct (itoa_spec z) as (l & A & B & B2 & C & _). exists z, l. split; [auto|]. split; [exact A|]. split; [split; assumption|exact C].
  - right. destruct f as [s|s| |s m e]; cbn [ryu_format].
    + left. destruct (HR (S754_zero s) H eq_refl) as [(l & A & B & C & D) _]. exists (S754_zero s), l. repeat split; assumption.
    + right. exists (S754_infinity s). split; [reflexivity|]. destruct s; constructor.
    + right. exists S754_nan. split; [reflexivity|constructor].
    + left. destruct (HR (S754_finite s m e) H eq_refl) as [(l & A & B & C & D) _]. exists (S754_finite s m e), l. repeat split; assumption.
Qed.
Lemma word_not_num f t l : word f t -> NumText l t -> False.
Proof.
  intros HW HN. apply numtext_chars in HN. destruct HN as [_ (c & r & E & HC & HM)]. destruct HW; vm_compute in E; injection E as <- <-; try lia. destruct (HM eq_refl) as (c' & r' & E & HX). injection E as <- _. lia.
Qed.
Lemma display_no_paren n : jnum_ok n = true -> ~ In 41 (display n).
Proof.
  intros H. destruct (display_cases n H) as [(z & l & _ & A & _)|[(f & l & _ & _ & _ & A & _)|(f & _ & A)]]; try (apply numtext_chars in A; apply A).
  destruct A; intros HI; vm_compute in HI; intuition discriminate.
Qed.
Lemma display_inj n n' : jnum_ok n = true -> jnum_ok n' = true -> display n = display n' -> same_number n n'.
Proof.
  intros H H' E.
  destruct (display_cases n H) as [(z & l & N & A & B & C)|[(f & l & N & V & F & A & B & C & D)|(f & N & A)]];
  destruct (display_cases n' H') as [(z' & l' & N' & A' & B' & C')|[(f' & l' & N' & V' & F' & A' & B' & C' & D')|(f' & N' & A')]];
  rewrite <- E in A'; try (destruct (word_not_num _ _ _ A' A)); try (destruct (word_not_num _ _ _ A A')); try (pose proof (numtext_unique _ _ _ A A') as ->).
  - econstructor; [exact N|]. rewrite <- C, C'. exact N'.
  - contradiction.
  - contradiction.
  - subst n n'. assert (f = f') as ->; [|constructor]. apply (float_inj 53 1024 eq_refl eq_refl); try assumption; [|congruence]. unfold freal in *. congruence.
  - subst n n'. assert (f = f') as ->; [|constructor]. destruct A; inversion A'; reflexivity || discriminate.
Qed.

(** ** Lists *)
Lemma spaces_cancel n a b : spaces n ++ a = spaces n ++ b -> a = b.
Proof. apply app_inv_head. Qed.
Lemma items_prefix {X} (f : X -> bytes) (S : X -> X -> Prop) (ok : X -> Prop) alt ind (c : Z) :
  c <> 44 -> c <> 32 -> c <> 10 -> (forall x, exists b t, f x = b :: t /\ b <> c) ->
  forall l l', Forall (fun x => forall x' r r', ok x' -> f x ++ r = f x' ++ r' -> S x x' /\ r = r') l -> Forall ok l' ->
  forall r r', laid_out alt ind (map f l) ++ c :: r = laid_out alt ind (map f l') ++ c :: r' -> Forall2 S l l' /\ r = r'.
Proof.
  intros C1 C2 C3 HF. destruct alt; cbn [laid_out].
  - (* one per line *)
    set (g := fun s : bytes => spaces (ind + 4) ++ s ++ bs "," ++ [10]).
    assert (G : forall l l', Forall (fun x => forall x' r r', ok x' -> f x ++ r = f x' ++ r' -> S x x' /\ r = r') l -> Forall ok l' ->
      forall r r', concat (map g (map f l)) ++ spaces ind ++ c :: r = concat (map g (map f l')) ++ spaces ind ++ c :: r' -> Forall2 S l l' /\ r = r').
    { assert (SP : forall s t u, (spaces (ind + 4) ++ s) ++ t = spaces ind ++ c :: u -> False).
      { intros s t u E. unfold spaces in E. rewrite repeat_app, <- !app_assoc in E. apply app_inv_head in E. cbn in E. injection E as E _. congruence. }
      induction l as [|x l IH]; intros [|x' l'] HL HL' r r' E; cbn [map concat app] in E.
      - apply app_inv_head in E. injection E as ->. split; [constructor|reflexivity].
      - exfalso. symmetry in E. unfold g at 1 in E. rewrite <- app_assoc in E. exact (SP _ _ _ E).
      - exfalso. unfold g at 1 in E. rewrite <- app_assoc in E. exact (SP _ _ _ E).
      - inversion HL as [|? ? HX HL1]; subst. inversion HL' as [|? ? HX' HL1']; subst. unfold g at 1 3 in E. rewrite <- !app_assoc in E. apply app_inv_head in E. apply (HX x' _ _ HX') in E. destruct E as [HS E]. apply app_inv_head in E. apply app_inv_head in E.
        destruct (IH l' HL1 HL1' r r' E) as [HF2 ->]. split; [constructor; assumption|reflexivity]. }
    intros l l' HL HL' r r' E. destruct l as [|x l], l' as [|x' l']; cbn [map] in E.
    + injection E as ->. split; [constructor|reflexivity].
    + exfalso. cbn [app] in E. injection E as E _. congruence.
    + exfalso. cbn [app] in E. injection E as E _. congruence.
    + rewrite <- !app_assoc in E. apply app_inv_head in E. exact (G (x :: l) (x' :: l') HL HL' r r' E).
  - assert (G : forall l l', Forall (fun x => forall x' r r', ok x' -> f x ++ r = f x' ++ r' -> S x x' /\ r = r') l -> Forall ok l' ->
      forall r r', concat (map (fun s => bs ", " ++ s) (map f l)) ++ c :: r = concat (map (fun s => bs ", " ++ s) (map f l')) ++ c :: r' -> Forall2 S l l' /\ r = r').
    { induction l as [|x l IH]; intros [|x' l'] HL HL' r r' E; cbn [map concat] in E.
      - injection E as ->. split; [constructor|reflexivity].
      - exfalso. cbn in E. injection E as E _. congruence.
      - exfalso. cbn in E. injection E as E _. congruence.
      - inversion HL as [|? ? HX HL1]; subst. inversion HL' as [|? ? HX' HL1']; subst. rewrite <- !app_assoc in E. apply app_inv_head in E. apply (HX x' _ _ HX') in E. destruct E as [HS E].
        destruct (IH l' HL1 HL1' r r' E) as [HF2 ->]. split; [constructor; assumption|reflexivity]. }
    assert (SEP : forall s ss, separated (s :: ss) = s ++ concat (map (fun s => bs ", " ++ s) ss)).
    { intros s ss. revert s. induction ss as [|t ss IH]; intros s; [cbn; symmetry; apply app_nil_r|]. change (separated (s :: t :: ss)) with (s ++ bs ", " ++ separated (t :: ss)). rewrite IH. cbn [map concat]. rewrite <- app_assoc. reflexivity. }
    intros l l' HL HL' r r' E. destruct l as [|x l], l' as [|x' l']; cbn [map] in E; rewrite ?SEP in E.
    + injection E as ->. split; [constructor|reflexivity].
    + exfalso. destruct (HF x') as (b & t & EB & NB). rewrite EB in E. cbn in E. injection E as E _. congruence.
    + exfalso. destruct (HF x) as (b & t & EB & NB). rewrite EB in E. cbn in E. injection E as E _. congruence.
    + inversion HL as [|? ? HX HL1]; subst. inversion HL' as [|? ? HX' HL1']; subst. rewrite <- !app_assoc in E. apply (HX x' _ _ HX') in E. destruct E as [HS E].
      destruct (G l l' HL1 HL1' r r' E) as [HF2 ->]. split; [constructor; assumption|reflexivity].
Qed.

Lemma shown_head alt ind v : exists b t, shown alt ind v = b :: t /\ b <> 93 /\ b <> 125.
Proof. destruct v; cbn [DebugSpec.shown]; eexists; eexists; (split; [reflexivity|]); cbn; split; discriminate. Qed.

Lemma shown_prefix alt v : jval_ok v = true -> forall v' ind r r', jval_ok v' = true ->
  shown alt ind v ++ r = shown alt ind v' ++ r' -> same_value v v' /\ r = r'.
Proof.
  induction v as [|b|n|s|l IH|l IH] using jval_ind'; intros HO v' ind r r' HO' E; destruct v' as [|b'|n'|s'|l'|l'];
    try (exfalso; cbn [DebugSpec.shown] in E; rewrite <- ?app_assoc in E; discriminate E); cbn [DebugSpec.shown jval_ok] in *.
  - apply app_inv_head in E. split; [constructor|exact E].
  - rewrite <- !app_assoc in E. apply app_inv_head in E. destruct b, b'; try discriminate E; repeat apply app_inv_head in E; (split; [constructor|]).
    + exact E. + exact E.
  - rewrite <- !app_assoc in E. apply app_inv_head in E. cbn [bs app] in E. apply cut in E; [|apply display_no_paren; assumption|apply display_no_paren; assumption]. destruct E as [E ->]. split; [|reflexivity]. constructor. apply display_inj; assumption.
  - rewrite <- !app_assoc in E. apply app_inv_head in E. apply quoted_prefix_str in E; try assumption. destruct E as [-> E]. apply app_inv_head in E. split; [constructor|exact E].
  - rewrite <- !app_assoc in E. apply app_inv_head in E. cbn [bs app] in E.
    apply (items_prefix (shown alt (ind + 4)) same_value (fun v => jval_ok v = true)) in E; try discriminate.
    + destruct E as [E ->]. split; [constructor; exact E|reflexivity].
    + intros x. destruct (shown_head alt (ind + 4) x) as (b & u & EB & N1 & N2). exists b, u. split; assumption.
    + rewrite forallb_forall in HO. rewrite Forall_forall in *. intros x Hx x' q q' Hx' EX. apply (IH x Hx (HO x Hx) x' (ind + 4)%nat q q' Hx' EX).
    + apply Forall_forall. rewrite forallb_forall in HO'. exact HO'.
  - apply andb_true_iff in HO, HO'. destruct HO as [_ HO], HO' as [_ HO']. rewrite <- !app_assoc in E. apply app_inv_head in E. cbn [bs app] in E.
    apply (items_prefix (fun kv : bytes * jval => quoted sa (chars (fst kv)) ++ bs ": " ++ shown alt (ind + 4) (snd kv)) (fun a b => fst a = fst b /\ same_value (snd a) (snd b)) (fun kv => str_ok (fst kv) = true /\ jval_ok (snd kv) = true)) in E; try discriminate.
    + destruct E as [E ->]. split; [constructor; exact E|reflexivity].
    + intros x. exists 34. eexists. split; [reflexivity|discriminate].
    + rewrite forallb_forall in HO. rewrite Forall_forall in *. intros x Hx x' q q' [Hx1 Hx2] EX. specialize (HO x Hx). apply andb_true_iff in HO. destruct HO as [O1 O2].
      rewrite <- !app_assoc in EX. apply quoted_prefix_str in EX; try assumption. destruct EX as [EK EX]. apply app_inv_head in EX. destruct (IH x Hx O2 (snd x') (ind + 4)%nat q q' Hx2 EX) as [HS ->]. auto.
    + apply Forall_forall. rewrite forallb_forall in HO'. intros x Hx. specialize (HO' x Hx). apply andb_true_iff in HO'. exact HO'.
Qed.
Lemma same_number_display n n' : same_number n n' -> display n = display n'.
Proof. intros [m m' z [-> | ->] [-> | ->]|f]; reflexivity. Qed.
Lemma same_shown v v' : same_value v v' -> forall alt ind, shown alt ind v = shown alt ind v'.
Proof.
  revert v'. induction v as [|b|n|s|l IH|l IH] using jval_ind'; intros v' H alt ind; inversion H as [| |? ? HN| |? l' HF|? l' HF]; subst; try reflexivity; cbn [DebugSpec.shown].
  - rewrite (same_number_display _ _ HN). reflexivity.
  - replace (map (shown alt (ind + 4)) l') with (map (shown alt (ind + 4)) l); [reflexivity|]. clear H. induction HF as [|x x' l l' HX HF IHF]; [reflexivity|]. inversion IH as [|? ? I1 I2]; subst. cbn [map]. rewrite (I1 x' HX), IHF by exact I2. reflexivity.
  - match goal with |- _ ++ laid_out _ _ ?a ++ _ = _ ++ laid_out _ _ ?b ++ _ => replace b with a; [reflexivity|] end.
    clear H. induction HF as [|x x' l l' [HX1 HX2] HF IHF]; [reflexivity|]. inversion IH as [|? ? I1 I2]; subst. cbn [map]. rewrite (I1 (snd x') HX2), IHF, HX1 by exact I2. reflexivity.
Qed.
End Inj.
