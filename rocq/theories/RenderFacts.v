(** The rendering of a tree is a JSON text. *)
From Coq Require Import String ZArith List Bool Lia Reals Floats.SpecFloat.
From Flocq Require Import Core.Core IEEE754.BinarySingleNaN.
From Verif Require Import Base Utf8 Utf8Facts F64 Lexer Grammar LexSpec Types Ser Reading NumValue DocSpec SerSpec.
Import ListNotations.
Open Scope Z_scope.

Lemma stree_ind' (P : stree -> Prop) :
  P STNull -> (forall b, P (STBool b)) -> (forall s, P (STStr s)) -> (forall n, P (STU64 n)) -> (forall n, P (STI64 n)) ->
  (forall f, P (STF64 f)) -> (forall l, Forall P l -> P (STSeq l)) ->
  (forall l, Forall (fun kt => P (snd kt)) l -> P (STMap l)) -> forall t, P t.
Proof.
  intros H1 H2 H3 H4 H5 H6 H7 H8. fix IH 1. intros [|b|s|n|n|f|l|l].
  - exact H1. - apply H2. - apply H3. - apply H4. - apply H5. - apply H6.
  - apply H7. induction l as [|t l IHl]; constructor; [apply IH|exact IHl].
  - apply H8. induction l as [|[k t] l IHl]; constructor; [apply IH|exact IHl].
Qed.

(** ** Integers *)
Lemma int_digits_snoc ds d : IntDigits ds -> ds <> [0] -> digit d -> IntDigits (ds ++ [d]).
Proof.
  intros [|d0 ds0 H1 H2] HN Hd; [congruence|]. cbn [app]. constructor; [exact H1|]. apply Forall_app. split; [exact H2|]. repeat constructor; apply Hd.
Qed.
Lemma digits_val_snoc ds d : digits_val (ds ++ [d]) = digits_val ds * 10 + d.
Proof. unfold digits_val. rewrite fold_left_app. reflexivity. Qed.
Lemma dec_digits_aux_eq fuel : forall n acc, 0 <= n < 2 ^ Z.of_nat fuel -> (0 < fuel)%nat ->
  exists ds, dec_digits_aux fuel n acc = dtext ds ++ acc /\ IntDigits ds /\ digits_val ds = n /\ (0 < n -> ds <> [0]).
Proof.
  induction fuel as [|f IH]; intros n acc Hn HF; [lia|]. cbn [dec_digits_aux].
  assert (Hm : 0 <= n mod 10 < 10) by (apply Z.mod_pos_bound; lia). pose proof (Z.div_mod n 10 ltac:(lia)) as DM.
  destruct (n / 10 =? 0) eqn:E.
  - apply Z.eqb_eq in E. exists [n mod 10]. split; [reflexivity|]. split; [|split].
    + destruct (Z.eq_dec (n mod 10) 0) as [->|Hz]; [apply int_zero|apply int_nonzero; [lia|constructor]].
    + unfold digits_val. cbn [fold_left]. lia.
    + intros HP [= K]. lia.
  - apply Z.eqb_neq in E. assert (0 <= n / 10) by (apply Z.div_pos; lia).
    assert (n / 10 < 2 ^ Z.of_nat f).
    { replace (Z.of_nat (S f)) with (1 + Z.of_nat f) in Hn by lia. rewrite Z.pow_add_r in Hn by lia. change (2 ^ 1) with 2 in Hn. apply Z.div_lt_upper_bound; lia. }
    assert (0 < f)%nat. { destruct f; [|lia]. cbn [Z.of_nat] in *. change (2 ^ 0) with 1 in *. lia. }
    destruct (IH (n / 10) ((48 + n mod 10) :: acc)) as (ds & A & B & C & D); [lia|assumption|].
    assert (DN : ds <> [0]) by (apply D; lia).
    exists (ds ++ [n mod 10]). split; [|split; [|split]].
    + rewrite A. unfold dtext. rewrite map_app, <- app_assoc. reflexivity.
    + apply int_digits_snoc; [exact B|exact DN|unfold digit; lia].
    + rewrite digits_val_snoc, C. lia.
    + intros _ K. destruct ds as [|a [|b ds]]; [inversion B|discriminate|discriminate].
Qed.
Lemma dec_digits_eq n : 0 <= n -> exists ds, dec_digits n = dtext ds /\ IntDigits ds /\ digits_val ds = n.
Proof.
  intros Hn. unfold dec_digits. destruct (dec_digits_aux_eq (S (Z.to_nat (Z.log2 n))) n []) as (ds & A & B & C & _); [|lia|].
  - split; [exact Hn|]. replace (Z.of_nat (S (Z.to_nat (Z.log2 n)))) with (Z.succ (Z.log2 n)) by (pose proof (Z.log2_nonneg n); lia).
    destruct (Z.eq_dec n 0) as [->|HZ]; [reflexivity|]. apply Z.log2_spec. lia.
  - exists ds. rewrite app_nil_r in A. auto.
Qed.
Theorem itoa_spec z : int_text z (itoa z).
Proof.
  unfold itoa. destruct (z <? 0) eqn:E.
  - apply Z.ltb_lt in E. destruct (dec_digits_eq (- z)) as (ds & A & B & C); [lia|]. rewrite A.
    exists (mknum true ds None None). split; [|repeat split].
    + change (45 :: dtext ds) with ([45] ++ dtext ds). rewrite <- (app_nil_r (dtext ds)). apply (num_text true ds None [] None []); [exact B|constructor|constructor].
    + unfold lit_int. cbn [n_neg n_int]. lia.
    + cbn [n_neg]. symmetry. apply Z.ltb_lt. exact E.
  - apply Z.ltb_ge in E. destruct (dec_digits_eq z) as (ds & A & B & C); [lia|]. rewrite A.
    exists (mknum false ds None None). split; [|repeat split].
    + change (dtext ds) with ([] ++ dtext ds). rewrite <- (app_nil_r (dtext ds)). apply (num_text false ds None [] None []); [exact B|constructor|constructor].
    + unfold lit_int. cbn [n_neg n_int]. exact C.
    + cbn [n_neg]. symmetry. apply Z.ltb_ge. exact E.
Qed.

(** ** Strings *)
Lemma hex_char_digit v : 0 <= v <= 15 -> HexDigit (hex_char v) v.
Proof. intros H. unfold hex_char. destruct (v <? 10) eqn:E; [apply Z.ltb_lt in E; constructor; lia|apply Z.ltb_ge in E; constructor; lia]. Qed.
Lemma quote_char_body c t s : 0 <= c <= 255 -> StrBody t s -> StrBody (quote_char c ++ t) (c :: s).
Proof.
  intros Hc Ht. unfold quote_char.
  destruct (c =? 34) eqn:E1; [apply Z.eqb_eq in E1; subst; apply sb_esc; [constructor|exact Ht]|].
  destruct (c =? 92) eqn:E2; [apply Z.eqb_eq in E2; subst; apply sb_esc; [constructor|exact Ht]|].
  destruct (c =? 8) eqn:E3; [apply Z.eqb_eq in E3; subst; apply sb_esc; [constructor|exact Ht]|].
  destruct (c =? 9) eqn:E4; [apply Z.eqb_eq in E4; subst; apply sb_esc; [constructor|exact Ht]|].
  destruct (c =? 10) eqn:E5; [apply Z.eqb_eq in E5; subst; apply sb_esc; [constructor|exact Ht]|].
  destruct (c =? 12) eqn:E6; [apply Z.eqb_eq in E6; subst; apply sb_esc; [constructor|exact Ht]|].
  destruct (c =? 13) eqn:E7; [apply Z.eqb_eq in E7; subst; apply sb_esc; [constructor|exact Ht]|].
  destruct (c <? 32) eqn:E8.
  - apply Z.ltb_lt in E8.
    assert (HD : 0 <= c / 16 <= 15 /\ 0 <= c mod 16 <= 15 /\ c = c / 16 * 16 + c mod 16).
    { pose proof (Z.div_mod c 16 ltac:(lia)). pose proof (Z.mod_pos_bound c 16 ltac:(lia)). lia. }
    destruct HD as (H1 & H2 & H3).
    replace ((bs "\u00" ++ [hex_char (c / 16); hex_char (c mod 16)]) ++ t) with (92 :: 117 :: [48; 48; hex_char (c / 16); hex_char (c mod 16)] ++ t) by reflexivity.
    replace (c :: s) with (utf8_enc c ++ s).
    2: { unfold utf8_enc. rewrite (proj2 (Z.ltb_lt c 128)) by lia. reflexivity. }
    replace (utf8_enc c) with (utf8_enc (0 * 4096 + 0 * 256 + c / 16 * 16 + c mod 16)) by (f_equal; lia).
    apply sb_uni.
    + constructor; try (apply hex_char_digit; lia); apply (hex_dec 0); lia.
    + unfold high_surrogate. lia.
    + unfold low_surrogate. lia.
    + exact Ht.
  - apply Z.ltb_ge in E8. apply Z.eqb_neq in E1, E2. cbn [app]. apply sb_raw; [lia|exact E1|exact E2|exact Ht].
Qed.
Lemma quote_text s : Forall (fun b => 0 <= b <= 255) s -> StrText (quote s) s.
Proof.
  intros H. exists (flat_map quote_char s). split; [reflexivity|]. induction H as [|c s Hc H IH]; [constructor|]. cbn [flat_map]. apply quote_char_body; assumption.
Qed.
Lemma quote_text_ok s : str_ok s = true -> StrText (quote s) s.
Proof. intros H. apply quote_text, str_ok_bytes, H. Qed.

(** ** Trees *)
Lemma ws_nil : Ws []. Proof. constructor. Qed.
Section Text.
Variable ryu : f64 -> bytes.
Hypothesis HR : ryu_ok ryu.
Notation rend := (render itoa ryu).

Lemma commas_etext l : l <> [] -> Forall (fun t => exists d, Denotes t d /\ VText d (rend t)) l ->
  exists ds, Forall2 Denotes l ds /\ EText ds (commas (map rend l)).
Proof.
  intros HN H. induction H as [|t l (d & H1 & H2) H IH]; [congruence|]. destruct l as [|t2 l].
  - exists [d]. split; [repeat constructor; assumption|]. cbn [map commas].
    replace (rend t) with ([] ++ rend t ++ []) by (cbn [app]; apply app_nil_r). constructor; auto using ws_nil.
  - destruct IH as (ds & F & T); [discriminate|]. exists (d :: ds). split; [constructor; assumption|].
    change (commas (map rend (t :: t2 :: l))) with ([] ++ rend t ++ [] ++ 44 :: commas (map rend (t2 :: l))). constructor; auto using ws_nil.
Qed.
Lemma commas_mtext l : l <> [] -> Forall (fun kt => str_ok (fst kt) = true /\ exists d, Denotes (snd kt) d /\ VText d (rend (snd kt))) l ->
  exists ds, Forall2 (fun kt kd => fst kt = fst kd /\ Denotes (snd kt) (snd kd)) l ds /\
    MText ds (commas (map (fun kt => quote (fst kt) ++ 58 :: rend (snd kt)) l)).
Proof.
  intros HN H. induction H as [|[k t] l (HK & d & H1 & H2) H IH]; [congruence|]. cbn [fst snd] in *. destruct l as [|t2 l].
  - exists [(k, d)]. split; [repeat constructor; assumption|]. cbn [map commas fst snd].
    replace (quote k ++ 58 :: rend t) with ([] ++ quote k ++ [] ++ 58 :: [] ++ rend t ++ []) by (cbn [app]; rewrite app_nil_r; reflexivity).
    constructor; auto using ws_nil, quote_text_ok.
  - destruct IH as (ds & F & T); [discriminate|]. exists ((k, d) :: ds). split; [constructor; [split; [reflexivity|assumption]|assumption]|].
    set (g := fun kt : bytes * stree => quote (fst kt) ++ 58 :: rend (snd kt)) in *.
    replace (commas (map g ((k, t) :: t2 :: l))) with ([] ++ quote k ++ [] ++ 58 :: [] ++ rend t ++ [] ++ 44 :: commas (map g (t2 :: l))).
    2: { change (commas (map g ((k, t) :: t2 :: l))) with (g (k, t) ++ 44 :: commas (map g (t2 :: l))). unfold g at 2. cbn [fst snd app]. rewrite <- app_assoc. reflexivity. }
    constructor; auto using ws_nil, quote_text_ok.
Qed.

Theorem render_text t : stree_ok t = true -> exists d, Denotes t d /\ VText d (rend t).
Proof.
  induction t as [|b|s|n|n|f|l IH|l IH] using stree_ind'; intros HO; cbn [stree_ok render] in *.
  - exists DNull. split; constructor.
  - exists (DBool b). split; [constructor|]. destruct b; constructor.
  - exists (DStr s). split; [constructor|]. constructor. apply quote_text_ok, HO.
  - destruct (itoa_spec n) as (m & A & B & C & F & G). exists (DNum m). split; [constructor; [split|..]; assumption|constructor; exact A].
  - destruct (itoa_spec n) as (m & A & B & C & F & G). exists (DNum m). split; [constructor; [split|..]; assumption|constructor; exact A].
  - destruct (f_is_finite f) eqn:FF.
    + destruct (HR f HO FF) as [(m & A & B & C & F) _]. exists (DNum m). split; [constructor; assumption|constructor; exact A].
    + exists DNull. split; [constructor; exact FF|constructor].
  - destruct l as [|t l]; [exists (DArr []); split; [repeat constructor|apply (vt_arr0 []), ws_nil]|].
    destruct (commas_etext (t :: l)) as (ds & F & T); [discriminate| |exists (DArr ds); split; [constructor; exact F|constructor; exact T]].
    rewrite Forall_forall in IH |- *. intros x Hx. apply IH; [exact Hx|]. rewrite forallb_forall in HO. apply HO, Hx.
  - destruct l as [|t l]; [exists (DObj []); split; [repeat constructor|apply (vt_obj0 []), ws_nil]|].
    destruct (commas_mtext (t :: l)) as (ds & F & T); [discriminate| |exists (DObj ds); split; [constructor; exact F|constructor; exact T]].
    rewrite Forall_forall in IH |- *. intros x Hx. rewrite forallb_forall in HO. specialize (HO _ Hx). apply andb_true_iff in HO. destruct HO. split; [assumption|]. apply IH; assumption.
Qed.
Theorem render_jtext t : stree_ok t = true -> exists d, Denotes t d /\ JText d (rend t).
Proof.
  intros H. destruct (render_text t H) as (d & A & B). exists d. split; [exact A|]. exists [], (rend t), []. rewrite app_nil_r. auto using ws_nil.
Qed.

(** ** Characters of the output *)
Definition printable (s : bytes) : Prop := str_ok s = true /\ Forall (fun c => 32 <= c) s.
Lemma printable_app a b : printable a -> printable b -> printable (a ++ b).
Proof. intros [A B] [C D]. split; [rewrite str_ok_app by exact A; exact C|apply Forall_app; auto]. Qed.
Lemma printable_cons c s : 32 <= c <= 127 -> printable s -> printable (c :: s).
Proof. intros H [A B]. split; [rewrite str_ok_ascii by (apply inr_true; lia); exact A|constructor; [lia|exact B]]. Qed.
Lemma printable_nil : printable []. Proof. split; [reflexivity|constructor]. Qed.
Definition ascii_print (s : bytes) : Prop := Forall (fun c => 32 <= c <= 127) s.
Lemma ascii_printable s : ascii_print s -> printable s.
Proof. intros H. induction H; [apply printable_nil|apply printable_cons; assumption]. Qed.
Lemma dtext_ascii ds : Forall digit ds -> ascii_print (dtext ds).
Proof. intros H. apply Forall_map. eapply Forall_impl; [|exact H]. unfold digit. intros; cbn beta; lia. Qed.
Lemma int_digits_all ds : IntDigits ds -> Forall digit ds.
Proof. intros [|d l H1 H2]; constructor; unfold digit; try lia; auto. Qed.
Lemma NumText_ascii n t : NumText n t -> ascii_print t.
Proof.
  intros [neg i f ft e et H1 H2 H3]. apply Forall_app. split; [destruct neg; repeat constructor; lia|].
  apply Forall_app. split; [apply dtext_ascii, int_digits_all, H1|]. apply Forall_app. split.
  - destruct H2 as [|d ds H]; [constructor|]. constructor; [lia|apply dtext_ascii, H].
  - destruct H3 as [|e0 sg st d ds He HS H]; [constructor|]. constructor; [destruct He; subst; lia|]. apply Forall_app. split; [|apply dtext_ascii, H].
    destruct HS; repeat constructor; lia.
Qed.
Lemma quote_char_ascii c : 0 <= c <= 127 -> ascii_print (quote_char c).
Proof.
  intros Hc. unfold quote_char.
  repeat match goal with |- context [c =? ?x] => destruct (c =? x); [cbn; repeat constructor; lia|] end.
  destruct (c <? 32) eqn:E.
  - apply Z.ltb_lt in E. change (bs "\u00") with [92; 117; 48; 48]. cbn [app]. assert (c / 16 < 2) by (apply Z.div_lt_upper_bound; lia). assert (0 <= c / 16) by (apply Z.div_pos; lia).
    pose proof (Z.mod_pos_bound c 16 ltac:(lia)). unfold hex_char. repeat constructor; try lia;
      match goal with |- context [if ?b then _ else _] => destruct b eqn:? end; lia.
  - apply Z.ltb_ge in E. repeat constructor; lia.
Qed.
Lemma quote_char_high c : 127 < c -> quote_char c = [c].
Proof.
  intros H. unfold quote_char.
  repeat match goal with |- context [c =? ?x] => rewrite (proj2 (Z.eqb_neq c x)) by lia end.
  rewrite (proj2 (Z.ltb_ge c 32)) by lia. reflexivity.
Qed.
Lemma utf8_enc_high c : is_scalar c = true -> 128 <= c -> Forall (fun b => 127 < b) (utf8_enc c).
Proof.
  intros HS H. unfold utf8_enc. apply is_scalar_spec in HS.
  assert (M : forall x, 0 <= x mod 64) by (intros x; pose proof (Z.mod_pos_bound x 64 ltac:(lia)); lia).
  rewrite (proj2 (Z.ltb_ge c 128)) by lia. destruct (c <? 2048) eqn:E1.
  - assert (0 <= c / 64) by (apply Z.div_pos; lia). repeat constructor; try lia. specialize (M c). lia.
  - destruct (c <? 65536).
    + assert (0 <= c / 4096) by (apply Z.div_pos; lia). pose proof (M c). pose proof (M (c / 64)). repeat constructor; lia.
    + assert (0 <= c / 262144) by (apply Z.div_pos; lia). pose proof (M c). pose proof (M (c / 64)). pose proof (M (c / 4096)). repeat constructor; lia.
Qed.
Lemma quote_high l : Forall (fun b => 127 < b) l -> flat_map quote_char l = l.
Proof. intros H. induction H as [|c l Hc H IH]; [reflexivity|]. cbn [flat_map]. rewrite quote_char_high by exact Hc. rewrite IH. reflexivity. Qed.
Lemma quote_printable s : str_ok s = true -> printable (quote s).
Proof.
  intros H. unfold quote. apply printable_cons; [lia|]. apply printable_app; [|apply printable_cons; [lia|apply printable_nil]].
  apply str_ok_spec in H. destruct H as (cs & HC & ->). induction cs as [|c cs IH]; [apply printable_nil|].
  cbn [forallb] in HC. apply andb_true_iff in HC. destruct HC as [HC1 HC2]. unfold encode_all. cbn [map concat]. rewrite flat_map_app.
  apply printable_app; [|apply IH, HC2]. destruct (Z_lt_le_dec c 128) as [HL|HL].
  - unfold utf8_enc. rewrite (proj2 (Z.ltb_lt c 128)) by exact HL. cbn [flat_map]. rewrite app_nil_r. apply ascii_printable, quote_char_ascii.
    apply is_scalar_spec in HC1. lia.
  - pose proof (utf8_enc_high c HC1 HL) as HH. rewrite quote_high by exact HH. split.
    + rewrite <- (app_nil_r (utf8_enc c)), str_ok_enc by exact HC1. reflexivity.
    + eapply Forall_impl; [|exact HH]. cbn beta. intros; lia.
Qed.
Lemma commas_printable l : Forall printable l -> printable (commas l).
Proof.
  intros H. induction H as [|x l Hx H IH]; [apply printable_nil|]. destruct l as [|y l]; [exact Hx|].
  change (commas (x :: y :: l)) with (x ++ 44 :: commas (y :: l)). apply printable_app; [exact Hx|]. apply printable_cons; [lia|exact IH].
Qed.
Theorem render_printable t : stree_ok t = true -> printable (rend t).
Proof.
  induction t as [|b|s|n|n|f|l IH|l IH] using stree_ind'; intros HO; cbn [stree_ok render] in *.
  - apply ascii_printable. cbn. repeat constructor; lia.
  - apply ascii_printable. destruct b; cbn; repeat constructor; lia.
  - apply quote_printable, HO.
  - destruct (itoa_spec n) as (m & A & _). apply ascii_printable. eapply NumText_ascii, A.
  - destruct (itoa_spec n) as (m & A & _). apply ascii_printable. eapply NumText_ascii, A.
  - destruct (f_is_finite f) eqn:FF; [|apply ascii_printable; cbn; repeat constructor; lia].
    destruct (HR f HO FF) as [(m & A & _) _]. apply ascii_printable. eapply NumText_ascii, A.
  - apply printable_cons; [lia|]. apply printable_app; [|apply printable_cons; [lia|apply printable_nil]].
    apply commas_printable, Forall_map. rewrite Forall_forall in IH |- *. intros x Hx. apply IH; [exact Hx|]. rewrite forallb_forall in HO. apply HO, Hx.
  - apply printable_cons; [lia|]. apply printable_app; [|apply printable_cons; [lia|apply printable_nil]].
    apply commas_printable, Forall_map. rewrite Forall_forall in IH |- *. intros x Hx. rewrite forallb_forall in HO. specialize (HO _ Hx). apply andb_true_iff in HO. destruct HO as [HO1 HO2].
    apply printable_app; [apply quote_printable, HO1|]. apply printable_cons; [lia|]. apply IH; assumption.
Qed.
End Text.
