(** The token functions recognise exactly the grammar. *)
From Coq Require Import String ZArith List Bool Lia Floats.SpecFloat.
From Verif Require Import Base Utf8 Utf8Facts F64 Lexer Driver Grammar LexSpec LexFacts RunFacts LexNumFacts Tree TreeFacts DriverFacts.
Import ListNotations.
Open Scope Z_scope.

(** ** Whitespace *)
Lemma is_ws_iff c : is_ws c = true <-> ws_char c.
Proof. unfold is_ws, ws_char. rewrite !orb_true_iff, !Z.eqb_eq. tauto. Qed.

Lemma skip_ws_split s : exists w, s = w ++ skip_ws s /\ Ws w.
Proof.
  destruct (skip_ws_suffix s) as (w & E & H). exists w. split; [exact E|].
  apply Forall_forall. intros c Hc. apply is_ws_iff.
  rewrite forallb_forall in H. apply H, Hc.
Qed.
Lemma skip_ws_app w s : Ws w -> skip_ws (w ++ s) = skip_ws s.
Proof.
  induction 1 as [|c w Hc _ IH]; [reflexivity|]. cbn [app skip_ws].
  apply is_ws_iff in Hc. rewrite Hc. exact IH.
Qed.
Lemma skip_ws_Ws w : Ws w -> skip_ws w = [].
Proof. intros H. rewrite <- (app_nil_r w). rewrite skip_ws_app by exact H. reflexivity. Qed.
Lemma skip_ws_nonws c s : ~ ws_char c -> skip_ws (c :: s) = c :: s.
Proof.
  intros H. cbn [skip_ws]. destruct (is_ws c) eqn:E; [|reflexivity].
  apply is_ws_iff in E. contradiction.
Qed.
Lemma skip_ws_nil_iff s : skip_ws s = [] <-> Ws s.
Proof.
  split; [|apply skip_ws_Ws]. intros E. destruct (skip_ws_split s) as (w & K & H).
  rewrite E, app_nil_r in K. subst. exact H.
Qed.
Lemma skip_ws_head s c r : skip_ws s = c :: r -> ~ ws_char c.
Proof.
  induction s as [|x s IH]; [discriminate|]. cbn [skip_ws].
  destruct (is_ws x) eqn:E; [exact IH|]. intros [= -> ->] K. apply is_ws_iff in K. congruence.
Qed.

(** ** Strings *)
Lemma hexval_iff c v : hexval c = Some v <-> HexDigit c v.
Proof.
  unfold hexval. split.
  - destruct (is_digit c) eqn:E.
    { intros [= <-]. apply is_digit_range in E.
      replace c with (48 + (c - 48)) at 1 by lia. constructor. lia. }
    destruct ((97 <=? c) && (c <=? 102)) eqn:E1.
    { intros [= <-]. replace c with (87 + (c - 87)) at 1 by lia. constructor. lia. }
    destruct ((65 <=? c) && (c <=? 70)) eqn:E2; [|discriminate].
    intros [= <-]. replace c with (55 + (c - 55)) at 1 by lia. constructor. lia.
  - intros [v' H|v' H|v' H].
    + rewrite (proj2 (is_digit_range _)) by lia. f_equal. lia.
    + destruct (is_digit (87 + v')) eqn:E; [apply is_digit_range in E; lia|].
      rewrite (proj2 (andb_true_iff _ _)) by lia. f_equal. lia.
    + destruct (is_digit (55 + v')) eqn:E; [apply is_digit_range in E; lia|].
      destruct ((97 <=? 55 + v') && (55 + v' <=? 102)) eqn:E1; [lia|].
      rewrite (proj2 (andb_true_iff _ _)) by lia. f_equal. lia.
Qed.

Lemma p_hex4_sound s n r : p_hex 4 0 s = Some (n, r) -> exists h, s = h ++ r /\ Hex4 h n.
Proof.
  cbn [p_hex]. destruct s as [|a s]; [discriminate|].
  destruct (hexval a) as [va|] eqn:Ea; [|discriminate].
  destruct s as [|b s]; [discriminate|].
  destruct (hexval b) as [vb|] eqn:Eb; [|discriminate].
  destruct s as [|c s]; [discriminate|].
  destruct (hexval c) as [vc|] eqn:Ec; [|discriminate].
  destruct s as [|d s]; [discriminate|].
  destruct (hexval d) as [vd|] eqn:Ed; [|discriminate].
  intros E. apply Some_pair_inv in E. destruct E as [E <-]. exists [a; b; c; d]. split; [reflexivity|].
  rewrite hexval_iff in *. 
  replace n with (va * 4096 + vb * 256 + vc * 16 + vd) by lia. constructor; assumption.
Qed.
Lemma p_hex4_complete h n r : Hex4 h n -> p_hex 4 0 (h ++ r) = Some (n, r).
Proof.
  intros [a b c d va vb vc vd Ha Hb Hc Hd]. rewrite <- hexval_iff in *.
  cbn [app p_hex]. rewrite Ha, Hb, Hc, Hd. f_equal. f_equal. lia.
Qed.
Lemma Hex4_range h n : Hex4 h n -> 0 <= n <= 65535.
Proof. intros [a b c d va vb vc vd Ha Hb Hc Hd]. destruct Ha, Hb, Hc, Hd; lia. Qed.

Lemma short_esc_iff e c : short_esc e = Some c <-> ShortEsc e c.
Proof.
  unfold short_esc. split.
  - repeat match goal with |- context [Z.eqb_spec] => idtac | |- (if ?x =? ?y then _ else _) = _ -> _ =>
      destruct (Z.eqb_spec x y) as [->|]; [intros [= <-]; constructor|] end. discriminate.
  - intros []; reflexivity.
Qed.

Lemma p_uni_sound s x r : p_uni s = Some (x, r) ->
  (exists h n, s = h ++ r /\ Hex4 h n /\ ~ high_surrogate n /\ ~ low_surrogate n /\ x = utf8_enc n) \/
  (exists h1 n1 h2 n2, s = h1 ++ 92 :: 117 :: h2 ++ r /\ Hex4 h1 n1 /\ high_surrogate n1 /\
     Hex4 h2 n2 /\ low_surrogate n2 /\ x = utf8_enc (65536 + (n1 - 55296) * 1024 + (n2 - 56320))).
Proof.
  unfold p_uni. destruct (p_hex 4 0 s) as [[n1 s1]|] eqn:E1; [|discriminate].
  apply p_hex4_sound in E1. destruct E1 as (h1 & -> & H1).
  destruct ((56320 <=? n1) && (n1 <=? 57343)) eqn:L; [discriminate|].
  destruct ((55296 <=? n1) && (n1 <=? 56319)) eqn:Hi.
  - destruct s1 as [|a [|b s2]]; try discriminate.
    destruct ((a =? 92) && (b =? 117)) eqn:E; [|discriminate].
    apply andb_true_iff in E. rewrite !Z.eqb_eq in E. destruct E as [-> ->].
    destruct (p_hex 4 0 s2) as [[n2 s3]|] eqn:E2; [|discriminate].
    apply p_hex4_sound in E2. destruct E2 as (h2 & -> & H2).
    destruct ((56320 <=? n2) && (n2 <=? 57343)) eqn:L2; [|discriminate].
    intros E. apply Some_pair_inv in E. destruct E as [<- <-]. right.
    exists h1, n1, h2, n2. unfold high_surrogate, low_surrogate.
    repeat split; try assumption; lia.
  - intros E. apply Some_pair_inv in E. destruct E as [<- <-]. left.
    exists h1, n1. unfold high_surrogate, low_surrogate. repeat split; try assumption; lia.
Qed.

Lemma p_string_sound s t r : Forall (fun c => c <= 255) s -> p_string s = Some (t, r) ->
  exists b, s = b ++ 34 :: r /\ StrBody b t.
Proof.
  remember (List.length s) as n eqn:Hn. revert s t r Hn.
  induction n as [n IH] using lt_wf_ind. intros s t r Hn HB E.
  destruct s as [|c s]; [discriminate|]. rewrite p_string_cons in E.
  apply Forall_cons_iff in HB. destruct HB as [Hc HB].
  destruct (Z.eqb_spec c 34).
  { apply Some_pair_inv in E. destruct E as [<- <-]. subst c.
    exists []. split; [reflexivity|constructor]. }
  destruct (Z.eqb_spec c 92).
  { subst c. destruct (p_esc s) as [[x r1]|] eqn:E1; [|discriminate].
    destruct (p_string r1) as [[t1 r2]|] eqn:E2; [|discriminate].
    apply Some_pair_inv in E. destruct E as [<- <-].
    destruct s as [|e s]; [discriminate|]. cbn [p_esc] in E1.
    assert (REC : forall pre, e :: s = pre ++ r1 ->
       exists b, r1 = b ++ 34 :: r2 /\ StrBody b t1).
    { intros pre Hp. eapply (IH (List.length r1)).
      - cbn [List.length] in Hn. apply (f_equal (@List.length Z)) in Hp.
        cbn [List.length] in Hp. rewrite app_length in Hp. lia.
      - reflexivity.
      - rewrite Hp in HB. apply Forall_app in HB. apply HB.
      - exact E2. }
    destruct (short_esc e) as [y|] eqn:ES.
    - apply Some_pair_inv in E1. destruct E1 as [<- <-]. apply short_esc_iff in ES.
      destruct (REC [e] eq_refl) as (b & -> & Hb).
      exists (92 :: e :: b). split; [reflexivity|]. constructor; assumption.
    - destruct (Z.eqb_spec e 117); [|discriminate]. subst e.
      apply p_uni_sound in E1.
      destruct E1 as [(h & n1 & -> & Hh & N1 & N2 & ->)|(h1 & n1 & h2 & n2 & -> & Hh & N1 & Hh2 & N2 & ->)].
      + destruct (REC (117 :: h) eq_refl) as (b & -> & Hb).
        exists (92 :: 117 :: h ++ b). split; [cbn; rewrite <- app_assoc; reflexivity|].
        constructor; assumption.
      + destruct (REC (117 :: h1 ++ 92 :: 117 :: h2)) as (b & -> & Hb).
        { cbn. rewrite <- app_assoc. reflexivity. }
        exists (92 :: 117 :: h1 ++ 92 :: 117 :: h2 ++ b). split.
        { cbn. rewrite <- app_assoc. cbn. rewrite <- app_assoc. reflexivity. }
        apply sb_pair; assumption. }
  destruct (Z.ltb_spec c 32); [discriminate|].
  destruct (p_string s) as [[t1 r1]|] eqn:E1; [|discriminate].
  apply Some_pair_inv in E. destruct E as [<- <-].
  destruct (IH (List.length s)) with (s := s) (t := t1) (r := r1) as (b & -> & Hb);
    [cbn in Hn; lia|reflexivity|exact HB|exact E1|].
  exists (c :: b). split; [reflexivity|]. constructor; try assumption; lia.
Qed.

Lemma p_string_complete b t r : StrBody b t -> p_string (b ++ 34 :: r) = Some (t, r).
Proof.
  induction 1 as [|c b t Hc N1 N2 H IH|e c b t He H IH|h n b t Hh N1 N2 H IH
                 |h1 n1 h2 n2 b t Hh1 N1 Hh2 N2 H IH].
  - cbn [app]. rewrite p_string_cons. reflexivity.
  - cbn [app]. rewrite p_string_cons.
    rewrite (proj2 (Z.eqb_neq c 34)) by exact N1. rewrite (proj2 (Z.eqb_neq c 92)) by exact N2.
    destruct (Z.ltb_spec c 32); [lia|]. rewrite IH. reflexivity.
  - cbn [app]. rewrite p_string_cons. cbn [Z.eqb Pos.eqb p_esc]. apply short_esc_iff in He. rewrite He, IH.
    reflexivity.
  - cbn [app]. rewrite p_string_cons. change (92 =? 34) with false. change (92 =? 92) with true.
    cbv iota. cbn [p_esc]. change (short_esc 117) with (@None Z). change (117 =? 117) with true.
    cbv iota. unfold p_uni. rewrite <- app_assoc.
    rewrite (p_hex4_complete _ _ _ Hh). unfold high_surrogate, low_surrogate in *.
    destruct ((56320 <=? n) && (n <=? 57343)) eqn:E1; [lia|].
    destruct ((55296 <=? n) && (n <=? 56319)) eqn:E2; [lia|]. rewrite IH. reflexivity.
  - cbn [app]. rewrite p_string_cons. change (92 =? 34) with false. change (92 =? 92) with true.
    cbv iota. cbn [p_esc]. change (short_esc 117) with (@None Z). change (117 =? 117) with true.
    cbv iota. unfold p_uni. rewrite <- app_assoc.
    rewrite (p_hex4_complete _ _ _ Hh1). unfold high_surrogate, low_surrogate in *.
    destruct ((56320 <=? n1) && (n1 <=? 57343)) eqn:E1; [lia|].
    destruct ((55296 <=? n1) && (n1 <=? 56319)) eqn:E2; [|lia]. cbn [app].
    change ((92 =? 92) && (117 =? 117)) with true. cbv iota. rewrite <- app_assoc.
    rewrite (p_hex4_complete _ _ _ Hh2).
    destruct ((56320 <=? n2) && (n2 <=? 57343)) eqn:E3; [|lia]. rewrite IH. reflexivity.
Qed.

(** ** Numbers *)
Lemma scan_digits_sound s ds r : scan_digits s = (ds, r) ->
  s = dtext ds ++ r /\ Forall digit ds /\ starts_digit r = false.
Proof.
  revert ds r. induction s as [|c s IH]; intros ds r; cbn [scan_digits].
  - intros [= <- <-]. repeat split; constructor.
  - destruct (is_digit c) eqn:E.
    + destruct (scan_digits s) as [ds' r']. intros K. 
      assert (ds = c - 48 :: ds' /\ r = r') as [-> ->] by (split; congruence).
      destruct (IH ds' r' eq_refl) as (-> & H1 & H2). apply is_digit_range in E.
      split; [cbn [dtext map app]; f_equal; lia|]. split; [|exact H2]. constructor; [unfold digit; lia|exact H1].
    + intros [= <- <-]. cbn [starts_digit]. repeat split; [constructor|exact E].
Qed.
Lemma scan_digits_complete ds r : Forall digit ds -> starts_digit r = false ->
  scan_digits (dtext ds ++ r) = (ds, r).
Proof.
  intros H Hr. induction H as [|d ds Hd H IH].
  - cbn [dtext map app]. destruct r as [|c r]; [reflexivity|]. cbn [scan_digits].
    cbn [starts_digit] in Hr. rewrite Hr. reflexivity.
  - cbn [dtext map app scan_digits] in *. unfold digit in Hd.
    rewrite (proj2 (is_digit_range _)) by lia. unfold dtext in IH. rewrite IH. f_equal. f_equal. lia.
Qed.

(** What may follow a number so that the number does not go on. *)
Definition numend (s : bytes) : bool :=
  match s with [] => true | c :: _ => negb (is_digit c || (c =? 46) || is_e c) end.

Lemma p_int_sound s i r : p_int s = Some (i, r) ->
  s = dtext i ++ r /\ IntDigits i /\ starts_digit r = false.
Proof.
  destruct s as [|c s]; [discriminate|]. unfold p_int.
  destruct (Z.eqb_spec c 48).
  - destruct (starts_digit s) eqn:E; [discriminate|]. intros [= <- <-]. subst c.
    repeat split; [constructor|exact E].
  - destruct (is_digit19 c) eqn:E; [|discriminate]. intros K.
    destruct (scan_digits (c :: s)) as [ds r'] eqn:ES.
    apply Some_pair_inv in K. destruct K as [<- <-].
    apply scan_digits_sound in ES. destruct ES as (E1 & H1 & H2).
    split; [exact E1|]. split; [|exact H2].
    unfold is_digit19 in E.
    destruct ds as [|d ds].
    { cbn in E1. subst r'. cbn [starts_digit] in H2. unfold is_digit in H2. lia. }
    cbn [dtext map app] in E1. assert (c = 48 + d) by congruence. apply Forall_cons_iff in H1.
    constructor; [lia|apply H1].
Qed.
Lemma IntDigits_digit i : IntDigits i -> Forall digit i.
Proof. intros [|d ds H1 H2]; constructor; unfold digit; try lia; [constructor|exact H2]. Qed.
Lemma p_int_complete i r : IntDigits i -> starts_digit r = false ->
  p_int (dtext i ++ r) = Some (i, r).
Proof.
  intros H Hr. pose proof (IntDigits_digit _ H) as HD. destruct H as [|d ds H1 H2].
  - cbn [dtext map app p_int]. change (48 + 0 =? 48) with true. cbv iota. rewrite Hr. reflexivity.
  - unfold p_int. change (dtext (d :: ds) ++ r) with (48 + d :: (dtext ds ++ r)) at 1. cbv iota.
    rewrite (proj2 (Z.eqb_neq _ 48)) by lia. unfold is_digit19.
    rewrite (proj2 (andb_true_iff _ _)) by lia.
    rewrite scan_digits_complete by assumption. reflexivity.
Qed.

Lemma p_frac_sound s f r : p_frac s = Some (f, r) -> starts_digit s = false ->
  exists ft, s = ft ++ r /\ FracText f ft /\ starts_digit r = false.
Proof.
  intros E Hs. destruct s as [|c s]; cbn [p_frac] in E.
  - injection E as <- <-. exists []. repeat split. constructor.
  - destruct (Z.eqb_spec c 46).
    + subst c. destruct (scan_digits s) as [[|d ds] r'] eqn:ES; [discriminate|].
      injection E as <- <-. apply scan_digits_sound in ES. destruct ES as (-> & H1 & H2).
      exists (46 :: dtext (d :: ds)). repeat split; [constructor; exact H1|exact H2].
    + injection E as <- <-. exists []. repeat split; [constructor|exact Hs].
Qed.
Lemma p_frac_complete f ft r : FracText f ft -> starts_digit r = false ->
  (f = None -> match r with c :: _ => c <> 46 | [] => True end) ->
  p_frac (ft ++ r) = Some (f, r).
Proof.
  intros [|d ds H] Hr Hn.
  - cbn [app]. destruct r as [|c r]; [reflexivity|]. unfold p_frac.
    rewrite (proj2 (Z.eqb_neq c 46)) by (apply Hn; reflexivity). reflexivity.
  - change ((46 :: dtext (d :: ds)) ++ r) with (46 :: (dtext (d :: ds) ++ r)).
    unfold p_frac. change (46 =? 46) with true. cbv iota.
    rewrite scan_digits_complete by assumption. reflexivity.
Qed.

Lemma p_exp_sound s f r : p_exp s = Some (f, r) -> starts_digit s = false ->
  exists et, s = et ++ r /\ ExpText f et /\ starts_digit r = false.
Proof.
  intros E Hs. destruct s as [|c s]; cbn [p_exp] in E.
  - injection E as <- <-. exists []. repeat split. constructor.
  - destruct (is_e c) eqn:Ee.
    + destruct (p_sign s) as [sg s1] eqn:EG.
      assert (exists st, s = st ++ s1 /\ SignText sg st) as (st & -> & HG).
      { destruct s as [|x s]; cbn [p_sign] in EG.
        - injection EG as <- <-. exists []. split; [reflexivity|constructor].
        - destruct (Z.eqb_spec x 43); [subst x; injection EG as <- <-; exists [43]; split; [reflexivity|constructor]|].
          destruct (Z.eqb_spec x 45); [subst x; injection EG as <- <-; exists [45]; split; [reflexivity|constructor]|].
          injection EG as <- <-. exists []. split; [reflexivity|constructor]. }
      destruct (scan_digits s1) as [[|d ds] r'] eqn:ES; [discriminate|].
      injection E as <- <-. apply scan_digits_sound in ES. destruct ES as (-> & H1 & H2).
      exists (c :: st ++ dtext (d :: ds)). split; [cbn [app]; rewrite <- app_assoc; reflexivity|].
      split; [|exact H2]. unfold is_e in Ee. constructor; [lia|exact HG|exact H1].
    + injection E as <- <-. exists []. repeat split; [constructor|exact Hs].
Qed.
Lemma p_exp_complete f et r : ExpText f et -> starts_digit r = false ->
  (f = None -> is_e (hd0 r) = false) ->
  p_exp (et ++ r) = Some (f, r).
Proof.
  intros [|e sg st d ds He HG H] Hr Hn.
  - cbn [app]. apply p_exp_none. apply Hn. reflexivity.
  - cbn [app]. unfold p_exp. assert (Ee : is_e e = true) by (unfold is_e; lia). rewrite Ee.
    rewrite <- app_assoc.
    assert (EG : p_sign (st ++ dtext (d :: ds) ++ r) = (sg, dtext (d :: ds) ++ r)).
    { destruct HG; cbn [app p_sign]; try reflexivity.
      apply Forall_cons_iff in H. destruct H as [Hd _]. unfold digit in Hd.
      change (dtext (d :: ds) ++ r) with (48 + d :: (dtext ds ++ r)). cbn [p_sign].
      rewrite (proj2 (Z.eqb_neq _ 43)) by lia. rewrite (proj2 (Z.eqb_neq _ 45)) by lia. reflexivity. }
    rewrite EG. rewrite scan_digits_complete by assumption. reflexivity.
Qed.

Lemma p_unsigned_sound neg s n r : p_unsigned neg s = Some (n, r) ->
  exists t, (if neg then [45] else []) ++ s = t ++ r /\ NumText n t /\ n_neg n = neg.
Proof.
  unfold p_unsigned. destruct (p_int s) as [[i s1]|] eqn:E1; [|discriminate].
  destruct (p_frac s1) as [[f s2]|] eqn:E2; [|discriminate].
  destruct (p_exp s2) as [[e s3]|] eqn:E3; [|discriminate]. intros [= <- <-].
  apply p_int_sound in E1. destruct E1 as (-> & H1 & K1).
  apply p_frac_sound in E2; [|exact K1]. destruct E2 as (ft & -> & H2 & K2).
  apply p_exp_sound in E3; [|exact K2]. destruct E3 as (et & -> & H3 & K3).
  exists ((if neg then [45] else []) ++ dtext i ++ ft ++ et).
  split; [repeat rewrite <- app_assoc; reflexivity|]. split; [constructor; assumption|reflexivity].
Qed.

Lemma starts_digit_app_frac ft f r : FracText f ft -> starts_digit r = false ->
  starts_digit (ft ++ r) = false.
Proof. intros [|d ds H] Hr; [exact Hr|reflexivity]. Qed.
Lemma starts_digit_app_exp et f r : ExpText f et -> starts_digit r = false ->
  starts_digit (et ++ r) = false.
Proof.
  intros [|e sg st d ds He HG H] Hr; [exact Hr|]. cbn [app starts_digit].
  destruct He as [-> | ->]; reflexivity.
Qed.

Lemma numend_facts r : numend r = true ->
  starts_digit r = false /\ (match r with c :: _ => c <> 46 | [] => True end) /\ is_e (hd0 r) = false.
Proof.
  destruct r as [|c r]; cbn [numend starts_digit hd0]; [intros _; repeat split|].
  intros H. apply negb_true_iff in H. rewrite !orb_false_iff in H. destruct H as [[H1 H2] H3].
  rewrite Z.eqb_neq in H2. auto.
Qed.

(** The text of a number, without the minus sign, is recognised. *)
Lemma p_unsigned_complete neg i f ft e et r :
  IntDigits i -> FracText f ft -> ExpText e et -> numend r = true ->
  p_unsigned neg (dtext i ++ ft ++ et ++ r) = Some (mknum neg i f e, r).
Proof.
  intros H1 H2 H3 Hr. apply numend_facts in Hr. destruct Hr as (R1 & R2 & R3).
  unfold p_unsigned.
  rewrite p_int_complete; [|exact H1|].
  2: { eapply starts_digit_app_frac; [exact H2|]. eapply starts_digit_app_exp; eassumption. }
  rewrite (p_frac_complete f ft); [|exact H2| |].
  2: { eapply starts_digit_app_exp; eassumption. }
  2: { intros _. destruct H3 as [|x sg st d ds He HG H]; [exact R2|].
       cbn [app]. destruct He as [-> | ->]; discriminate. }
  rewrite (p_exp_complete e et); [reflexivity|exact H3|exact R1|intros _; exact R3].
Qed.

Lemma p_ident_iff i s r : p_ident i s = Some r <-> s = i ++ r.
Proof.
  revert s. induction i as [|c i IH]; intros s; cbn [p_ident app].
  - split; congruence.
  - destruct s as [|x s]; [split; discriminate|].
    destruct (Z.eqb_spec x c).
    + subst x. rewrite IH. split; congruence.
    + split; [discriminate|congruence].
Qed.

(** ** Tokens *)
Definition byte_le (c : Z) : Prop := c <= 255.

(** Scalars and their event. *)
Inductive is_scalar : doc -> Prop :=
| sc_null : is_scalar DNull
| sc_bool b : is_scalar (DBool b)
| sc_str s : is_scalar (DStr s)
| sc_num n : is_scalar (DNum n).

Lemma Forall_skip_ws P s : Forall P s -> Forall P (skip_ws s).
Proof.
  intros H. destruct (skip_ws_split s) as (w & E & _). rewrite E in H.
  apply Forall_app in H. apply H.
Qed.

Lemma lit_event_leaf n ev : lit_event n = Ok ev -> leaf_ev ev = true.
Proof.
  unfold lit_event. destruct (acc_int 0 (n_int n)) as [r [|d rest]].
  - destruct (n_frac n), (n_exp n); unfold float_event;
      try (destruct (frac_float _ _ _ _ _); cbn; intros [= <-]; reflexivity).
    intros [= <-]. destruct (negb (n_neg n)); [reflexivity|]. destruct (0 <? _); reflexivity.
  - unfold float_event. destruct (frac_float _ _ _ _ _); cbn; intros [= <-]; reflexivity.
Qed.

Lemma tok_sound s ev r : Forall byte_le s -> tok s = Ok (ev, r) ->
  exists w x, s = w ++ x ++ r /\ Ws w /\
    match ev with
    | ESeqStart => x = [91]
    | EMapStart => x = [123]
    | _ => exists d, is_scalar d /\ VText d x /\ tree_of d = Some (PLeaf ev)
    end.
Proof.
  intros HB E. unfold tok in E. destruct (skip_ws_split s) as (w & Ew & Hw).
  apply Forall_skip_ws in HB.
  destruct (skip_ws s) as [|c s1]; [discriminate|]. subst s.
  apply Forall_cons_iff in HB. destruct HB as [_ HB].
  assert (SC : forall d x, VText d x -> is_scalar d -> c :: s1 = x ++ r -> tree_of d = Some (PLeaf ev) ->
    exists w0 x, w ++ c :: s1 = w0 ++ x ++ r /\ Ws w0 /\
    match ev with ESeqStart => x = [91] | EMapStart => x = [123]
    | _ => exists d, is_scalar d /\ VText d x /\ tree_of d = Some (PLeaf ev) end).
  { intros d x Hx Hd Ex Ht. exists w, x. split; [congruence|]. split; [exact Hw|].
    destruct ev; try (exists d; split; [exact Hd|split; [exact Hx|exact Ht]]); exfalso;
      destruct Hd as [|b|t|n]; cbn [tree_of] in Ht; try discriminate;
      destruct (lit_event n) as [e| |] eqn:El; try discriminate; cbn in Ht;
      apply lit_event_leaf in El; injection Ht as ->; discriminate. }
  destruct (Z.eqb_spec c 34).
  { destruct (p_string s1) as [[t r']|] eqn:E1; [|discriminate]. subst c.
    apply p_string_sound in E1; [|exact HB]. destruct E1 as (b & -> & Hb).
    assert (ev = EStr t /\ r' = r) as [-> ->] by (split; congruence).
    apply (SC (DStr t) (34 :: b ++ [34])).
    - constructor. exists b. split; [reflexivity|exact Hb].
    - constructor.
    - cbn [app]. rewrite <- app_assoc. reflexivity.
    - reflexivity. }
  assert (NUM : forall neg s2 q,
    match p_unsigned neg s2 with Some (n0, r0) => with_rest (lit_event n0) r0 | None => Err end = Ok (ev, q) ->
    exists n t, (if neg then [45] else []) ++ s2 = t ++ q /\ NumText n t /\ lit_event n = Ok ev).
  { intros neg s2 q. destruct (p_unsigned neg s2) as [[n0 r0]|] eqn:EU; [|discriminate].
    apply p_unsigned_sound in EU. destruct EU as (t & Et & Hn & _).
    destruct (lit_event n0) as [ev'| |] eqn:El; cbn; try discriminate.
    intros K. assert (ev' = ev /\ r0 = q) as [-> ->] by (split; congruence).
    exists n0, t. auto. }
  destruct (is_digit c) eqn:D.
  { apply NUM in E. destruct E as (nl & t & E1 & E2 & E3). cbn [app] in E1.
    apply (SC (DNum nl) t); [constructor; exact E2|constructor|exact E1|].
    cbn [tree_of]. rewrite E3. reflexivity. }
  destruct (Z.eqb_spec c 45).
  { apply NUM in E. destruct E as (nl & t & E1 & E2 & E3). cbn [app] in E1. subst c.
    apply (SC (DNum nl) t); [constructor; exact E2|constructor|exact E1|].
    cbn [tree_of]. rewrite E3. reflexivity. }
  destruct (Z.eqb_spec c 123).
  { injection E as <- <-. subst c. exists w, [123]. auto. }
  destruct (Z.eqb_spec c 91).
  { injection E as <- <-. subst c. exists w, [91]. auto. }
  destruct (Z.eqb_spec c 110).
  { destruct (p_ident (bs "ull") s1) as [r'|] eqn:EI; [|discriminate]. apply p_ident_iff in EI.
    injection E as <- <-. subst c s1. apply (SC DNull (bs "null")); constructor. }
  destruct (Z.eqb_spec c 116).
  { destruct (p_ident (bs "rue") s1) as [r'|] eqn:EI; [|discriminate]. apply p_ident_iff in EI.
    injection E as <- <-. subst c s1. apply (SC (DBool true) (bs "true")); constructor. }
  destruct (Z.eqb_spec c 102).
  { destruct (p_ident (bs "alse") s1) as [r'|] eqn:EI; [|discriminate]. apply p_ident_iff in EI.
    injection E as <- <-. subst c s1. apply (SC (DBool false) (bs "false")); constructor. }
  discriminate.
Qed.

(** ** Values *)
Lemma parse_sound n :
  (forall s t r, Forall byte_le s -> pval n s = (t, Some r) ->
     exists w x d, s = w ++ x ++ r /\ Ws w /\ VText d x /\ tree_of d = Some t) /\
  (forall first s l c r, Forall byte_le s -> pitems n first s = (l, c, Some r) ->
     c = true /\
     ((exists w, s = w ++ 93 :: r /\ Ws w /\ l = []) \/
      (exists w x ds, s = (if first then [] else w ++ [44]) ++ x ++ 93 :: r /\ Ws w /\
         EText ds x /\ trees_of ds = Some l))) /\
  (forall first s l c r, Forall byte_le s -> pmembers n first s = (l, c, Some r) ->
     c = true /\
     ((exists w, s = w ++ 125 :: r /\ Ws w /\ l = []) \/
      (exists w x ds, s = (if first then [] else w ++ [44]) ++ x ++ 125 :: r /\ Ws w /\
         MText ds x /\ mtrees_of ds = Some l))).
Proof.
  induction n as [|n (IHv & IHi & IHm)]; [split; [|split]; intros; discriminate|].
  assert (NXT : forall first s s1, p_next first s = NItem s1 ->
     exists w, s = (if first then w else w ++ [44]) ++ s1 /\ Ws w).
  { intros first s s1. unfold p_next. destruct (skip_ws_split s) as (w & Ew & Hw).
    destruct (skip_ws s) as [|c r].
    - destruct first; [|discriminate]. intros [= <-]. exists w. auto.
    - destruct ((c =? 44) && negb first) eqn:E.
      + intros [= <-]. apply andb_true_iff in E. rewrite Z.eqb_eq, negb_true_iff in E.
        destruct E as [-> ->]. exists w. rewrite <- app_assoc. auto.
      + destruct ((c =? 93) || (c =? 125)); [discriminate|].
        destruct first; [|discriminate]. intros [= <-]. exists w. auto. }
  assert (CLS : forall first s c r, p_next first s = NClose c r -> exists w, s = w ++ c :: r /\ Ws w).
  { intros first s c r E. apply p_next_close in E. destruct E as (_ & E & _).
    destruct (skip_ws_split s) as (w & Ew & Hw). rewrite E in Ew. exists w. auto. }
  split; [|split].
  - intros s t r HB. cbn [pval]. destruct (tok s) as [[ev s1]| |f] eqn:E; try discriminate.
    apply tok_sound in E; [|exact HB]. destruct E as (w & x & -> & Hw & Hx).
    apply Forall_app in HB. destruct HB as [_ HB]. apply Forall_app in HB. destruct HB as [_ HB].
    destruct ev; try (intros [= <- <-]; destruct Hx as (d & _ & H1 & H2); exists w, x, d; auto).
    + subst x. destruct (pitems n true s1) as [[l c] o] eqn:EI. intros [= <- ->].
      apply IHi in EI; [|exact HB].
      destruct EI as (-> & [(w1 & -> & Hw1 & ->)|(w1 & x & ds & -> & Hw1 & Hx & Ht)]).
      * exists w, (91 :: w1 ++ [93]), (DArr []). split; [cbn; rewrite <- app_assoc; reflexivity|].
        split; [exact Hw|]. split; [constructor; exact Hw1|reflexivity].
      * exists w, (91 :: x ++ [93]), (DArr ds). split; [cbn; rewrite <- app_assoc; reflexivity|].
        split; [exact Hw|]. split; [constructor; exact Hx|]. rewrite tree_of_arr, Ht. reflexivity.
    + subst x. destruct (pmembers n true s1) as [[l c] o] eqn:EI. intros [= <- ->].
      apply IHm in EI; [|exact HB].
      destruct EI as (-> & [(w1 & -> & Hw1 & ->)|(w1 & x & ds & -> & Hw1 & Hx & Ht)]).
      * exists w, (123 :: w1 ++ [125]), (DObj []). split; [cbn; rewrite <- app_assoc; reflexivity|].
        split; [exact Hw|]. split; [constructor; exact Hw1|reflexivity].
      * exists w, (123 :: x ++ [125]), (DObj ds). split; [cbn; rewrite <- app_assoc; reflexivity|].
        split; [exact Hw|]. split; [constructor; exact Hx|]. rewrite tree_of_obj, Ht. reflexivity.
  - intros first s l c r HB. cbn [pitems].
    destruct (p_next first s) as [s1|x t|] eqn:E; [| |discriminate].
    + apply NXT in E. destruct E as (w & -> & Hw). apply Forall_app in HB. destruct HB as [_ HB].
      destruct (pval n s1) as [t [r1|]] eqn:E1; [|discriminate].
      destruct (pitems n false r1) as [[l' c'] o] eqn:E2. intros [= <- <- ->].
      apply IHv in E1; [|exact HB]. destruct E1 as (w1 & x & d & -> & Hw1 & Hx & Ht).
      apply Forall_app in HB. destruct HB as [_ HB]. apply Forall_app in HB. destruct HB as [_ HB].
      apply IHi in E2; [|exact HB].
      destruct E2 as (-> & [(w2 & -> & Hw2 & ->)|(w2 & x2 & ds & -> & Hw2 & Hx2 & Ht2)]);
        (split; [reflexivity|right]).
      * destruct first.
        -- exists [], ((w ++ w1) ++ x ++ w2), [d].
           split; [repeat rewrite <- app_assoc; reflexivity|]. split; [constructor|].
           split; [constructor; try assumption; apply Forall_app; auto|].
           cbn [trees_of]. rewrite Ht. reflexivity.
        -- exists w, (w1 ++ x ++ w2), [d].
           split; [repeat rewrite <- app_assoc; reflexivity|]. split; [exact Hw|].
           split; [constructor; assumption|]. cbn [trees_of]. rewrite Ht. reflexivity.
      * destruct first.
        -- exists [], ((w ++ w1) ++ x ++ w2 ++ 44 :: x2), (d :: ds).
           split; [repeat (rewrite <- app_assoc; cbn [app]); reflexivity|]. split; [constructor|].
           split; [constructor; try assumption; apply Forall_app; auto|].
           cbn [trees_of]. rewrite Ht, Ht2. reflexivity.
        -- exists w, (w1 ++ x ++ w2 ++ 44 :: x2), (d :: ds).
           split; [repeat (rewrite <- app_assoc; cbn [app]); reflexivity|]. split; [exact Hw|].
           split; [constructor; assumption|]. cbn [trees_of]. rewrite Ht, Ht2. reflexivity.
    + apply CLS in E. destruct E as (w & -> & Hw).
      destruct (Z.eqb_spec x 93); [|discriminate]. intros [= <- <- <-]. subst x.
      split; [reflexivity|]. left. exists w. auto.
  - intros first s l c r HB. rewrite pmembers_S.
    destruct (p_next first s) as [s1|x t|] eqn:E; [| |discriminate].
    + apply NXT in E. destruct E as (w & -> & Hw). apply Forall_app in HB. destruct HB as [_ HB].
      unfold p_key. destruct (skip_ws_split s1) as (wk & Ek & Hwk).
      destruct (skip_ws s1) as [|ck s2]; [discriminate|].
      destruct (Z.eqb_spec ck 34); [|discriminate]. subst ck s1.
      apply Forall_app in HB. destruct HB as [_ HB]. apply Forall_cons_iff in HB. destruct HB as [_ HB].
      destruct (p_string s2) as [[k s3]|] eqn:EP; [|discriminate].
      apply p_string_sound in EP; [|exact HB]. destruct EP as (b & -> & Hb).
      apply Forall_app in HB. destruct HB as [_ HB]. apply Forall_cons_iff in HB. destruct HB as [_ HB].
      destruct (skip_ws_split s3) as (wc & Ec & Hwc).
      destruct (skip_ws s3) as [|cc s4]; [discriminate|].
      destruct (Z.eqb_spec cc 58); [|discriminate]. subst cc s3.
      apply Forall_app in HB. destruct HB as [_ HB]. apply Forall_cons_iff in HB. destruct HB as [_ HB].
      destruct (pval n s4) as [t [r1|]] eqn:E1; [|discriminate].
      destruct (pmembers n false r1) as [[l' c'] o] eqn:E2. intros [= <- <- ->].
      apply IHv in E1; [|exact HB]. destruct E1 as (w1 & x & d & -> & Hw1 & Hx & Ht).
      apply Forall_app in HB. destruct HB as [_ HB]. apply Forall_app in HB. destruct HB as [_ HB].
      apply IHm in E2; [|exact HB].
      assert (HK : StrText (34 :: b ++ [34]) k) by (exists b; auto).
      destruct E2 as (-> & [(w2 & -> & Hw2 & ->)|(w2 & x2 & ds & -> & Hw2 & Hx2 & Ht2)]);
        (split; [reflexivity|right]).
      * destruct first.
        -- exists [], ((w ++ wk) ++ (34 :: b ++ [34]) ++ wc ++ 58 :: w1 ++ x ++ w2), [(k, d)].
           split; [repeat (rewrite <- app_assoc; cbn [app]); reflexivity|]. split; [constructor|].
           split; [constructor; try assumption; apply Forall_app; auto|].
           cbn [mtrees_of]. rewrite Ht. reflexivity.
        -- exists w, (wk ++ (34 :: b ++ [34]) ++ wc ++ 58 :: w1 ++ x ++ w2), [(k, d)].
           split; [repeat (rewrite <- app_assoc; cbn [app]); reflexivity|]. split; [exact Hw|].
           split; [constructor; assumption|]. cbn [mtrees_of]. rewrite Ht. reflexivity.
      * destruct first.
        -- exists [], ((w ++ wk) ++ (34 :: b ++ [34]) ++ wc ++ 58 :: w1 ++ x ++ w2 ++ 44 :: x2), ((k, d) :: ds).
           split; [repeat (rewrite <- app_assoc; cbn [app]); reflexivity|]. split; [constructor|].
           split; [apply mt_cons; try assumption; apply Forall_app; auto|].
           cbn [mtrees_of]. rewrite Ht, Ht2. reflexivity.
        -- exists w, (wk ++ (34 :: b ++ [34]) ++ wc ++ 58 :: w1 ++ x ++ w2 ++ 44 :: x2), ((k, d) :: ds).
           split; [repeat (rewrite <- app_assoc; cbn [app]); reflexivity|]. split; [exact Hw|].
           split; [apply mt_cons; assumption|]. cbn [mtrees_of]. rewrite Ht, Ht2. reflexivity.
    + apply CLS in E. destruct E as (w & -> & Hw).
      destruct (Z.eqb_spec x 125); [|discriminate]. intros [= <- <- <-]. subst x.
      split; [reflexivity|]. left. exists w. auto.
Qed.

Lemma pv_sound s t r : Forall byte_le s -> pv s = (t, Some r) ->
  exists w x d, s = w ++ x ++ r /\ Ws w /\ VText d x /\ tree_of d = Some t.
Proof. apply (proj1 (parse_sound _)). Qed.

(** ** Completeness *)
(** What may follow a value: nothing, whitespace or a structural character. *)
Definition is_num (d : doc) : bool := match d with DNum _ => true | _ => false end.
Definition follow (d : doc) (r : bytes) : Prop := is_num d = true -> numend r = true.

(** First characters of values. *)
Lemma VText_head d x : VText d x -> exists c y, x = c :: y /\
  match d with
  | DNull => c = 110
  | DBool true => c = 116
  | DBool false => c = 102
  | DStr _ => c = 34
  | DNum _ => c = 45 \/ 48 <= c <= 57
  | DArr _ => c = 91
  | DObj _ => c = 123
  end.
Proof.
  intros [| | |s t (b & -> & H)|n t H|w H|l t H|w H|l t H]; try (eexists _, _; split; reflexivity).
  destruct H as [neg i f ft e et H1 H2 H3]. destruct neg.
  - exists 45. eexists. split; [reflexivity|auto].
  - destruct H1 as [|dd ds H1 H]; cbn [dtext map app]; eexists _, _; (split; [reflexivity|lia]).
Qed.
Lemma VText_head_ok d x : VText d x -> exists c y, x = c :: y /\ ~ ws_char c /\
  c <> 44 /\ c <> 93 /\ c <> 125 /\ c <> 58.
Proof.
  intros H. apply VText_head in H. destruct H as (c & y & -> & H). exists c, y. split; [reflexivity|].
  unfold ws_char. destruct d as [| [|] | | | |]; lia.
Qed.

Lemma tok_ws w s : Ws w -> tok (w ++ s) = tok s.
Proof. intros H. unfold tok. rewrite skip_ws_app by exact H. reflexivity. Qed.

Lemma tok_scalar d x r t : VText d x -> is_scalar d -> tree_of d = Some t -> follow d r ->
  exists ev, t = PLeaf ev /\ tok (x ++ r) = Ok (ev, r) /\ leaf_ev ev = true.
Proof.
  intros H HS HT HF. destruct H as [| | |s y (b & -> & H)|n y H|w H|l y H|w H|l y H]; try inversion HS; subst.
  - injection HT as <-. exists ENull. repeat split.
  - injection HT as <-. exists (EBool true). repeat split.
  - injection HT as <-. exists (EBool false). repeat split.
  - injection HT as <-. exists (EStr s). split; [reflexivity|]. split; [|reflexivity].
    unfold tok. cbn [app]. rewrite skip_ws_nonws by (unfold ws_char; lia).
    change (34 =? 34) with true. cbv iota. rewrite <- app_assoc. cbn [app].
    rewrite (p_string_complete _ _ _ H). reflexivity.
  - cbn [tree_of] in HT. specialize (HF eq_refl).
    destruct (lit_event n) as [ev| |] eqn:El; try discriminate. cbn in HT. injection HT as <-.
    exists ev. split; [reflexivity|]. split; [|eapply lit_event_leaf, El].
    destruct H as [neg i f ft e et H1 H2 H3].
    pose proof (p_unsigned_complete neg i f ft e et r H1 H2 H3 HF) as PU.
    unfold tok. destruct neg.
    + cbn [app]. rewrite skip_ws_nonws by (unfold ws_char; lia). cbn [Z.eqb Pos.eqb is_digit Z.leb Z.compare Pos.compare Pos.compare_cont andb].
      repeat rewrite <- app_assoc. rewrite PU. rewrite El. reflexivity.
    + cbn [app]. repeat rewrite <- app_assoc.
      assert (exists c z, dtext i ++ ft ++ et ++ r = c :: z /\ 48 <= c <= 57) as (c & z & E & Hc).
      { destruct H1 as [|d ds H1 H]; cbn [dtext map app]; eexists _, _; (split; [reflexivity|lia]). }
      rewrite E in *. rewrite skip_ws_nonws by (unfold ws_char; lia).
      rewrite (proj2 (Z.eqb_neq c 34)) by lia. rewrite (proj2 (is_digit_range c)) by lia.
      rewrite PU, El. reflexivity.
Qed.

Lemma pv_scalar d x r t w : VText d x -> is_scalar d -> tree_of d = Some t -> follow d r -> Ws w ->
  pv (w ++ x ++ r) = (t, Some r).
Proof.
  intros H HS HT HF Hw. destruct (tok_scalar _ _ _ _ H HS HT HF) as (ev & -> & E & Hl).
  rewrite pv_eq, tok_ws, E by exact Hw. destruct ev; reflexivity || discriminate.
Qed.

Lemma p_next_item_true w c s : Ws w -> ~ ws_char c -> c <> 93 -> c <> 125 ->
  p_next true (w ++ c :: s) = NItem (c :: s).
Proof.
  intros Hw H1 H2 H3. unfold p_next. rewrite skip_ws_app, skip_ws_nonws by assumption.
  rewrite andb_false_r. rewrite (proj2 (Z.eqb_neq c 93)), (proj2 (Z.eqb_neq c 125)) by assumption.
  reflexivity.
Qed.
Lemma p_next_comma w s : Ws w -> p_next false (w ++ 44 :: s) = NItem s.
Proof.
  intros Hw. unfold p_next. rewrite skip_ws_app, skip_ws_nonws by (assumption || unfold ws_char; lia).
  reflexivity.
Qed.
Lemma p_next_close_ws first w c s : Ws w -> c = 93 \/ c = 125 ->
  p_next first (w ++ c :: s) = NClose c s.
Proof.
  intros Hw Hc. unfold p_next.
  rewrite skip_ws_app, skip_ws_nonws by (assumption || unfold ws_char; lia).
  destruct Hc as [-> | ->]; destruct first; reflexivity.
Qed.

Lemma follow_ws d w r : Ws w -> follow d r -> follow d (w ++ r).
Proof.
  intros Hw Hr Hd. destruct Hw as [|c w Hc Hw]; [apply Hr, Hd|].
  cbn [app numend]. apply negb_true_iff. unfold is_digit, is_e. destruct Hc as [-> | [-> | [-> | ->]]]; reflexivity.
Qed.
Lemma follow_char d c r : c = 44 \/ c = 93 \/ c = 125 -> follow d (c :: r).
Proof.
  intros H Hd. cbn [numend]. destruct H as [-> | [-> | ->]]; reflexivity.
Qed.
Lemma follow_ws_end d w : Ws w -> follow d w.
Proof.
  intros Hw. rewrite <- (app_nil_r w). apply follow_ws; [exact Hw|]. intros _. reflexivity.
Qed.

Lemma pi_item w d x rest t r :
  Ws w -> VText d x ->
  pv (x ++ rest) = (t, Some r) ->
  pi true (w ++ x ++ rest) = let '(l, c, o) := pi false r in (t :: l, c, o).
Proof.
  intros Hw Hx E. apply VText_head_ok in Hx. destruct Hx as (c & y & -> & N1 & N2 & N3 & N4 & N5).
  rewrite pi_eq. change ((c :: y) ++ rest) with (c :: (y ++ rest)) in *.
  rewrite p_next_item_true by assumption. rewrite E. reflexivity.
Qed.

Lemma p_key_complete w1 kt k w2 s : Ws w1 -> StrText kt k -> Ws w2 ->
  p_key (w1 ++ kt ++ w2 ++ 58 :: s) = Some (k, Some s).
Proof.
  intros H1 (b & -> & Hb) H2. unfold p_key. rewrite skip_ws_app by exact H1.
  cbn [app]. rewrite skip_ws_nonws by (unfold ws_char; lia). change (34 =? 34) with true. cbv iota.
  rewrite <- app_assoc. cbn [app]. rewrite (p_string_complete _ _ _ Hb).
  rewrite skip_ws_app by exact H2. rewrite skip_ws_nonws by (unfold ws_char; lia).
  reflexivity.
Qed.

Lemma trees_cons d l ts : trees_of (d :: l) = Some ts ->
  exists t ts', ts = t :: ts' /\ tree_of d = Some t /\ trees_of l = Some ts'.
Proof.
  cbn [trees_of]. destruct (tree_of d), (trees_of l); try discriminate. intros [= <-]. eauto.
Qed.
Lemma mtrees_cons k d l ts : mtrees_of ((k, d) :: l) = Some ts ->
  exists t ts', ts = (k, t) :: ts' /\ tree_of d = Some t /\ mtrees_of l = Some ts'.
Proof.
  cbn [mtrees_of]. destruct (tree_of d), (mtrees_of l); try discriminate. intros [= <-]. eauto.
Qed.

Lemma pi_false_close w r : Ws w -> pi false (w ++ 93 :: r) = ([], true, Some r).
Proof. intros H. rewrite pi_eq, p_next_close_ws by auto. reflexivity. Qed.
Lemma pm_false_close w r : Ws w -> pm false (w ++ 125 :: r) = ([], true, Some r).
Proof. intros H. rewrite pm_eq, p_next_close_ws by auto. reflexivity. Qed.

Lemma parse_complete_text :
  (forall d x, VText d x -> forall t w r, tree_of d = Some t -> follow d r -> Ws w ->
     pv (w ++ x ++ r) = (t, Some r)) /\
  (forall l x, EText l x -> forall ts r, trees_of l = Some ts ->
     pi true (x ++ 93 :: r) = (ts, true, Some r) /\
     (forall w, Ws w -> pi false (w ++ 44 :: x ++ 93 :: r) = (ts, true, Some r))) /\
  (forall l x, MText l x -> forall ts r, mtrees_of l = Some ts ->
     pm true (x ++ 125 :: r) = (ts, true, Some r) /\
     (forall w, Ws w -> pm false (w ++ 44 :: x ++ 125 :: r) = (ts, true, Some r))).
Proof.
  apply Text_mutind.
  - intros t w r HT HF Hw. apply (pv_scalar DNull); try assumption; constructor.
  - intros t w r HT HF Hw. apply (pv_scalar (DBool true)); try assumption; constructor.
  - intros t w r HT HF Hw. apply (pv_scalar (DBool false)); try assumption; constructor.
  - intros s x Hs t w r HT HF Hw. apply (pv_scalar (DStr s)); try assumption; constructor; assumption.
  - intros n x Hn t w r HT HF Hw. apply (pv_scalar (DNum n)); try assumption; constructor; assumption.
  - (* [] *) intros w0 Hw0 t w r HT HF Hw. injection HT as <-.
    rewrite pv_eq, tok_ws by exact Hw. cbn [app]. 
    change (tok (91 :: (w0 ++ [93]) ++ r)) with (Ok (ESeqStart, (w0 ++ [93]) ++ r)).
    cbv iota beta. rewrite <- app_assoc. cbn [app].
    rewrite pi_eq, p_next_close_ws by auto. reflexivity.
  - (* array *) intros l x _ IH t w r HT HF Hw.
    rewrite tree_of_arr in HT. destruct (trees_of l) as [ts|] eqn:ET; [|discriminate].
    injection HT as <-.
    rewrite pv_eq, tok_ws by exact Hw. cbn [app]. 
    change (tok (91 :: (x ++ [93]) ++ r)) with (Ok (ESeqStart, (x ++ [93]) ++ r)).
    cbv iota beta. rewrite <- app_assoc. cbn [app].
    rewrite (proj1 (IH ts r eq_refl)). reflexivity.
  - (* {} *) intros w0 Hw0 t w r HT HF Hw. injection HT as <-.
    rewrite pv_eq, tok_ws by exact Hw. cbn [app]. 
    change (tok (123 :: (w0 ++ [125]) ++ r)) with (Ok (EMapStart, (w0 ++ [125]) ++ r)).
    cbv iota beta. rewrite <- app_assoc. cbn [app].
    rewrite pm_eq, p_next_close_ws by auto. reflexivity.
  - (* object *) intros l x _ IH t w r HT HF Hw.
    rewrite tree_of_obj in HT. destruct (mtrees_of l) as [ts|] eqn:ET; [|discriminate].
    injection HT as <-.
    rewrite pv_eq, tok_ws by exact Hw. cbn [app]. 
    change (tok (123 :: (x ++ [125]) ++ r)) with (Ok (EMapStart, (x ++ [125]) ++ r)).
    cbv iota beta. rewrite <- app_assoc. cbn [app].
    rewrite (proj1 (IH ts r eq_refl)). reflexivity.
  - (* one element *) intros d w1 x w2 Hw1 Hx IH Hw2 ts r HT.
    apply trees_cons in HT. destruct HT as (t & ts' & -> & Ht & HT). injection HT as <-.
    assert (EV : forall w, Ws w -> pv (w ++ x ++ w2 ++ 93 :: r) = (t, Some (w2 ++ 93 :: r))).
    { intros w Hw. apply IH; [exact Ht| |exact Hw]. apply follow_ws; [exact Hw2|].
      apply follow_char. auto. }
    split.
    + repeat rewrite <- app_assoc. 
      rewrite (pi_item w1 d x (w2 ++ 93 :: r) t _ Hw1 Hx (EV [] (Forall_nil _))).
      rewrite pi_false_close by exact Hw2. reflexivity.
    + intros w Hw. repeat rewrite <- app_assoc. rewrite pi_eq, p_next_comma by exact Hw.
      rewrite EV by exact Hw1. rewrite pi_false_close by exact Hw2. reflexivity.
  - (* more elements *) intros d w1 x w2 l ys Hw1 Hx IH Hw2 _ IHl ts r HT.
    apply trees_cons in HT. destruct HT as (t & ts' & -> & Ht & HT).
    destruct (IHl ts' r HT) as [_ IH2].
    assert (EV : forall w, Ws w -> pv (w ++ x ++ w2 ++ 44 :: ys ++ 93 :: r) = (t, Some (w2 ++ 44 :: ys ++ 93 :: r))).
    { intros w Hw. apply IH; [exact Ht| |exact Hw]. apply follow_ws; [exact Hw2|].
      apply follow_char. auto. }
    split.
    + repeat (rewrite <- app_assoc; cbn [app]).
      rewrite (pi_item w1 d x (w2 ++ 44 :: ys ++ 93 :: r) t _ Hw1 Hx (EV [] (Forall_nil _))).
      rewrite IH2 by exact Hw2. reflexivity.
    + intros w Hw. repeat (rewrite <- app_assoc; cbn [app]). rewrite pi_eq, p_next_comma by exact Hw.
      rewrite EV by exact Hw1. rewrite IH2 by exact Hw2. reflexivity.
  - (* one member *) intros k d w1 kt w2 w3 x w4 Hw1 Hk Hw2 Hw3 Hx IH Hw4 ts r HT.
    apply mtrees_cons in HT. destruct HT as (t & ts' & -> & Ht & HT). injection HT as <-.
    assert (EV : pv (w3 ++ x ++ w4 ++ 125 :: r) = (t, Some (w4 ++ 125 :: r))).
    { apply IH; [exact Ht| |exact Hw3]. apply follow_ws; [exact Hw4|]. apply follow_char. auto. }
    split.
    + repeat (rewrite <- app_assoc; cbn [app]). rewrite pm_eq.
      pose proof Hk as (b & Ekt & Hb).
      pose proof (p_key_complete [] kt k w2 (w3 ++ x ++ w4 ++ 125 :: r) (Forall_nil _) Hk Hw2) as PK.
      rewrite Ekt in PK |- *. cbn [app] in PK |- *.
      rewrite p_next_item_true by (assumption || unfold ws_char; lia).
      rewrite PK, EV. rewrite pm_false_close by exact Hw4. reflexivity.
    + intros w Hw. repeat (rewrite <- app_assoc; cbn [app]). rewrite pm_eq, p_next_comma by exact Hw.
      rewrite (p_key_complete w1 kt k w2) by assumption.
      rewrite EV. rewrite pm_false_close by exact Hw4. reflexivity.
  - (* more members *) intros k d w1 kt w2 w3 x w4 l ys Hw1 Hk Hw2 Hw3 Hx IH Hw4 _ IHl ts r HT.
    apply mtrees_cons in HT. destruct HT as (t & ts' & -> & Ht & HT).
    destruct (IHl ts' r HT) as [_ IH2].
    assert (EV : pv (w3 ++ x ++ w4 ++ 44 :: ys ++ 125 :: r) = (t, Some (w4 ++ 44 :: ys ++ 125 :: r))).
    { apply IH; [exact Ht| |exact Hw3]. apply follow_ws; [exact Hw4|]. apply follow_char. auto. }
    split.
    + repeat (rewrite <- app_assoc; cbn [app]). rewrite pm_eq.
      pose proof Hk as (b & Ekt & Hb).
      pose proof (p_key_complete [] kt k w2 (w3 ++ x ++ w4 ++ 44 :: ys ++ 125 :: r) (Forall_nil _) Hk Hw2) as PK.
      rewrite Ekt in PK |- *. cbn [app] in PK |- *.
      rewrite p_next_item_true by (assumption || unfold ws_char; lia).
      rewrite PK, EV. rewrite IH2 by exact Hw4. reflexivity.
    + intros w Hw. repeat (rewrite <- app_assoc; cbn [app]). rewrite pm_eq, p_next_comma by exact Hw.
      rewrite (p_key_complete w1 kt k w2) by assumption.
      rewrite EV. rewrite IH2 by exact Hw4. reflexivity.
Qed.

(** ** Texts *)
Lemma pv_text d s t : JText d s -> tree_of d = Some t ->
  exists r, pv s = (t, Some r) /\ Ws r.
Proof.
  intros (w1 & x & w2 & -> & H1 & Hx & H2) HT. exists w2. split; [|exact H2].
  apply (proj1 parse_complete_text d x Hx); [exact HT|apply follow_ws_end, H2|exact H1].
Qed.
Lemma pv_text_inv s t r : Forall byte_le s -> pv s = (t, Some r) -> Ws r ->
  exists d, JText d s /\ tree_of d = Some t.
Proof.
  intros HB E Hr. apply pv_sound in E; [|exact HB]. destruct E as (w & x & d & -> & Hw & Hx & Ht).
  exists d. split; [|exact Ht]. exists w, x, r. auto.
Qed.
