(** Reading a longer text begins like reading the shorter one. *)
From Coq Require Import String ZArith List Bool Lia Floats.SpecFloat.
From Verif Require Import Base Utf8 Utf8Facts F64 Lexer Driver Grammar LexSpec LexFacts RunFacts LexNumFacts Tree TreeFacts DriverFacts
  GrammarFacts ParseSpec ParseFacts.
Import ListNotations.
Open Scope Z_scope.

(** ** The lexer on a longer input *)
Section App.
Variable x : bytes.

Lemma skip_ws_app s c t : skip_ws s = c :: t -> skip_ws (s ++ x) = c :: t ++ x.
Proof.
  induction s as [|a s IH]; cbn [skip_ws app]; [discriminate|]. destruct (is_ws a); [exact IH|]. intros [= -> ->]. reflexivity.
Qed.
Lemma p_hex_app k : forall n s m r, p_hex k n s = Some (m, r) -> p_hex k n (s ++ x) = Some (m, r ++ x).
Proof.
  induction k as [|k IH]; intros n s m r; cbn [p_hex].
  - intros [= -> ->]. reflexivity.
  - destruct s as [|c s]; [discriminate|]. cbn [app]. destruct (hexval c); [apply IH|discriminate].
Qed.
Lemma p_uni_app s t r : p_uni s = Some (t, r) -> p_uni (s ++ x) = Some (t, r ++ x).
Proof.
  unfold p_uni. destruct (p_hex 4 0 s) as [[n1 s1]|] eqn:E; [|discriminate]. rewrite (p_hex_app _ _ _ _ _ E).
  destruct ((56320 <=? n1) && (n1 <=? 57343)); [discriminate|]. destruct ((55296 <=? n1) && (n1 <=? 56319)).
  - destruct s1 as [|a [|b s2]]; try discriminate. cbn [app]. destruct ((a =? 92) && (b =? 117)); [|discriminate].
    destruct (p_hex 4 0 s2) as [[n2 s3]|] eqn:E2; [|discriminate]. rewrite (p_hex_app _ _ _ _ _ E2).
    destruct ((56320 <=? n2) && (n2 <=? 57343)); [|discriminate]. intros [= <- <-]. reflexivity.
  - intros [= <- <-]. reflexivity.
Qed.
Lemma p_esc_app s t r : p_esc s = Some (t, r) -> p_esc (s ++ x) = Some (t, r ++ x).
Proof.
  destruct s as [|c s]; [discriminate|]. cbn [p_esc app]. destruct (short_esc c).
  - intros [= <- <-]. reflexivity.
  - destruct (c =? 117); [apply p_uni_app|discriminate].
Qed.
Lemma p_str_app f : forall f' s t r, (f <= f')%nat -> p_str f s = Some (t, r) -> p_str f' (s ++ x) = Some (t, r ++ x).
Proof.
  induction f as [|f IH]; intros f' s t r L; [discriminate|]. destruct f' as [|f']; [lia|].
  destruct s as [|c s]; [discriminate|]. cbn [p_str app]. destruct (c =? 34); [intros [= <- <-]; reflexivity|].
  destruct (c =? 92).
  - destruct (p_esc s) as [[y r1]|] eqn:E; [|discriminate]. rewrite (p_esc_app _ _ _ E).
    destruct (p_str f r1) as [[u r2]|] eqn:E2; [|discriminate]. rewrite (IH f' _ _ _ ltac:(lia) E2). intros [= <- <-]. reflexivity.
  - destruct (c <? 32); [discriminate|]. destruct (p_str f s) as [[u r2]|] eqn:E2; [|discriminate].
    rewrite (IH f' _ _ _ ltac:(lia) E2). intros [= <- <-]. reflexivity.
Qed.
Lemma p_string_app s t r : p_string s = Some (t, r) -> p_string (s ++ x) = Some (t, r ++ x).
Proof. apply p_str_app. rewrite app_length. lia. Qed.
Lemma p_ident_app i : forall s r, p_ident i s = Some r -> p_ident i (s ++ x) = Some (r ++ x).
Proof.
  induction i as [|c i IH]; intros s r; cbn [p_ident]; [intros [= ->]; reflexivity|].
  destruct s as [|a s]; [discriminate|]. cbn [app]. destruct (a =? c); [apply IH|discriminate].
Qed.

(** Either something is left, or the rest does not continue a number. *)
Definition fin (r : bytes) : Prop := r <> [] \/ numend x = true.
Lemma fin_digit r : fin r -> starts_digit r = false -> starts_digit (r ++ x) = false.
Proof. intros [H|H] D; [destruct r; [congruence|exact D]|]. destruct r; [apply numend_facts, H|exact D]. Qed.
Lemma scan_digits_app s : forall ds r, scan_digits s = (ds, r) -> fin r -> scan_digits (s ++ x) = (ds, r ++ x).
Proof.
  induction s as [|c s IH]; intros ds r; cbn [scan_digits app].
  - intros [= <- <-] [C|N]; [congruence|]. apply numend_facts in N. destruct N as (N & _). cbn [app].
    destruct x as [|d y]; [reflexivity|]. cbn [scan_digits]. cbn [starts_digit] in N. rewrite N. reflexivity.
  - destruct (is_digit c).
    + destruct (scan_digits s) as [ds' r']. intros [= <- <-] F. rewrite (IH ds' r' eq_refl F). reflexivity.
    + intros [= <- <-] _. reflexivity.
Qed.
Lemma scan_len s ds r : scan_digits s = (ds, r) -> s = [] -> r = [].
Proof. intros E ->. cbn in E. congruence. Qed.
Lemma p_int_app s i r : p_int s = Some (i, r) -> fin r -> p_int (s ++ x) = Some (i, r ++ x).
Proof.
  destruct s as [|c s]; [discriminate|]. cbn [p_int app]. destruct (c =? 48).
  - destruct (starts_digit s) eqn:D; [discriminate|]. intros [= <- <-] F. rewrite fin_digit by assumption. reflexivity.
  - destruct (is_digit19 c); [|discriminate]. intros [= E] F.
    rewrite <- (scan_digits_app (c :: s) i r E F). reflexivity.
Qed.
Lemma p_frac_app s i r : p_frac s = Some (i, r) -> fin r -> p_frac (s ++ x) = Some (i, r ++ x).
Proof.
  destruct s as [|c s]; cbn [p_frac app].
  - intros [= <- <-] [C|N]; [congruence|]. apply numend_facts in N. destruct N as (_ & N & _). destruct x as [|d y]; [reflexivity|].
    cbn [p_frac app]. destruct (Z.eqb_spec d 46); [contradiction|reflexivity].
  - destruct (c =? 46); [|intros [= <- <-]; reflexivity]. destruct (scan_digits s) as [[|d ds] r'] eqn:E; [discriminate|].
    intros [= <- <-] F. rewrite (scan_digits_app s _ _ E F). reflexivity.
Qed.
Lemma p_exp_app s i r : p_exp s = Some (i, r) -> fin r -> p_exp (s ++ x) = Some (i, r ++ x).
Proof.
  destruct s as [|c s]; cbn [p_exp app].
  - intros [= <- <-] [C|N]; [congruence|]. apply numend_facts in N. destruct N as (_ & _ & N). destruct x as [|d y]; [reflexivity|].
    cbn [p_exp app]. cbn [hd0] in N. rewrite N. reflexivity.
  - destruct (is_e c); [|intros [= <- <-]; reflexivity].
    assert (SG : s <> [] -> p_sign (s ++ x) = (fst (p_sign s), snd (p_sign s) ++ x)).
    { destruct s as [|a s]; [congruence|]. intros _. cbn [p_sign app]. destruct (a =? 43); [reflexivity|]. destruct (a =? 45); reflexivity. }
    destruct s as [|a s]; [cbn; discriminate|]. rewrite SG by congruence. destruct (p_sign (a :: s)) as [sg r1]. cbn [fst snd].
    destruct (scan_digits r1) as [[|d ds] r'] eqn:E; [discriminate|].
    intros [= <- <-] F. rewrite (scan_digits_app r1 _ _ E F). reflexivity.
Qed.
Lemma p_frac_left s i r : p_frac s = Some (i, r) -> r <> [] -> s <> [].
Proof. destruct s; [cbn; congruence|congruence]. Qed.
Lemma p_exp_left s i r : p_exp s = Some (i, r) -> r <> [] -> s <> [].
Proof. destruct s; [cbn; congruence|congruence]. Qed.
Lemma p_unsigned_app neg s n r : p_unsigned neg s = Some (n, r) -> fin r -> p_unsigned neg (s ++ x) = Some (n, r ++ x).
Proof.
  unfold p_unsigned. destruct (p_int s) as [[i s1]|] eqn:E1; [|discriminate].
  destruct (p_frac s1) as [[f s2]|] eqn:E2; [|discriminate]. destruct (p_exp s2) as [[e s3]|] eqn:E3; [|discriminate].
  intros [= <- <-] F. assert (F2 : fin s2) by (destruct F; [left; eapply p_exp_left; eassumption|right; assumption]).
  assert (F1 : fin s1) by (destruct F2; [left; eapply p_frac_left; eassumption|right; assumption]).
  rewrite (p_int_app _ _ _ E1 F1), (p_frac_app _ _ _ E2 F2), (p_exp_app _ _ _ E3 F). reflexivity.
Qed.
(** A number that ends its text ends in a digit. *)
Definition ends_digit (s : bytes) : bool := is_digit (List.last s 0).
Lemma scan_ends s : forall d ds, scan_digits s = (d :: ds, []) -> ends_digit s = true.
Proof.
  induction s as [|c s IH]; intros d ds; cbn [scan_digits]; [discriminate|].
  destruct (is_digit c) eqn:D; [|discriminate]. destruct (scan_digits s) as [[|d' ds'] r'] eqn:E; intros [= <- <- ->].
  - assert (s = []) as ->. { destruct s as [|a s]; [reflexivity|]. cbn [scan_digits] in E. destruct (is_digit a); [destruct (scan_digits s); discriminate|discriminate]. }
    exact D.
  - specialize (IH _ _ eq_refl). unfold ends_digit in *. cbn [List.last]. destruct s; [discriminate|exact IH].
Qed.
Lemma last_app_ne (a b : bytes) : b <> [] -> List.last (a ++ b) 0 = List.last b 0.
Proof.
  intros H. induction a as [|c a IH]; [reflexivity|]. cbn [app List.last]. destruct (a ++ b) eqn:E; [|exact IH].
  apply app_eq_nil in E. destruct E as [_ ->]. congruence.
Qed.
Lemma p_unsigned_ends neg s n : p_unsigned neg s = Some (n, []) -> ends_digit s = true.
Proof.
  intros H. apply p_unsigned_sound in H. destruct H as (t & E & HT & NN). rewrite app_nil_r in E.
  inversion HT as [ng i f ft e et Hi Hf He En Et]. rewrite <- En in NN. cbn [n_neg] in NN. subst ng. rewrite <- Et in E.
  apply app_inv_head in E. subst s. clear HT En Et. unfold ends_digit.
  assert (D : forall d ds, Forall digit (d :: ds) -> is_digit (List.last (dtext (d :: ds)) 0) = true).
  { intros d ds H. revert d H. induction ds as [|d' ds IH]; intros d H; inversion H; subst.
    - change (List.last (dtext [d]) 0) with (48 + d). unfold is_digit, digit in *. apply andb_true_iff. split; apply Z.leb_le; lia.
    - apply (IH d'). assumption. }
  destruct He as [|e sg st d ds Ee HG HD].
  - rewrite app_nil_r. destruct Hf as [|d ds HD].
    + rewrite app_nil_r. destruct Hi; apply D; constructor; try assumption; try constructor; unfold digit; lia.
    + rewrite last_app_ne by (intros C; discriminate C). apply (D d ds HD).
  - rewrite app_assoc, last_app_ne by (intros C; discriminate C).
    change (e :: st ++ dtext (d :: ds)) with ((e :: st) ++ dtext (d :: ds)). rewrite last_app_ne by (intros C; discriminate C). apply D, HD.
Qed.

(** The two texts meet at a token boundary: the first does not end in a digit or the
    second does not continue a number. *)
Definition meet (s : bytes) : Prop := ends_digit s = false \/ numend x = true.
Lemma meet_suffix a s : meet (a ++ s) -> meet s.
Proof.
  intros [H|H]; [|right; exact H]. destruct s as [|c s]; [left; reflexivity|]. left. unfold ends_digit in *.
  rewrite last_app_ne in H by discriminate. exact H.
Qed.
Lemma tok_app s ev r : meet s -> tok s = Ok (ev, r) -> tok (s ++ x) = Ok (ev, r ++ x).
Proof.
  intros M. unfold tok. destruct (skip_ws_suffix s) as (w & Ew & _).
  destruct (skip_ws s) as [|c t] eqn:EW; [discriminate|]. rewrite (skip_ws_app _ _ _ EW).
  rewrite Ew in M. apply meet_suffix in M.
  assert (NUM : forall neg u, meet u ->
    match p_unsigned neg u with Some (n, q) => with_rest (lit_event n) q | None => Err end = Ok (ev, r) ->
    match p_unsigned neg (u ++ x) with Some (n, q) => with_rest (lit_event n) q | None => Err end = Ok (ev, r ++ x)).
  { intros neg u Mu. destruct (p_unsigned neg u) as [[n q]|] eqn:E; [|discriminate]. unfold with_rest.
    destruct (lit_event n) as [e| |] eqn:EL; try discriminate. cbn [bind]. intros [= <- <-].
    rewrite (p_unsigned_app neg u n q E).
    - rewrite EL. reflexivity.
    - destruct q as [|a q]; [right|left; discriminate]. apply p_unsigned_ends in E. destruct Mu; congruence. }
  destruct (c =? 34).
  { destruct (p_string t) as [[y q]|] eqn:E; [|discriminate]. intros [= <- <-]. rewrite (p_string_app _ _ _ E). reflexivity. }
  destruct (is_digit c). { exact (NUM false (c :: t) M). }
  destruct (c =? 45). { apply NUM. apply (meet_suffix [c] t), M. }
  destruct (c =? 123); [intros [= <- <-]; reflexivity|]. destruct (c =? 91); [intros [= <- <-]; reflexivity|].
  destruct (c =? 110); [|destruct (c =? 116); [|destruct (c =? 102); [|discriminate]]];
    (match goal with |- context [p_ident ?i t] => destruct (p_ident i t) as [q|] eqn:E end; [|discriminate];
     intros [= <- <-]; rewrite (p_ident_app _ _ _ E); reflexivity).
Qed.
Lemma p_key_app s k s4 : p_key s = Some (k, s4) ->
  match s4 with
  | Some r => p_key (s ++ x) = Some (k, Some (r ++ x))
  | None => exists o, p_key (s ++ x) = Some (k, o)
  end.
Proof.
  unfold p_key. destruct (skip_ws s) as [|c t] eqn:EW; [discriminate|]. rewrite (skip_ws_app _ _ _ EW).
  destruct (c =? 34); [|discriminate]. destruct (p_string t) as [[y q]|] eqn:E; [|discriminate]. rewrite (p_string_app _ _ _ E).
  destruct (skip_ws q) as [|c' t'] eqn:EW2.
  - intros [= <- <-]. destruct (skip_ws (q ++ x)) as [|a b]; [eauto|]. destruct (a =? 58); eauto.
  - rewrite (skip_ws_app _ _ _ EW2). destruct (c' =? 58); intros [= <- <-]; eauto.
Qed.

(** ** Trees that are cut short *)
Inductive Cut : ptree -> ptree -> Prop :=
| cut_bad t : Cut PBad t
| cut_seq l l' c : CutItems l l' -> Cut (PSeq l false) (PSeq l' c)
| cut_map l l' c : CutMembers l l' -> Cut (PMap l false) (PMap l' c)
with CutItems : list ptree -> list ptree -> Prop :=
| ci_nil l' : CutItems [] l'
| ci_open l' : CutItems [PBad] l'
| ci_last t t' l' : Cut t t' -> CutItems [t] (t' :: l')
| ci_cons t l l' : CutItems l l' -> CutItems (t :: l) (t :: l')
with CutMembers : list (bytes * ptree) -> list (bytes * ptree) -> Prop :=
| cm_nil l' : CutMembers [] l'
| cm_last k t t' l' : Cut t t' -> CutMembers [(k, t)] ((k, t') :: l')
| cm_cons k t l l' : CutMembers l l' -> CutMembers ((k, t) :: l) ((k, t) :: l').

Definition cut_val (a b : ptree * option bytes) : Prop :=
  match snd a with Some r => b = (fst a, Some (r ++ x)) | None => Cut (fst a) (fst b) end.
Definition cut_list {A} (C : list A -> list A -> Prop) (a b : list A * bool * option bytes) : Prop :=
  match snd a with
  | Some r => b = (fst a, Some (r ++ x))
  | None => snd (fst a) = false /\ C (fst (fst a)) (fst (fst b))
  end.
Lemma p_next_app first s :
  match p_next first s with
  | NItem [] => True
  | NItem r => p_next first (s ++ x) = NItem (r ++ x)
  | NClose c r => p_next first (s ++ x) = NClose c (r ++ x)
  | NBroken => True
  end.
Proof.
  unfold p_next. destruct (skip_ws s) as [|c t] eqn:EW; [destruct first; exact I|]. rewrite (skip_ws_app _ _ _ EW).
  destruct ((c =? 44) && negb first); [destruct t; [exact I|reflexivity]|]. destruct ((c =? 93) || (c =? 125)); [reflexivity|].
  destruct first; [reflexivity|exact I].
Qed.
Lemma meet_consumes0 s r : consumes0 s r -> meet s -> meet r.
Proof. intros [->|[(h & -> & _) _]] M; [exact M|]. eapply meet_suffix, M. Qed.
Lemma pval_nil n : pval n [] = (PBad, None).
Proof. destruct n; reflexivity. Qed.

Lemma parse_cut n :
  (forall m s, (n <= m)%nat -> meet s -> cut_val (pval n s) (pval m (s ++ x))) /\
  (forall m first s, (n <= m)%nat -> meet s -> cut_list CutItems (pitems n first s) (pitems m first (s ++ x))) /\
  (forall m first s, (n <= m)%nat -> meet s -> cut_list CutMembers (pmembers n first s) (pmembers m first (s ++ x))).
Proof.
  induction n as [|n (IHv & IHi & IHm)].
  { split; [|split]; intros; [constructor|split; [reflexivity|constructor]|split; [reflexivity|constructor]]. }
  split; [|split].
  - intros [|m] s L M; [lia|]. cbn [pval]. destruct (tok s) as [[ev s1]| |] eqn:E.
    + rewrite (tok_app s ev s1 M E). apply tok_consumes in E. pose proof (meet_consumes0 s s1 (consumes_0 _ _ E) M) as M1.
      destruct ev; try reflexivity.
      * specialize (IHi m true s1 ltac:(lia) M1). unfold cut_list in IHi. destruct (pitems n true s1) as [[l c] o]. cbn [fst snd] in IHi.
        destruct o as [r|]; [rewrite IHi; reflexivity|]. destruct IHi as [-> IHi]. destruct (pitems m true (s1 ++ x)) as [[l' c'] o'].
        cbn [fst snd] in *. apply cut_seq, IHi.
      * specialize (IHm m true s1 ltac:(lia) M1). unfold cut_list in IHm. destruct (pmembers n true s1) as [[l c] o]. cbn [fst snd] in IHm.
        destruct o as [r|]; [rewrite IHm; reflexivity|]. destruct IHm as [-> IHm]. destruct (pmembers m true (s1 ++ x)) as [[l' c'] o'].
        cbn [fst snd] in *. apply cut_map, IHm.
    + apply cut_bad.
    + apply cut_bad.
  - intros [|m] first s L M; [lia|]. cbn [pitems]. pose proof (p_next_app first s) as PA.
    destruct (p_next first s) as [s1|c r|] eqn:E; [| |split; [reflexivity|constructor]].
    + apply p_next_item in E. destruct E as [E _]. pose proof (meet_consumes0 s s1 E M) as M1.
      destruct s1 as [|a s1]. { rewrite pval_nil. split; [reflexivity|apply ci_open]. }
      rewrite PA. specialize (IHv m (a :: s1) ltac:(lia) M1). unfold cut_val in IHv.
      destruct (pval n (a :: s1)) as [t [r|]] eqn:EV; cbn [fst snd] in IHv.
      * rewrite IHv. pose proof (proj1 (parse_consumes n) _ _ _ EV) as K. pose proof (meet_consumes0 _ r (consumes_0 _ _ K) M1) as M2.
        specialize (IHi m false r ltac:(lia) M2). unfold cut_list in *. destruct (pitems n false r) as [[l c] o]. cbn [fst snd] in *.
        destruct o as [q|]; [rewrite IHi; reflexivity|]. destruct IHi as [-> IHi]. destruct (pitems m false (r ++ x)) as [[l' c'] o'].
        cbn [fst snd] in *. split; [reflexivity|apply ci_cons, IHi].
      * destruct (pval m ((a :: s1) ++ x)) as [t' o']. cbn [fst] in IHv.
        destruct o' as [r'|]; [destruct (pitems m false r') as [[l' c'] o'']|]; (split; [reflexivity|apply ci_last, IHv]).
    + rewrite PA. destruct (c =? 93); [reflexivity|]. split; [reflexivity|constructor].
  - intros [|m] first s L M; [lia|]. rewrite !pmembers_S. pose proof (p_next_app first s) as PA.
    destruct (p_next first s) as [s1|c r|] eqn:E; [| |split; [reflexivity|constructor]].
    + apply p_next_item in E. destruct E as [E _]. pose proof (meet_consumes0 s s1 E M) as M1.
      destruct s1 as [|a s1]. { change (p_key []) with (@None (bytes * option bytes)). cbv iota. split; [reflexivity|constructor]. }
      rewrite PA. destruct (p_key (a :: s1)) as [[k s4]|] eqn:EK; [|split; [reflexivity|constructor]].
      pose proof (p_key_app _ _ _ EK) as KA. destruct s4 as [s4|].
      * rewrite KA. apply p_key_consumes in EK. pose proof (meet_consumes0 _ s4 (consumes_0 _ _ EK) M1) as M2.
        specialize (IHv m s4 ltac:(lia) M2). unfold cut_val in IHv. destruct (pval n s4) as [t [r|]] eqn:EV; cbn [fst snd] in IHv.
        -- rewrite IHv. pose proof (proj1 (parse_consumes n) _ _ _ EV) as K. pose proof (meet_consumes0 _ r (consumes_0 _ _ K) M2) as M3.
           specialize (IHm m false r ltac:(lia) M3). unfold cut_list in *. destruct (pmembers n false r) as [[l c] o]. cbn [fst snd] in *.
           destruct o as [q|]; [rewrite IHm; reflexivity|]. destruct IHm as [-> IHm]. destruct (pmembers m false (r ++ x)) as [[l' c'] o'].
           cbn [fst snd] in *. split; [reflexivity|apply cm_cons, IHm].
        -- destruct (pval m (s4 ++ x)) as [t' o']. cbn [fst] in IHv.
           destruct o' as [r'|]; [destruct (pmembers m false r') as [[l' c'] o'']|]; (split; [reflexivity|apply cm_last, IHv]).
      * destruct KA as [o ->]. destruct o as [s5|].
        -- destruct (pval m s5) as [t' o']. destruct o' as [r'|]; [destruct (pmembers m false r') as [[l' c'] o'']|]; (split; [reflexivity|apply cm_last, cut_bad]).
        -- split; [reflexivity|apply cm_last, cut_bad].
    + rewrite PA. destruct (c =? 125); [reflexivity|]. split; [reflexivity|constructor].
Qed.
Lemma pv_cut s : meet s -> cut_val (pv s) (pv (s ++ x)).
Proof. intros M. apply parse_cut; [rewrite app_length; lia|exact M]. Qed.
End App.
