(** LexCost.v computes the functions of Lexer.v, in a number of steps linear in the number
    of bytes consumed. *)
From Coq Require Import String ZArith List Bool Lia Floats.SpecFloat.
From Verif Require Import Base Utf8 Utf8Facts F64 Lexer LexCost FloatCost.
Import ListNotations.
Open Scope Z_scope.

(** ** Erasure *)
Lemma cbind_eq {A B} (c : counted A) (k : A -> counted B) : cbind c k =
  match fst c with Ok a => (fst (k a), (snd c + snd (k a))%nat) | Err => (Err, snd c) | Fault f => (Fault f, snd c) end.
Proof. unfold cbind. destruct (fst c) as [a| |]; try reflexivity. destruct (k a); reflexivity. Qed.
Lemma fst_cbind {A B} (c : counted A) (k : A -> counted B) : fst (cbind c k) = bind (fst c) (fun a => fst (k a)).
Proof. unfold cbind, bind. destruct (fst c) as [a| |]; try reflexivity. destruct (k a); reflexivity. Qed.
Lemma bind_ext {A B} (r : res A) (k k' : A -> res B) : (forall a, k a = k' a) -> bind r k = bind r k'.
Proof. intros H. destruct r; cbn; auto. Qed.
Lemma bind_ext2 {A B C} (r : res (A * B)) (k k' : A * B -> res C) :
  (forall a b, k (a, b) = k' (a, b)) -> bind r k = bind r k'.
Proof. intros H. destruct r as [[a b]| |]; cbn; auto. Qed.
Ltac be2 := apply bind_ext2; cbv beta iota.
Lemma if_fst {A} (b : bool) (x y : counted A) :
  fst (match b return counted A with true => x | false => y end) = if b then fst x else fst y.
Proof. destruct b; reflexivity. Qed.
Ltac ifs := rewrite if_fst.
Ltac er1 :=
  match goal with
  | |- ?x = ?x => reflexivity
  | |- fst (cbind _ _) = _ => rewrite fst_cbind
  | |- bind ?r _ = bind ?r _ => apply bind_ext; intros
  | |- fst (steps _ ?r) = ?r => reflexivity
  | |- context [match ?x with pair _ _ => _ end] => is_var x; destruct x
  | |- fst (if ?b then _ else _) = _ => destruct b
  | |- fst (match ?x with Some _ => _ | None => _ end) = _ => destruct x
  | |- fst (match ?x with nil => _ | cons _ _ => _ end) = _ => destruct x
  | |- bind (fst (steps _ ?r)) _ = _ => change (fst (steps _ r)) with r
  end.

Section Facts.
Variable oc : bool.
Variable inp : bytes.
Notation len := (len inp).

Lemma hex_loop_erase k : forall n d, fst (decode_hex_loop' oc inp k n d) = decode_hex_loop oc inp k n d.
Proof.
  induction k as [|k IH]; intros n d; [reflexivity|]. cbn [decode_hex_loop' decode_hex_loop].
  rewrite fst_cbind. be2. intros c d1. rewrite fst_cbind. apply bind_ext. intros n1. apply IH.
Qed.
Lemma hex_erase d : fst (decode_hex_escape' oc inp d) = decode_hex_escape oc inp d.
Proof. apply hex_loop_erase. Qed.

Lemma unicode_erase d : fst (parse_unicode_escape' oc inp d) = parse_unicode_escape oc inp d.
Proof.
  unfold parse_unicode_escape', parse_unicode_escape. rewrite fst_cbind, hex_erase. be2. intros n1 d1.
  rewrite fst_cbind.
  match goal with |- bind ?x _ = bind ?y _ => assert (E : x = y) end.
  { destruct (_ && _); [reflexivity|]. destruct (_ && _); [|destruct (char_from_u32 n1); reflexivity].
    rewrite fst_cbind. be2. intros a d2. ifs. destruct (negb _); [reflexivity|].
    rewrite fst_cbind. be2. intros b d3. ifs. destruct (negb _); [reflexivity|].
    rewrite fst_cbind, hex_erase. be2. intros n2 d4. ifs. destruct (_ || _); [reflexivity|].
    cbv zeta. destruct (char_from_u32 _); reflexivity. }
  rewrite E. be2. intros c d2. reflexivity.
Qed.
Lemma escape_erase d : fst (parse_escape' oc inp d) = parse_escape oc inp d.
Proof.
  unfold parse_escape', parse_escape. rewrite fst_cbind. be2. intros ch d1. repeat ifs. rewrite unicode_erase. reflexivity.
Qed.
Lemma scan_erase f : forall p, fst (scan_plain' inp f p) = scan_plain inp f p.
Proof.
  induction f as [|f IH]; intros p; [reflexivity|]. cbn [scan_plain' scan_plain]. ifs.
  destruct (Nat.ltb p len); [|reflexivity]. rewrite fst_cbind. apply bind_ext. intros b. rewrite fst_cbind. apply bind_ext. intros e.
  ifs. rewrite IH. reflexivity.
Qed.
Lemma str_loop_erase f : forall start d, fst (parse_str_loop' oc inp f start d) = parse_str_loop oc inp f start d.
Proof.
  induction f as [|f IH]; intros start d; [reflexivity|]. cbn [parse_str_loop' parse_str_loop].
  rewrite fst_cbind, scan_erase. apply bind_ext. intros p. ifs. destruct (Nat.eqb p len); [reflexivity|].
  rewrite fst_cbind. apply bind_ext. intros b. ifs. destruct (b =? 34).
  { destruct (buf d); repeat er1. }
  ifs. destruct (b =? 92); [|reflexivity]. rewrite fst_cbind. apply bind_ext. intros sl. rewrite fst_cbind.
  cbn [steps fst bind]. rewrite fst_cbind, escape_erase. apply bind_ext. intros d1. apply IH.
Qed.
Lemma str_erase d : fst (parse_str' oc inp d) = parse_str oc inp d.
Proof. apply str_loop_erase. Qed.
Lemma ws_loop_erase f : forall d, fst (parse_whitespace_loop' inp f d) = parse_whitespace_loop inp f d.
Proof.
  induction f as [|f IH]; intros d; [reflexivity|]. cbn [parse_whitespace_loop' parse_whitespace_loop].
  rewrite fst_cbind. apply bind_ext. intros [c|]; [|reflexivity]. ifs. rewrite IH. reflexivity.
Qed.
Lemma ws_erase d : fst (parse_whitespace' inp d) = parse_whitespace inp d.
Proof. apply ws_loop_erase. Qed.
Lemma ident_erase s : forall d, fst (parse_ident' inp s d) = parse_ident inp s d.
Proof.
  induction s as [|c s IH]; intros d; [reflexivity|]. cbn [parse_ident' parse_ident].
  rewrite fst_cbind. be2. intros [b|] d1; [|reflexivity]. ifs. rewrite IH. reflexivity.
Qed.
Lemma digits_erase f : forall d, fst (skip_digits' inp f d) = skip_digits inp f d.
Proof.
  induction f as [|f IH]; intros d; [reflexivity|]. cbn [skip_digits' skip_digits].
  rewrite fst_cbind. apply bind_ext. intros c. ifs. rewrite IH. reflexivity.
Qed.
Lemma exp_overflow_erase nn s pe d : fst (parse_exponent_overflow' inp nn s pe d) = parse_exponent_overflow inp nn s pe d.
Proof.
  unfold parse_exponent_overflow', parse_exponent_overflow. ifs. destruct (_ && _); [reflexivity|].
  rewrite fst_cbind, digits_erase. reflexivity.
Qed.
Lemma exp_loop_erase f : forall nn s se pe e d, fst (parse_exponent_loop' oc inp f nn s se pe e d) = parse_exponent_loop oc inp f nn s se pe e d.
Proof.
  induction f as [|f IH]; intros nn s se pe e d; [reflexivity|]. cbn [parse_exponent_loop' parse_exponent_loop].
  rewrite fst_cbind. apply bind_ext. intros c. ifs. destruct (is_digit c).
  - cbv zeta. ifs. rewrite exp_overflow_erase. destruct (overflow _ _ _); [reflexivity|].
    rewrite fst_cbind. apply bind_ext. intros e1. apply IH.
  - cbv zeta. rewrite fst_cbind. reflexivity.
Qed.
Lemma exp_erase nn s se d : fst (parse_exponent' oc inp nn s se d) = parse_exponent oc inp nn s se d.
Proof.
  unfold parse_exponent', parse_exponent. cbv zeta. rewrite fst_cbind. apply bind_ext. intros c.
  destruct (if c =? 43 then _ else _) as [pe d1]. rewrite fst_cbind. be2. intros c1 d2. ifs. rewrite exp_loop_erase. reflexivity.
Qed.
Lemma dec_loop_erase f : forall s e o d, fst (parse_decimal_loop' oc inp f s e o d) = parse_decimal_loop oc inp f s e o d.
Proof.
  induction f as [|f IH]; intros s e o d; [reflexivity|]. cbn [parse_decimal_loop' parse_decimal_loop].
  rewrite fst_cbind. apply bind_ext. intros c. ifs. destruct (is_digit c); [|reflexivity].
  cbv zeta. ifs. destruct (overflow _ _ _).
  - rewrite fst_cbind, digits_erase. reflexivity.
  - rewrite fst_cbind. apply bind_ext. intros s1. rewrite fst_cbind. apply bind_ext. intros e1. apply IH.
Qed.
Lemma dec_erase nn s e d : fst (parse_decimal' oc inp nn s e d) = parse_decimal oc inp nn s e d.
Proof.
  unfold parse_decimal', parse_decimal. rewrite fst_cbind, dec_loop_erase. be2. intros [[s1 e1] one] d1.
  ifs. destruct (negb one); [reflexivity|]. rewrite fst_cbind. apply bind_ext. intros c. ifs. rewrite exp_erase. 
  rewrite fst_cbind. reflexivity.
Qed.
Lemma long_erase f : forall nn s e d, fst (parse_long_integer' oc inp f nn s e d) = parse_long_integer oc inp f nn s e d.
Proof.
  induction f as [|f IH]; intros nn s e d; [reflexivity|]. cbn [parse_long_integer' parse_long_integer].
  rewrite fst_cbind. apply bind_ext. intros c. repeat ifs. rewrite dec_erase. rewrite exp_erase. destruct (is_digit c).
  - rewrite fst_cbind. apply bind_ext. intros e1. apply IH.
  - rewrite fst_cbind. reflexivity.
Qed.
Lemma number_erase nn s d : fst (parse_number' oc inp nn s d) = parse_number oc inp nn s d.
Proof.
  unfold parse_number', parse_number. rewrite fst_cbind. apply bind_ext. intros c. repeat ifs.
  destruct (c =? 46); [|destruct (is_e c); [|reflexivity]].
  - rewrite fst_cbind, dec_erase. be2. reflexivity.
  - rewrite fst_cbind, exp_erase. be2. reflexivity.
Qed.
Lemma int_loop_erase f : forall nn r d, fst (parse_integer_loop' oc inp f nn r d) = parse_integer_loop oc inp f nn r d.
Proof.
  induction f as [|f IH]; intros nn r d; [reflexivity|]. cbn [parse_integer_loop' parse_integer_loop].
  rewrite fst_cbind. apply bind_ext. intros c. repeat ifs. rewrite number_erase. destruct (is_digit c); [|reflexivity].
  cbv zeta. try ifs. destruct (overflow _ _ _).
  - rewrite fst_cbind, long_erase. be2. reflexivity.
  - rewrite fst_cbind. apply bind_ext. intros r1. apply IH.
Qed.
Lemma int_erase nn c d : fst (parse_integer' oc inp nn c d) = parse_integer oc inp nn c d.
Proof.
  unfold parse_integer', parse_integer. repeat ifs. rewrite int_loop_erase. rewrite fst_cbind.
  destruct (c =? 48); [|reflexivity]. apply bind_ext. intros c1. ifs. rewrite number_erase. reflexivity.
Qed.
Lemma event_erase d : fst (event_next' oc inp d) = event_next oc inp d.
Proof.
  unfold event_next', event_next. rewrite fst_cbind, ws_erase. be2. intros [c|] d0; [|reflexivity].
  cbv zeta. repeat ifs. rewrite int_erase. rewrite !fst_cbind. rewrite str_erase. rewrite !ident_erase.
  destruct (c =? 34). { be2. reflexivity. }
  destruct (is_digit c); [reflexivity|]. destruct (c =? 45). { be2. intros c1 d2. apply int_erase. }
  reflexivity.
Qed.

(** ** Bounds *)
Open Scope nat_scope.

(** At most [a] steps per byte consumed, and [b] more; an outcome without a position may
    have consumed the whole input. *)
Definition within {A} (g : A -> nat) (a b p : nat) (c : counted A) : Prop :=
  match fst c with
  | Ok x => p <= g x <= len /\ snd c + a * p <= a * g x + b
  | _ => snd c + a * p <= a * len + b
  end.

Lemma within_weak {A} (g : A -> nat) a b a' b' p c : within g a b p c -> p <= len -> a <= a' -> b <= b' -> within g a' b' p c.
Proof.
  unfold within. intros H L La Lb. destruct (fst c) as [x| |].
  - destruct H as [H1 H2]. split; [exact H1|]. assert ((a' - a) * p <= (a' - a) * g x) by (apply Nat.mul_le_mono_l; lia). nia.
  - assert ((a' - a) * p <= (a' - a) * len) by (apply Nat.mul_le_mono_l; lia). nia.
  - assert ((a' - a) * p <= (a' - a) * len) by (apply Nat.mul_le_mono_l; lia). nia.
Qed.

Lemma within_bind {A B} (g : A -> nat) (h : B -> nat) a b1 b2 p c (k : A -> counted B) :
  within g a b1 p c ->
  (forall x, fst c = Ok x -> p <= g x <= len -> within h a b2 (g x) (k x)) ->
  within h a (b1 + b2) p (cbind c k).
Proof.
  unfold within. rewrite cbind_eq. intros H K. destruct (fst c) as [x| |]; cbn [fst snd]; [|lia|lia].
  destruct H as [H1 H2]. specialize (K x eq_refl H1). destruct (fst (k x)) as [y| |]; cbn [fst snd]; nia.
Qed.

(** A step without a position. *)
Lemma within_step {A B} (h : B -> nat) a b n p (r : res A) (k : A -> counted B) :
  p <= len -> (forall x, r = Ok x -> within h a b p (k x)) -> within h a (n + b) p (cbind (steps n r) k).
Proof.
  unfold within. rewrite cbind_eq. cbn [steps fst snd]. intros L K. destruct r as [x| |]; cbn [fst snd]; [|nia|nia].
  specialize (K x eq_refl). destruct (fst (k x)) as [y| |]; cbn [fst snd]; nia.
Qed.
Lemma within_stop {A} (g : A -> nat) a b n p (r : res A) :
  p <= len -> n <= b -> (forall x, r = Ok x -> p <= g x <= len) -> within g a b p (steps n r).
Proof.
  unfold within. cbn [steps fst snd]. intros L N K. destruct r as [x| |]; [|nia|nia].
  specialize (K x eq_refl). split; [exact K|]. nia.
Qed.
(** Consuming bytes pays for steps. *)
Lemma within_pay {A} (g : A -> nat) a b n p q c :
  within g a b q c -> p <= q <= len -> n <= a * (q - p) -> within g a b p (fst c, n + snd c).
Proof.
  unfold within. cbn [fst snd]. intros H L N. assert (E : a * q = a * (q - p) + a * p) by nia.
  destruct (fst c) as [x| |]; lia.
Qed.
Lemma within_from {A} (g : A -> nat) a b p q c : within g a b q c -> p <= q <= len -> within g a b p c.
Proof. intros H L. pose proof (within_pay g a b 0 p q c H L (Nat.le_0_l _)) as W. destruct c. exact W. Qed.
(** A step that a byte consumed afterwards pays for. *)
Lemma within_paid {A B} (h : B -> nat) a b n p (r : res A) (k : A -> counted B) :
  p <= len -> n <= b ->
  (forall x, r = Ok x -> (within h a (b - n) p (k x)) \/ (exists q, p <= q <= len /\ n <= a * (q - p) /\ within h a b q (k x))) ->
  within h a b p (cbind (steps n r) k).
Proof.
  intros L N K. destruct r as [x| |]; [|unfold within; cbn; nia|unfold within; cbn; nia].
  destruct (K x eq_refl) as [W|(q & Q & NQ & W)].
  - pose proof (within_step h a (b - n) n p (Ok x) k L) as S. replace (n + (b - n)) with b in S by lia. apply S. intros y [= <-]. exact W.
  - rewrite cbind_eq. cbn [steps fst snd]. exact (within_pay h a b n p q (k x) W Q NQ).
Qed.

(** ** Moving through the input *)
Lemma peek_in d c : peek_or_nul inp d = Ok c -> c <> 0%Z -> S (pos d) <= len.
Proof.
  unfold peek_or_nul, peek. destruct (Nat.ltb_spec (pos d) len); [lia|]. cbn. intros [= <-]. contradiction.
Qed.
Lemma peek_some d c : peek inp d = Ok (Some c) -> S (pos d) <= len.
Proof. unfold peek. destruct (Nat.ltb_spec (pos d) len); [lia|]. discriminate. Qed.
Lemma next_pos d o d' : next inp d = Ok (o, d') -> pos d <= len ->
  (o = None /\ pos d' = pos d) \/ (pos d' = S (pos d) /\ S (pos d) <= len /\ o <> None).
Proof.
  unfold next. destruct (Nat.ltb_spec (pos d) len).
  - unfold idx. destruct (nth_error inp (pos d)); [|discriminate]. cbn. intros [= <- <-] _. right. cbn. repeat split; [lia|discriminate].
  - intros [= <- <-] _. left. auto.
Qed.
Lemma eof_pos d c d' : next_or_eof inp d = Ok (c, d') -> pos d <= len -> pos d' = S (pos d) /\ S (pos d) <= len.
Proof.
  unfold next_or_eof. destruct (next inp d) as [[o e]| |] eqn:E; try discriminate. cbn. intros H L.
  destruct (next_pos _ _ _ E L) as [[-> _]|(P & Q & _)]; [discriminate|]. destruct o; [|discriminate]. injection H as <- <-. auto.
Qed.
Lemma nul_pos d c d' : next_or_nul inp d = Ok (c, d') -> pos d <= len ->
  pos d <= pos d' <= len.
Proof.
  unfold next_or_nul. destruct (next inp d) as [[o e]| |] eqn:E; try discriminate. cbn. intros [= <- <-] L.
  destruct (next_pos _ _ _ E L) as [[_ H]|(P & Q & _)]; lia.
Qed.
Lemma digit_nz c : is_digit c = true -> c <> 0%Z.
Proof. intros H ->. discriminate H. Qed.
Lemma e_nz c : is_e c = true -> c <> 0%Z.
Proof. intros H ->. discriminate H. Qed.

Notation gl := pos.
Notation gp := (fun x => pos (snd x)).

Lemma ws_loop_within f : forall d, pos d <= len -> within gp 1 1 (pos d) (parse_whitespace_loop' inp f d).
Proof.
  induction f as [|f IH]; intros d L; cbn [parse_whitespace_loop']. { apply within_stop; [lia|lia|discriminate]. }
  apply within_paid; [lia|lia|]. intros [c|] E.
  - destruct (is_ws c).
    + right. apply peek_some in E. exists (S (pos d)). split; [lia|]. split; [lia|]. apply (IH (bump d)). exact E.
    + left. apply within_stop; [lia|lia|]. intros x [= <-]. cbn. lia.
  - left. apply within_stop; [lia|lia|]. intros x [= <-]. cbn. lia.
Qed.
Lemma ws_within d : pos d <= len -> within gp 1 1 (pos d) (parse_whitespace' inp d).
Proof. apply ws_loop_within. Qed.
Lemma digits_within f : forall d, pos d <= len -> within gl 1 1 (pos d) (skip_digits' inp f d).
Proof.
  induction f as [|f IH]; intros d L; cbn [skip_digits']. { apply within_stop; [lia|lia|discriminate]. }
  apply within_paid; [lia|lia|]. intros c E. destruct (is_digit c) eqn:D.
  - right. pose proof (peek_in _ _ E (digit_nz _ D)) as Q. exists (S (pos d)). split; [lia|]. split; [lia|]. apply (IH (bump d)). exact Q.
  - left. apply within_stop; [lia|lia|]. intros x [= <-]. lia.
Qed.

(** ** Strings *)
Lemma hex_loop_within k : forall n d, pos d <= len -> within gp 1 1 (pos d) (decode_hex_loop' oc inp k n d).
Proof.
  induction k as [|k IH]; intros n d L; cbn [decode_hex_loop']. { apply within_stop; [lia|lia|]. intros x [= <-]. cbn. lia. }
  apply within_paid; [lia|lia|]. intros [c d1] E. right. destruct (eof_pos _ _ _ E L) as [P Q]. exists (pos d1). split; [lia|]. split; [lia|].
  apply within_paid; [lia|lia|]. intros n1 _. left. apply IH. lia.
Qed.
Lemma hex_within d : pos d <= len -> within gp 1 1 (pos d) (decode_hex_escape' oc inp d).
Proof. apply hex_loop_within. Qed.

Lemma utf8_enc_len c : length (utf8_enc c) <= 4.
Proof. unfold utf8_enc. repeat match goal with |- context [if ?b then _ else _] => destruct b end; cbn; lia. Qed.

Lemma unicode_within d : pos d <= len -> within gl 1 9 (pos d) (parse_unicode_escape' oc inp d).
Proof.
  intros L. unfold parse_unicode_escape'. apply (within_bind gp gl 1 1 8 _ _ _ (hex_within d L)). intros [n1 d1] _ L1. cbn [snd] in L1 |- *.
  apply (within_bind gp gl 1 4 4).
  2:{ intros [c d2] _ L2. cbn [snd] in *. apply within_stop; [lia|apply utf8_enc_len|]. intros x [= <-]. cbn. lia. }
  destruct (_ && _). { apply within_stop; [lia|lia|discriminate]. }
  destruct (_ && _).
  2:{ destruct (char_from_u32 n1); (apply within_stop; [lia|lia|]); [|discriminate]. intros x [= <-]. cbn. lia. }
  apply within_paid; [lia|lia|]. intros [a d2] E2. destruct (eof_pos _ _ _ E2 ltac:(lia)) as [P2 Q2].
  right. exists (pos d2). split; [lia|]. split; [lia|].
  destruct (negb _). { apply within_stop; [lia|lia|discriminate]. }
  apply within_paid; [lia|lia|]. intros [b d3] E3. destruct (eof_pos _ _ _ E3 ltac:(lia)) as [P3 Q3].
  right. exists (pos d3). split; [lia|]. split; [lia|].
  destruct (negb _). { apply within_stop; [lia|lia|discriminate]. }
  apply (within_weak gp 1 (1 + 0)); [|lia|lia|lia].
  apply (within_bind gp gp 1 1 0 _ _ _ (hex_within d3 ltac:(lia))). intros [n2 d4] _ L4. cbn [snd] in *.
  destruct (_ || _). { apply within_stop; [lia|lia|discriminate]. }
  cbv zeta. destruct (char_from_u32 _); (apply within_stop; [lia|lia|]); [|discriminate]. intros x [= <-]. cbn. lia.
Qed.
Lemma escape_within d : pos d <= len -> within gl 1 9 (pos d) (parse_escape' oc inp d).
Proof.
  intros L. unfold parse_escape'. apply within_paid; [lia|lia|]. intros [ch d1] E. destruct (eof_pos _ _ _ E L) as [P Q].
  right. exists (pos d1). split; [lia|]. split; [lia|].
  assert (PB : forall c, within gl 1 9 (pos d1) (push_buf' d1 [c])).
  { intros c. apply within_stop; [lia|cbn; lia|]. intros x [= <-]. cbn. lia. }
  repeat match goal with |- within _ _ _ _ (if ?b then _ else _) => destruct b; [first [apply PB | apply unicode_within; lia]|] end.
  apply within_stop; [lia|lia|discriminate].
Qed.

Lemma scan_within f : forall p, p <= len -> within (fun q => q) 1 1 p (scan_plain' inp f p).
Proof.
  induction f as [|f IH]; intros p L; cbn [scan_plain']. { apply within_stop; [lia|lia|discriminate]. }
  destruct (Nat.ltb_spec p len) as [H|H].
  - apply within_paid; [lia|lia|]. intros b _. apply or_comm. 
    destruct (idx ESCAPE (Z.to_nat b)) as [[|]| |].
    + right. apply within_paid; [lia|lia|]. intros x [= <-]. left. apply within_stop; [lia|lia|]. intros y [= <-]. lia.
    + left. exists (S p). split; [lia|]. split; [lia|]. apply within_paid; [lia|lia|]. intros x [= <-]. left. exact (IH (S p) H).
    + right. apply within_paid; [lia|lia|]. discriminate.
    + right. apply within_paid; [lia|lia|]. discriminate.
  - apply within_stop; [lia|lia|]. intros x [= <-]. lia.
Qed.
Lemma slice_len {A} (l : list A) a b s : slice l a b = Ok s -> List.length s = b - a.
Proof.
  unfold slice. destruct (Nat.leb_spec a b), (Nat.leb_spec b (List.length l)); try discriminate. cbn.
  intros [= <-]. rewrite firstn_length, skipn_length. lia.
Qed.
Lemma steps_lt {A B} (n : nat) (r : res A) (k : A -> counted B) x : r = Ok x -> cbind (steps n r) k = (fst (k x), n + snd (k x)).
Proof. intros ->. rewrite cbind_eq. reflexivity. Qed.

(** [n] steps already taken. *)
Definition after {A} (g : A -> nat) (a b p n : nat) (c : counted A) : Prop :=
  match fst c with
  | Ok x => p <= g x <= len /\ n + snd c + a * p <= a * g x + b
  | _ => n + snd c + a * p <= a * len + b
  end.
Lemma after_within {A} (g : A -> nat) a b p c : after g a b p 0 c -> within g a b p c.
Proof. intros H. exact H. Qed.
Lemma after_bind {A B} (g : B -> nat) a b p n (c : counted A) (k : A -> counted B) :
  (forall x, fst c = Ok x -> after g a b p (n + snd c) (k x)) -> ((forall x, fst c <> Ok x) -> n + snd c + a * p <= a * len + b) ->
  after g a b p n (cbind c k).
Proof.
  intros K E. rewrite cbind_eq. unfold after in *. destruct (fst c) as [x| |]; cbn [fst snd].
  - specialize (K x eq_refl). destruct (fst (k x)); lia.
  - apply E. discriminate.
  - apply E. discriminate.
Qed.
Lemma after_stop {A} (g : A -> nat) a b p n m (r : res A) :
  (forall x, r = Ok x -> p <= g x <= len /\ n + m + a * p <= a * g x + b) -> ((forall x, r <> Ok x) -> n + m + a * p <= a * len + b) ->
  after g a b p n (steps m r).
Proof.
  intros K E. unfold after. cbn [steps fst snd]. destruct r as [x| |]; [apply K; reflexivity|apply E; discriminate|apply E; discriminate].
Qed.

Lemma str_loop_within f : forall d, pos d <= len -> within gp 12 12 (pos d) (parse_str_loop' oc inp f (pos d) d).
Proof.
  induction f as [|f IH]; intros d L; cbn [parse_str_loop']. { apply within_stop; [lia|lia|discriminate]. }
  apply after_within. pose proof (scan_within (S len) (pos d) L) as W. unfold within in W.
  apply after_bind.
  2:{ intros N. destruct (fst (scan_plain' inp (S len) (pos d))) as [p| |]; [exfalso; exact (N p eq_refl)|lia|lia]. }
  intros p Ep. rewrite Ep in W. destruct W as [[W1 W2] W3]. set (n := snd (scan_plain' inp (S len) (pos d))) in *. clearbody n.
  destruct (Nat.eqb_spec p len) as [->|NE]. { apply after_stop; [discriminate|lia]. }
  apply after_bind; cbn [steps fst snd]; [|lia]. intros b _.
  destruct (b =? 34)%Z.
  { destruct (buf d) as [|x0 bf].
    - apply after_bind; cbn [steps fst snd]; [|lia]. intros bo _. apply after_bind; cbn [steps fst snd]; [|lia]. intros s _.
      apply after_stop; [|lia]. intros x [= <-]. cbn [snd pos]. lia.
    - apply after_bind; cbn [steps fst snd]; [|lia]. intros sl SL. apply slice_len in SL.
      apply after_bind; cbn [steps fst snd]; [|lia]. intros s _.
      apply after_stop; [|lia]. intros x [= <-]. cbn [snd pos]. lia. }
  destruct (b =? 92)%Z; [|apply after_stop; [discriminate|lia]].
  apply after_bind; cbn [steps fst snd]; [|lia]. intros sl SL. apply slice_len in SL.
  apply after_bind; cbn [steps fst snd]; [|lia]. intros d0 [= <-].
  set (d0 := mklex (S p) (buf d ++ sl)).
  pose proof (escape_within d0 ltac:(cbn [d0 pos]; lia)) as WE. unfold within in WE. cbn [pos d0] in WE.
  apply after_bind.
  2:{ intros N. destruct (fst (parse_escape' oc inp d0)) as [d1| |]; [exfalso; exact (N d1 eq_refl)|lia|lia]. }
  intros d1 E1. rewrite E1 in WE. destruct WE as [[E2 E3] E4]. pose proof (IH d1 E3) as WI. unfold within in WI. unfold after.
  destruct (fst (parse_str_loop' oc inp f (pos d1) d1)) as [[s d2]| |]; cbn [snd] in *; lia.
Qed.
Lemma str_within d : pos d <= len -> within gp 12 12 (pos d) (parse_str' oc inp d).
Proof. intros L. apply (str_loop_within (S len) (mklex (pos d) [])). exact L. Qed.

Lemma ident_within s : forall d, pos d <= len -> within gl 1 1 (pos d) (parse_ident' inp s d).
Proof.
  induction s as [|c s IH]; intros d L; cbn [parse_ident']. { apply within_stop; [lia|lia|]. intros x [= <-]. lia. }
  apply within_paid; [lia|lia|]. intros [o d1] E. destruct (next_pos _ _ _ E L) as [[-> P]|(P & Q & N)].
  - left. apply within_stop; [lia|lia|discriminate].
  - right. exists (pos d1). split; [lia|]. split; [lia|]. destruct o; [|apply within_stop; [lia|lia|discriminate]].
    destruct (negb _); [apply within_stop; [lia|lia|discriminate]|]. apply IH. lia.
Qed.

(** ** Numbers *)
Lemma chk_u64_range z r : chk_u64 oc z = Ok r -> (0 <= r <= u64_MAX)%Z.
Proof.
  unfold chk_u64, chk. destruct (Z.leb_spec 0 z), (Z.leb_spec z u64_MAX); cbn [andb]; try (intros [= <-]; lia);
    destruct oc; try discriminate; intros [= <-]; unfold wrap_u; pose proof (Z.mod_pos_bound z (2 ^ 64) ltac:(reflexivity)) as B;
    change (2 ^ 64)%Z with (u64_MAX + 1)%Z in *; lia.
Qed.
Lemma parts_within {B} (h : B -> nat) nn r e p b (k : f64 -> counted B) : p <= len -> (0 <= r <= u64_MAX)%Z ->
  (forall x, within h 1 b p (k x)) -> within h 1 (3 + b) p (cbind (f64_from_parts' nn r e) k).
Proof.
  intros L R K. apply (within_weak h 1 (iterations (Z.to_pos (Z.abs e / 308 + 2)) f64_parts_step (f64_of_Z r, e) + b)); [|exact L|lia|].
  - apply within_step; [exact L|]. intros x _. apply K.
  - pose proof (parts_iterations (Z.to_pos (Z.abs e / 308 + 2)) r e R). lia.
Qed.
Lemma exp_overflow_within nn s pe d : pos d <= len -> within gp 1 1 (pos d) (parse_exponent_overflow' inp nn s pe d).
Proof.
  intros L. unfold parse_exponent_overflow'. destruct (_ && _). { apply within_stop; [lia|lia|discriminate]. }
  apply (within_bind gl gp 1 1 0 _ _ _ (digits_within _ _ L)). intros d1 _ L1. apply within_stop; [lia|lia|]. intros x [= <-]. cbn. lia.
Qed.
Lemma exp_loop_within f : forall nn s se pe e d, (0 <= s <= u64_MAX)%Z -> pos d <= len ->
  within gp 1 4 (pos d) (parse_exponent_loop' oc inp f nn s se pe e d).
Proof.
  induction f as [|f IH]; intros nn s se pe e d R L; cbn [parse_exponent_loop']. { apply within_stop; [lia|lia|discriminate]. }
  apply within_paid; [lia|lia|]. intros c E. destruct (is_digit c) eqn:D.
  - right. pose proof (peek_in _ _ E (digit_nz _ D)) as Q. exists (S (pos d)). split; [lia|]. split; [lia|]. cbv zeta.
    destruct (overflow _ _ _).
    + apply (within_weak gp 1 1); [|lia|lia|lia]. apply (exp_overflow_within nn s pe (bump d) Q).
    + apply within_paid; [lia|lia|]. intros e1 _. left. exact (IH nn s se pe e1 (bump d) R Q).
  - left. cbv zeta. apply (parts_within gp nn s _ (pos d) 0); [exact L|exact R|]. intros x. apply within_stop; [lia|lia|]. intros y [= <-]. cbn. lia.
Qed.
Lemma exp_within nn s se d : (0 <= s <= u64_MAX)%Z -> S (pos d) <= len ->
  within gp 1 6 (S (pos d)) (parse_exponent' oc inp nn s se d).
Proof.
  intros R L. unfold parse_exponent'. cbv zeta. apply (within_step gp 1 5 1); [exact L|]. intros c E.
  set (t := if (c =? 43)%Z then (true, bump (bump d)) else if (c =? 45)%Z then (false, bump (bump d)) else (true, bump d)).
  assert (T : S (pos d) <= pos (snd t) <= len).
  { subst t. destruct (Z.eqb_spec c 43) as [->|]; [|destruct (Z.eqb_spec c 45) as [->|]]; cbn [snd]; try (cbn; lia);
      pose proof (peek_in (bump d) _ E ltac:(discriminate)) as Q; cbn in Q |- *; lia. }
  destruct t as [pe d1]. cbn [snd] in T. apply (within_from gp 1 5 _ (pos d1)); [|exact T].
  apply (within_step gp 1 4 1); [lia|]. intros [c1 d2] E1. pose proof (nul_pos _ _ _ E1 ltac:(lia)) as P2.
  apply (within_from gp 1 4 _ (pos d2)); [|lia]. destruct (is_digit c1). { apply exp_loop_within; [exact R|lia]. }
  apply within_stop; [lia|lia|discriminate].
Qed.
Lemma dec_loop_within f : forall s e o d, pos d <= len -> within gp 1 1 (pos d) (parse_decimal_loop' oc inp f s e o d).
Proof.
  induction f as [|f IH]; intros s e o d L; cbn [parse_decimal_loop']. { apply within_stop; [lia|lia|discriminate]. }
  apply within_paid; [lia|lia|]. intros c E. destruct (is_digit c) eqn:D.
  - right. pose proof (peek_in _ _ E (digit_nz _ D)) as Q. exists (S (pos d)). split; [lia|]. split; [lia|]. cbv zeta.
    destruct (overflow _ _ _).
    + apply (within_bind gl gp 1 1 0 _ _ _ (digits_within _ (bump d) Q)). intros d1 _ L1. apply within_stop; [lia|lia|]. intros x [= <-]. cbn. lia.
    + apply within_paid; [lia|lia|]. intros s1 _. left. apply within_paid; [lia|lia|]. intros e1 _. left. exact (IH s1 e1 true (bump d) Q).
  - left. apply within_stop; [lia|lia|]. intros x [= <-]. cbn. lia.
Qed.
Lemma dec_loop_range f : forall s e o d s1 e1 o1 d1, (0 <= s <= u64_MAX)%Z ->
  parse_decimal_loop oc inp f s e o d = Ok (s1, e1, o1, d1) -> (0 <= s1 <= u64_MAX)%Z.
Proof.
  induction f as [|f IH]; intros s e o d s1 e1 o1 d1 R; cbn [parse_decimal_loop]; [discriminate|].
  destruct (peek_or_nul inp d) as [c| |]; try discriminate. cbn [bind]. destruct (is_digit c); [|intros [= <- _ _ _]; exact R].
  cbv zeta. destruct (overflow _ _ _).
  - destruct (skip_digits _ _ _); try discriminate. cbn [bind]. intros [= <- _ _ _]. exact R.
  - destruct (chk_u64 oc (s * 10 + (c - 48))) as [s2| |] eqn:C; try discriminate. cbn [bind].
    destruct (chk_i32 oc _); try discriminate. cbn [bind]. apply IH. exact (chk_u64_range _ _ C).
Qed.
Lemma dec_within nn s e d : (0 <= s <= u64_MAX)%Z -> S (pos d) <= len -> within gp 1 8 (S (pos d)) (parse_decimal' oc inp nn s e d).
Proof.
  intros R L. unfold parse_decimal'.
  apply (within_bind gp gp 1 1 7 _ _ _ (dec_loop_within _ s e false (bump d) L)). intros [[[s1 e1] o1] d1] E L1. cbn [snd] in *.
  rewrite dec_loop_erase in E. pose proof (dec_loop_range _ _ _ _ _ _ _ _ _ R E) as R1.
  destruct (negb o1). { apply within_stop; [lia|lia|discriminate]. }
  apply (within_step gp 1 6 1); [lia|]. intros c Ec. destruct (is_e c) eqn:IE.
  - pose proof (peek_in _ _ Ec (e_nz _ IE)) as Q. apply (within_from gp 1 6 _ (S (pos d1))); [|lia]. apply exp_within; assumption.
  - apply (within_weak gp 1 (3 + 0)); [|lia|lia|lia]. apply parts_within; [lia|exact R1|]. intros x. apply within_stop; [lia|lia|]. intros y [= <-]. cbn. lia.
Qed.
Lemma long_within f : forall nn s e d, (0 <= s <= u64_MAX)%Z -> pos d <= len -> within gp 1 9 (pos d) (parse_long_integer' oc inp f nn s e d).
Proof.
  induction f as [|f IH]; intros nn s e d R L; cbn [parse_long_integer']. { apply within_stop; [lia|lia|discriminate]. }
  apply within_paid; [lia|lia|]. intros c E. destruct (is_digit c) eqn:D.
  - right. pose proof (peek_in _ _ E (digit_nz _ D)) as Q. exists (S (pos d)). split; [lia|]. split; [lia|].
    apply within_paid; [lia|lia|]. intros e1 _. left. exact (IH nn s e1 (bump d) R Q).
  - left. destruct (Z.eqb_spec c 46) as [->|].
    + pose proof (peek_in _ _ E ltac:(discriminate)) as Q. apply (within_from gp 1 8 _ (S (pos d))); [|lia]. apply dec_within; assumption.
    + destruct (is_e c) eqn:IE.
      * pose proof (peek_in _ _ E (e_nz _ IE)) as Q. apply (within_from gp 1 8 _ (S (pos d))); [|lia].
        apply (within_weak gp 1 6); [|lia|lia|lia]. apply exp_within; assumption.
      * apply (within_weak gp 1 (3 + 0)); [|lia|lia|lia]. apply parts_within; [lia|exact R|]. intros x. apply within_stop; [lia|lia|]. intros y [= <-]. cbn. lia.
Qed.
Lemma number_within nn s d : (0 <= s <= u64_MAX)%Z -> pos d <= len -> within gp 1 9 (pos d) (parse_number' oc inp nn s d).
Proof.
  intros R L. unfold parse_number'. apply (within_step gp 1 8 1); [lia|]. intros c E. destruct (Z.eqb_spec c 46) as [->|].
  - pose proof (peek_in _ _ E ltac:(discriminate)) as Q. apply (within_from gp 1 8 _ (S (pos d))); [|lia].
    apply (within_bind gp gp 1 8 0 _ _ _ (dec_within nn s 0 d R Q)). intros [x d1] _ L1. cbn [snd] in *. apply within_stop; [lia|lia|]. intros y [= <-]. cbn. lia.
  - destruct (is_e c) eqn:IE.
    + pose proof (peek_in _ _ E (e_nz _ IE)) as Q. apply (within_from gp 1 8 _ (S (pos d))); [|lia].
      apply (within_weak gp 1 (6 + 0)); [|lia|lia|lia].
      apply (within_bind gp gp 1 6 0 _ _ _ (exp_within nn s 0 d R Q)). intros [x d1] _ L1. cbn [snd] in *. apply within_stop; [lia|lia|]. intros y [= <-]. cbn. lia.
    + apply within_stop; [lia|lia|]. intros y [= <-]. cbn [snd]. lia.
Qed.
Lemma int_loop_within f : forall nn r d, (0 <= r <= u64_MAX)%Z -> pos d <= len -> within gp 1 10 (pos d) (parse_integer_loop' oc inp f nn r d).
Proof.
  induction f as [|f IH]; intros nn r d R L; cbn [parse_integer_loop']. { apply within_stop; [lia|lia|discriminate]. }
  apply within_paid; [lia|lia|]. intros c E. destruct (is_digit c) eqn:D.
  - right. pose proof (peek_in _ _ E (digit_nz _ D)) as Q. exists (S (pos d)). split; [lia|]. split; [lia|]. cbv zeta.
    destruct (overflow _ _ _).
    + apply (within_weak gp 1 (9 + 0)); [|lia|lia|lia].
      apply (within_bind gp gp 1 9 0 _ _ _ (long_within _ nn r 1 (bump d) R Q)). intros [x d1] _ L1. cbn [snd] in *. apply within_stop; [lia|lia|]. intros y [= <-]. cbn. lia.
    + apply within_paid; [lia|lia|]. intros r1 C. left. exact (IH nn r1 (bump d) (chk_u64_range _ _ C) Q).
  - left. exact (number_within nn r d R L).
Qed.
Lemma int_within nn c d : pos d <= len -> within gp 1 10 (pos d) (parse_integer' oc inp nn c d).
Proof.
  intros L. unfold parse_integer'. destruct (c =? 48)%Z.
  - apply (within_step gp 1 9 1); [lia|]. intros c1 _. destruct (is_digit c1). { apply within_stop; [lia|lia|discriminate]. }
    apply number_within; [vm_compute; split; discriminate|exact L].
  - destruct (is_digit19 c) eqn:D; [|apply within_stop; [lia|lia|discriminate]].
    apply int_loop_within; [|exact L]. apply andb_prop in D. destruct D as [D1 D2]. apply Z.leb_le in D1, D2. unfold u64_MAX. lia.
Qed.

(** ** Events *)
Lemma ws_some d c d' : parse_whitespace inp d = Ok (Some c, d') -> S (pos d') <= len.
Proof.
  unfold parse_whitespace. generalize (S len). intros f. revert d. induction f as [|f IH]; intros d; cbn [parse_whitespace_loop]; [discriminate|].
  destruct (peek inp d) as [[b|]| |] eqn:E; cbn [bind]; try discriminate. destruct (is_ws b); [apply IH|]. intros [= <- <-]. exact (peek_some _ _ E).
Qed.
(** An event costs at most 12 steps per byte it consumes, and 14 more; it consumes one byte at least. *)
Lemma event_within d : pos d <= len ->
  within gp 12 14 (pos d) (event_next' oc inp d) /\ (forall x, fst (event_next' oc inp d) = Ok x -> S (pos d) <= pos (snd x)).
Proof.
  intros L. unfold event_next'. pose proof (ws_within d L) as W. apply (within_weak gp 1 1 12 1) in W; [|lia|lia|lia].
  match goal with |- within _ _ _ _ (cbind _ ?kk) /\ _ => set (k := kk) end.
  assert (K : forall x, fst (parse_whitespace' inp d) = Ok x ->
     (fst x = None /\ k x = steps 0 Err) \/ (S (pos (snd x)) <= len /\ within gp 12 13 (S (pos (snd x))) (k x))).
  { intros [o d0] E. rewrite ws_erase in E. destruct o as [c|]; [right|left; split; reflexivity]. apply ws_some in E. split; [exact E|].
    subst k. cbn [fst snd]. cbv beta iota zeta.
    destruct (c =? 34)%Z.
    { apply (within_weak gp 12 (12 + 0)); [|lia|lia|lia]. apply (within_bind gp gp 12 12 0 _ _ _ (str_within (bump d0) E)).
      intros [s d1] _ L1. cbn [snd] in *. apply within_stop; [lia|lia|]. intros y [= <-]. cbn. lia. }
    destruct (is_digit c).
    { apply (within_weak gp 1 10); [|lia|lia|lia]. apply (int_within true c (bump d0) E). }
    destruct (c =? 45)%Z.
    { apply (within_weak gp 1 11); [|lia|lia|lia]. apply (within_step gp 1 10 1); [exact E|]. intros [c1 d1] E1.
      pose proof (nul_pos _ _ _ E1 E) as P. cbn [bump pos] in P. apply (within_from gp 1 10 _ (pos d1)); [|exact P]. apply int_within. lia. }
    repeat match goal with
    | |- within _ _ _ _ (if ?b then _ else _) => destruct b
    | |- within _ _ _ _ (steps _ _) => apply within_stop; [lia|lia|]; first [discriminate | intros y [= <-]; cbn; lia]
    | |- within _ _ _ _ (cbind (parse_ident' _ ?s _) _) =>
        apply (within_weak gp 1 (1 + 0)); [|lia|lia|lia]; apply (within_bind gl gp 1 1 0 _ _ _ (ident_within s (bump d0) E));
        intros d1 _ L1; apply within_stop; [lia|lia|]; intros y [= <-]; cbn; lia
    end. }
  split.
  - apply (within_bind gp gp 12 1 13 _ _ _ W). intros x E L1. destruct (K x E) as [[_ ->]|[E1 K1]].
    + apply within_stop; [lia|lia|discriminate].
    + apply (within_from gp 12 13 _ (S (pos (snd x)))); [exact K1|lia].
  - intros y. rewrite fst_cbind. unfold within in W. destruct (fst (parse_whitespace' inp d)) as [x| |] eqn:E; cbn [bind]; try discriminate.
    destruct (K x eq_refl) as [[_ ->]|[E1 K1]]; [discriminate|]. unfold within in K1. intros F. rewrite F in K1. lia.
Qed.

End Facts.
