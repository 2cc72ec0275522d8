(** The steps of LexCost.v and DriverCost.v are really counted: a run that accepts its input
    takes one step per byte at least, and one per call of the user's methods. *)
From Coq Require Import String ZArith List Bool Lia Floats.SpecFloat.
From Verif Require Import Base Utf8 Utf8Facts F64 Lexer LexCost LexCostFacts Driver DriverCost DriverCostFacts ParseSpec.
Import ListNotations.
Open Scope nat_scope.

Section Lower.
Variable oc : bool.
Variable inp : bytes.
Notation len := (len inp).

Definition lower {A} (g : A -> nat) (p : nat) (c : counted A) : Prop := forall x, fst c = Ok x -> g x <= p + snd c.
Lemma lower_bind {A B} (g : A -> nat) (h : B -> nat) p c (k : A -> counted B) :
  lower g p c -> (forall x, fst c = Ok x -> lower h (g x) (k x)) -> lower h p (cbind c k).
Proof. intros L K y E. apply cbind_ok in E. destruct E as (x & Ex & Ey & ->). specialize (L x Ex). specialize (K x Ex y Ey). lia. Qed.
(** A step of [n] without a position. *)
Lemma lower_step {A B} (h : B -> nat) p n (r : res A) (k : A -> counted B) :
  (forall x, r = Ok x -> lower h (p + n) (k x)) -> lower h p (cbind (steps n r) k).
Proof. intros K y E. apply cbind_ok in E. destruct E as (x & Ex & Ey & ->). cbn [steps fst snd] in *. specialize (K x Ex y Ey). lia. Qed.
Lemma lower_stop {A} (g : A -> nat) p n (r : res A) : (forall x, r = Ok x -> g x <= p + n) -> lower g p (steps n r).
Proof. intros H x E. cbn [steps fst snd] in *. apply H, E. Qed.
Lemma lower_from {A} (g : A -> nat) p q c : lower g q c -> q <= p -> lower g p c.
Proof. intros H L x E. specialize (H x E). lia. Qed.

Notation gl := pos.
Notation gp := (fun x => pos (snd x)).

Lemma next_up d o d' : next inp d = Ok (o, d') -> pos d' <= S (pos d).
Proof.
  unfold next. destruct (Nat.ltb (pos d) len).
  - destruct (idx inp (pos d)); try discriminate. cbn [bind]. intros [= <- <-]. cbn. lia.
  - intros [= <- <-]. lia.
Qed.
Lemma eof_up d c d' : next_or_eof inp d = Ok (c, d') -> pos d' <= S (pos d).
Proof.
  unfold next_or_eof. destruct (next inp d) as [[o e]| |] eqn:E; try discriminate. cbn [bind]. destruct o; [|discriminate]. intros [= <- <-]. exact (next_up _ _ _ E).
Qed.
Lemma nul_up d c d' : next_or_nul inp d = Ok (c, d') -> pos d' <= S (pos d).
Proof.
  unfold next_or_nul. destruct (next inp d) as [[o e]| |] eqn:E; try discriminate. cbn [bind]. intros [= <- <-]. exact (next_up _ _ _ E).
Qed.

(** The byte after the whitespace was looked at. *)
Definition gw (x : option Z * lex) : nat := S (pos (snd x)).
Lemma ws_loop_lower f : forall d, lower gw (pos d) (parse_whitespace_loop' inp f d).
Proof.
  induction f as [|f IH]; intros d; cbn [parse_whitespace_loop']; [apply lower_stop; discriminate|].
  apply lower_step. intros [c|] _; [|apply lower_stop; intros x [= <-]; unfold gw; cbn [snd]; lia].
  destruct (is_ws c); [|apply lower_stop; intros x [= <-]; unfold gw; cbn [snd]; lia]. apply (lower_from _ _ _ _ (IH (bump d))). cbn. lia.
Qed.
Lemma ws_lower d : lower gw (pos d) (parse_whitespace' inp d).
Proof. apply ws_loop_lower. Qed.
Lemma digits_lower f : forall d, lower gl (pos d) (skip_digits' inp f d).
Proof.
  induction f as [|f IH]; intros d; cbn [skip_digits']; [apply lower_stop; discriminate|].
  apply lower_step. intros c _. destruct (is_digit c); [|apply lower_stop; intros x [= <-]; lia]. apply (lower_from _ _ _ _ (IH (bump d))). cbn. lia.
Qed.
Lemma hex_lower k : forall n d, lower gp (pos d) (decode_hex_loop' oc inp k n d).
Proof.
  induction k as [|k IH]; intros n d; cbn [decode_hex_loop']; [apply lower_stop; intros x [= <-]; cbn; lia|].
  apply lower_step. intros [c d1] E. apply eof_up in E. apply lower_step. intros n1 _. apply (lower_from _ _ _ _ (IH n1 d1)). lia.
Qed.
Lemma unicode_lower d : lower gl (pos d) (parse_unicode_escape' oc inp d).
Proof.
  unfold parse_unicode_escape'. apply (lower_bind gp gl _ _ _ (hex_lower 4 0 d)). intros [n1 d1] _. cbn [snd].
  apply (lower_bind gp gl).
  2:{ intros [c d2] _. cbn [snd]. apply lower_stop. intros x [= <-]. cbn. lia. }
  destruct (_ && _); [apply lower_stop; discriminate|]. destruct (_ && _).
  2:{ destruct (char_from_u32 n1); apply lower_stop; [intros x [= <-]; cbn; lia|discriminate]. }
  apply lower_step. intros [a d2] E2. apply eof_up in E2. destruct (negb _); [apply lower_stop; discriminate|].
  apply lower_step. intros [b d3] E3. apply eof_up in E3. destruct (negb _); [apply lower_stop; discriminate|].
  apply (lower_from _ _ (pos d3)); [|lia].
  apply (lower_bind gp gp _ _ _ (hex_lower 4 0 d3)). intros [n2 d4] _. cbn [snd]. destruct (_ || _); [apply lower_stop; discriminate|].
  cbv zeta. destruct (char_from_u32 _); apply lower_stop; [intros x [= <-]; cbn; lia|discriminate].
Qed.
Lemma escape_lower d : lower gl (pos d) (parse_escape' oc inp d).
Proof.
  unfold parse_escape'. apply lower_step. intros [ch d1] E. apply eof_up in E.
  assert (PB : forall c, lower gl (pos d + 1) (push_buf' d1 [c])). { intros c. apply lower_stop. intros x [= <-]. cbn. lia. }
  repeat match goal with |- lower _ _ (if ?b then _ else _) => destruct b; [first [apply PB | apply (lower_from _ _ _ _ (unicode_lower d1)); lia]|] end.
  apply lower_stop. discriminate.
Qed.
Lemma scan_lower f : forall p, lower (fun q => q) p (scan_plain' inp f p).
Proof.
  induction f as [|f IH]; intros p; cbn [scan_plain']; [apply lower_stop; discriminate|].
  destruct (Nat.ltb p len); [|apply lower_stop; intros x [= <-]; lia].
  apply lower_step. intros b _. apply lower_step. intros e _. destruct (negb e); [|apply lower_stop; intros x [= <-]; lia].
  apply (lower_from _ _ _ _ (IH (S p))). lia.
Qed.
Lemma str_loop_lower f : forall d, lower gp (pos d) (parse_str_loop' oc inp f (pos d) d).
Proof.
  induction f as [|f IH]; intros d; cbn [parse_str_loop']; [apply lower_stop; discriminate|].
  apply (lower_bind (fun q => q) gp _ _ _ (scan_lower (S len) (pos d))). intros p _. destruct (Nat.eqb p len); [apply lower_stop; discriminate|].
  apply lower_step. intros b _. destruct (b =? 34)%Z.
  { destruct (buf d); apply lower_step; intros sl _; apply lower_step; intros s _; apply lower_stop; intros x [= <-]; cbn; lia. }
  destruct (b =? 92)%Z; [|apply lower_stop; discriminate].
  apply lower_step. intros sl _. apply lower_step. intros d0 [= <-].
  apply (lower_bind gl gp _ _ _ (lower_from _ (p + 1 + 0 + length sl) _ _ (escape_lower (mklex (S p) (buf d ++ sl))) ltac:(cbn; lia))).
  intros d1 _. apply IH.
Qed.
Lemma str_lower d : lower gp (pos d) (parse_str' oc inp d).
Proof. apply (str_loop_lower (S len) (mklex (pos d) [])). Qed.
Lemma ident_lower s : forall d, lower gl (pos d) (parse_ident' inp s d).
Proof.
  induction s as [|c s IH]; intros d; cbn [parse_ident']; [apply lower_stop; intros x [= <-]; lia|].
  apply lower_step. intros [o d1] E. apply next_up in E. destruct o; [|apply lower_stop; discriminate].
  destruct (negb _); [apply lower_stop; discriminate|]. apply (lower_from _ _ _ _ (IH d1)). lia.
Qed.
Lemma parts_lower {B} (h : B -> nat) nn r e p (k : f64 -> counted B) : (forall x, lower h p (k x)) -> lower h p (cbind (f64_from_parts' nn r e) k).
Proof. intros K. apply lower_step. intros x _. apply (lower_from _ _ _ _ (K x)). lia. Qed.
Lemma exp_overflow_lower nn s pe d : lower gp (pos d) (parse_exponent_overflow' inp nn s pe d).
Proof.
  unfold parse_exponent_overflow'. destruct (_ && _); [apply lower_stop; discriminate|].
  apply (lower_bind gl gp _ _ _ (digits_lower _ _)). intros d1 _. apply lower_stop. intros x [= <-]. cbn. lia.
Qed.
Lemma exp_loop_lower f : forall nn s se pe e d, lower gp (pos d) (parse_exponent_loop' oc inp f nn s se pe e d).
Proof.
  induction f as [|f IH]; intros nn s se pe e d; cbn [parse_exponent_loop']; [apply lower_stop; discriminate|].
  apply lower_step. intros c _. destruct (is_digit c); cbv zeta.
  - destruct (overflow _ _ _).
    + apply (lower_from _ _ _ _ (exp_overflow_lower nn s pe (bump d))). cbn. lia.
    + apply lower_step. intros e1 _. apply (lower_from _ _ _ _ (IH nn s se pe e1 (bump d))). cbn. lia.
  - apply parts_lower. intros x. apply lower_stop. intros y [= <-]. cbn. lia.
Qed.
(** parse_exponent, parse_decimal: the byte at the current position was looked at before. *)
Lemma exp_lower nn s se d : lower gp (S (pos d)) (parse_exponent' oc inp nn s se d).
Proof.
  unfold parse_exponent'. cbv zeta. apply lower_step. intros c _.
  set (t := if (c =? 43)%Z then (true, bump (bump d)) else if (c =? 45)%Z then (false, bump (bump d)) else (true, bump d)).
  assert (T : pos (snd t) <= S (S (pos d))). { subst t. destruct (c =? 43)%Z; [|destruct (c =? 45)%Z]; cbn; lia. }
  destruct t as [pe d1]. cbn [snd] in T. apply lower_step. intros [c1 d2] E. apply nul_up in E.
  destruct (is_digit c1); [|apply lower_stop; discriminate]. apply (lower_from _ _ _ _ (exp_loop_lower _ nn s se pe _ d2)). lia.
Qed.
Lemma dec_loop_lower f : forall s e o d, lower gp (pos d) (parse_decimal_loop' oc inp f s e o d).
Proof.
  induction f as [|f IH]; intros s e o d; cbn [parse_decimal_loop']; [apply lower_stop; discriminate|].
  apply lower_step. intros c _. destruct (is_digit c); cbv zeta.
  - destruct (overflow _ _ _).
    + apply (lower_from _ _ (pos (bump d))); [|cbn; lia]. apply (lower_bind gl gp _ _ _ (digits_lower _ _)). intros d2 _. apply lower_stop. intros x [= <-]. cbn. lia.
    + apply lower_step. intros s1 _. apply lower_step. intros e1 _. apply (lower_from _ _ _ _ (IH s1 e1 true (bump d))). cbn. lia.
  - apply lower_stop. intros y [= <-]. cbn. lia.
Qed.
Lemma dec_lower nn s e d : lower gp (S (pos d)) (parse_decimal' oc inp nn s e d).
Proof.
  unfold parse_decimal'. apply (lower_bind gp gp _ _ _ (dec_loop_lower _ s e false (bump d))). intros [[[s1 e1] o1] d1] _. cbn [snd].
  destruct (negb o1); [apply lower_stop; discriminate|]. apply lower_step. intros c _. destruct (is_e c).
  - apply (lower_from _ _ _ _ (exp_lower nn s1 e1 d1)). lia.
  - apply parts_lower. intros x. apply lower_stop. intros y [= <-]. cbn. lia.
Qed.
Lemma long_lower f : forall nn s e d, lower gp (pos d) (parse_long_integer' oc inp f nn s e d).
Proof.
  induction f as [|f IH]; intros nn s e d; cbn [parse_long_integer']; [apply lower_stop; discriminate|].
  apply lower_step. intros c _. destruct (is_digit c).
  - apply lower_step. intros e1 _. apply (lower_from _ _ _ _ (IH nn s e1 (bump d))). cbn. lia.
  - destruct (c =? 46)%Z; [apply (lower_from _ _ _ _ (dec_lower nn s e d)); lia|].
    destruct (is_e c); [apply (lower_from _ _ _ _ (exp_lower nn s e d)); lia|].
    apply parts_lower. intros x. apply lower_stop. intros y [= <-]. cbn. lia.
Qed.
Lemma number_lower nn s d : lower gp (pos d) (parse_number' oc inp nn s d).
Proof.
  unfold parse_number'. apply lower_step. intros c _. destruct (c =? 46)%Z; [|destruct (is_e c)].
  - apply (lower_from _ _ (S (pos d))); [|lia]. apply (lower_bind gp gp _ _ _ (dec_lower nn s 0 d)). intros [x d1] _. apply lower_stop. intros y [= <-]. cbn. lia.
  - apply (lower_from _ _ (S (pos d))); [|lia]. apply (lower_bind gp gp _ _ _ (exp_lower nn s 0 d)). intros [x d1] _. apply lower_stop. intros y [= <-]. cbn. lia.
  - apply lower_stop. intros y [= <-]. cbn [snd]. lia.
Qed.
Lemma int_loop_lower f : forall nn r d, lower gp (pos d) (parse_integer_loop' oc inp f nn r d).
Proof.
  induction f as [|f IH]; intros nn r d; cbn [parse_integer_loop']; [apply lower_stop; discriminate|].
  apply lower_step. intros c _. destruct (is_digit c); cbv zeta.
  - destruct (overflow _ _ _).
    + apply (lower_from _ _ (pos (bump d))); [|cbn; lia]. apply (lower_bind gp gp _ _ _ (long_lower _ nn r 1 (bump d))). intros [x d2] _. apply lower_stop. intros y [= <-]. cbn. lia.
    + apply lower_step. intros r1 _. apply (lower_from _ _ _ _ (IH nn r1 (bump d))). cbn. lia.
  - apply (lower_from _ _ _ _ (number_lower nn r d)). lia.
Qed.
Lemma int_lower nn c d : lower gp (pos d) (parse_integer' oc inp nn c d).
Proof.
  unfold parse_integer'. destruct (c =? 48)%Z.
  - apply lower_step. intros c1 _. destruct (is_digit c1); [apply lower_stop; discriminate|]. apply (lower_from _ _ _ _ (number_lower nn 0 d)). lia.
  - destruct (is_digit19 c); [apply int_loop_lower|apply lower_stop; discriminate].
Qed.
Lemma event_lower d : lower gp (pos d) (event_next' oc inp d).
Proof.
  unfold event_next'. apply (lower_bind gw gp _ _ _ (ws_lower d)). intros [[c|] d0] _; [|apply lower_stop; discriminate]. unfold gw. cbn [snd]. cbv zeta.
  destruct (c =? 34)%Z.
  { apply (lower_bind gp gp _ _ _ (str_lower (bump d0))). intros [s d1] _. apply lower_stop. intros x [= <-]. cbn. lia. }
  destruct (is_digit c); [apply (int_lower true c (bump d0))|].
  destruct (c =? 45)%Z.
  { apply lower_step. intros [c1 d1] E. apply nul_up in E. cbn in E. apply (lower_from _ _ _ _ (int_lower false c1 d1)). lia. }
  repeat match goal with
  | |- lower _ _ (if ?b then _ else _) => destruct b
  | |- lower _ _ (steps _ _) => apply lower_stop; first [discriminate | intros y [= <-]; cbn; lia]
  | |- lower _ _ (cbind (parse_ident' _ ?s _) _) =>
      apply (lower_bind gl gp _ _ _ (ident_lower s (bump d0))); intros d1 _; apply lower_stop; intros y [= <-]; cbn; lia
  end.
Qed.

(** ** The driver *)
Section Driver.
Context {St V SH MH : Type}.
Variable I : iface St V SH MH.

Definition dlower {A} (g : A -> nat) (p n : nat) (r : res A * St * nat) : Prop := forall x, fst (fst r) = Ok x -> g x <= p + n + snd r.
Lemma dlower_more {A} (g : A -> nat) p n m r : dlower g p (n + m) r -> dlower g p n (more m r).
Proof. intros H x E. cbn [more fst snd] in *. specialize (H x E). lia. Qed.
Lemma dlower_no {A} (g : A -> nat) p n r : (forall x, fst (fst r) <> Ok x) -> dlower g p n r.
Proof. intros H x E. destruct (H x E). Qed.
Lemma dlower_ok {A} (g : A -> nat) p n x st m : g x <= p + n + m -> dlower g p n (Ok x, st, m).
Proof. intros H y [= <-]. exact H. Qed.

Lemma inner_lower f : forall d ac v l stack st p n, pos d <= p + n -> dlower ipos p n (inner' I inp f d ac v l stack st).
Proof.
  induction f as [|f IH]; intros d ac v l stack st p n L; cbn [inner']; [apply dlower_no; discriminate|].
  cbv zeta. apply dlower_more. pose proof (ws_lower d) as W. unfold lower, gw in W. set (m := snd (parse_whitespace' inp d)) in *. clearbody m.
  destruct (fst (parse_whitespace' inp d)) as [[o d1]| |e]; [|apply dlower_no, fail_in_no|apply dlower_no, on_fault_no].
  specialize (W _ eq_refl). cbn [snd] in W.
  destruct (_ && _); [apply dlower_ok; unfold opos; cbn [ipos fst snd bump pos]; lia|]. destruct (_ || _).
  - apply dlower_more. destruct (close_layer I _ l st) as [[u| |e] st1]; [|apply dlower_no, fail_in_no|apply dlower_no, on_fault_no].
    apply dlower_more. destruct (drop_layer I l st1) as [[u1| |e] st2]; [| |apply dlower_no, on_fault_no];
      (destruct stack as [|[v' l'] stack']; [apply dlower_ok; unfold opos; cbn [ipos fst snd bump pos]; lia|apply IH; cbn; lia]).
  - destruct ac; [apply dlower_no, fail_in_no|]. apply dlower_ok. unfold opos. cbn [ipos fst snd bump pos]. lia.
Qed.
Lemma open_lower d v l stack st p n : pos d <= p + n -> dlower opos p n (open_item' I oc inp d v l stack st).
Proof.
  intros L. unfold open_item'. cbv zeta. destruct l as [s|m]; apply dlower_more.
  - destruct (s_element I s st) as [[u| |e] st1]; [apply dlower_ok; unfold opos; cbn [ipos fst snd bump pos]; lia|apply dlower_no, fail_in_no|apply dlower_no, on_fault_no].
  - pose proof (ws_lower d) as W. unfold lower, gw in W. set (k := snd (parse_whitespace' inp d)) in *. clearbody k.
    destruct (fst (parse_whitespace' inp d)) as [[o d1]| |e]; [|apply dlower_no, fail_in_no|apply dlower_no, on_fault_no].
    specialize (W _ eq_refl). cbn [snd] in W.
    destruct (match o with Some c => (c =? 34)%Z | None => false end); [|apply dlower_no, fail_in_no].
    apply dlower_more. pose proof (str_lower (bump d1)) as S1. unfold lower in S1. set (k1 := snd (parse_str' oc inp (bump d1))) in *. clearbody k1.
    destruct (fst (parse_str' oc inp (bump d1))) as [[key d2]| |e]; [|apply dlower_no, fail_in_no|apply dlower_no, on_fault_no].
    specialize (S1 _ eq_refl). cbn [snd bump pos] in S1.
    apply dlower_more. destruct (m_key I m key st) as [[u| |e] st1]; [|apply dlower_no, fail_in_no|apply dlower_no, on_fault_no].
    apply dlower_more. pose proof (ws_lower d2) as W2. unfold lower, gw in W2. set (k2 := snd (parse_whitespace' inp d2)) in *. clearbody k2.
    destruct (fst (parse_whitespace' inp d2)) as [[o2 d3]| |e]; [|apply dlower_no, fail_in_no|apply dlower_no, on_fault_no].
    specialize (W2 _ eq_refl). cbn [snd] in W2.
    destruct (match o2 with Some c => (c =? 58)%Z | None => false end); [|apply dlower_no, fail_in_no]. apply dlower_ok. unfold opos. cbn [ipos fst snd bump pos]. lia.
Qed.
Lemma after_lower d ac v l stack st p n : pos d <= p + n -> dlower tpos p n (after_value' I oc inp d ac v l stack st).
Proof.
  intros L. unfold after_value'. cbv zeta. apply dlower_more.
  pose proof (inner_lower (S len) d ac v l stack st p n L) as U. unfold dlower in U.
  set (k := snd (inner' I inp (S len) d ac v l stack st)) in *. clearbody k.
  destruct (fst (inner' I inp (S len) d ac v l stack st)) as [[[d1 v1 l1 stack1|d1]| |e] st1]; [| |apply dlower_no; discriminate|apply dlower_no; discriminate];
    specialize (U _ eq_refl); cbn [ipos] in U.
  - apply dlower_more. pose proof (open_lower d1 v1 l1 stack1 st1 p (n + k) ltac:(lia)) as O. unfold dlower in O.
    set (k1 := snd (open_item' I oc inp d1 v1 l1 stack1 st1)) in *. clearbody k1.
    destruct (fst (open_item' I oc inp d1 v1 l1 stack1 st1)) as [[[[d2 v2] stack2]| |e] st2]; [|apply dlower_no; discriminate|apply dlower_no; discriminate].
    specialize (O _ eq_refl). apply dlower_ok. unfold opos in O. cbn [fst tpos] in *. lia.
  - apply dlower_ok. cbn [tpos]. lia.
Qed.
Lemma turn_lower d v stack st : dlower tpos (pos d) 0 (turn' I oc inp d v stack st).
Proof.
  unfold turn'. cbv zeta. apply dlower_more. pose proof (event_lower d) as W. unfold lower in W.
  set (k := snd (event_next' oc inp d)) in *. clearbody k.
  destruct (fst (event_next' oc inp d)) as [[ev d1]| |e]; [|apply dlower_no, fail_no|apply dlower_no, on_fault_no].
  specialize (W _ eq_refl). cbn [snd] in W.
  apply dlower_more. destruct (dispatch I v ev st) as [[[l|]| |e] st1]; [apply after_lower; lia| |apply dlower_no, fail_no|apply dlower_no, on_fault_no].
  destruct stack as [|[v' l'] stack']; [apply dlower_ok; cbn; lia|apply after_lower; lia].
Qed.
Lemma ws_end f : forall d d', parse_whitespace_loop inp f d = Ok (None, d') -> len <= pos d'.
Proof.
  induction f as [|f IH]; intros d d'; cbn [parse_whitespace_loop]; [discriminate|]. unfold peek. destruct (Nat.ltb_spec (pos d) len).
  - destruct (idx inp (pos d)) as [b| |]; try discriminate. cbn [bind]. destruct (is_ws b); [apply IH|discriminate].
  - cbn [bind]. intros [= <-]. lia.
Qed.
Lemma outer_lower f : forall d v stack st, fst (fst (outer_loop' I oc inp f d v stack st)) = Ok tt ->
  len <= pos d + snd (outer_loop' I oc inp f d v stack st).
Proof.
  induction f as [|f IH]; intros d v stack st; cbn [outer_loop']; [discriminate|]. cbv zeta. cbn [more fst snd].
  pose proof (turn_lower d v stack st) as T. unfold dlower in T. set (k := snd (turn' I oc inp d v stack st)) in *. clearbody k.
  destruct (fst (turn' I oc inp d v stack st)) as [[[d1 v1 stack1|d1]| |e] st1]; [| |discriminate|discriminate]; specialize (T _ eq_refl); cbn [tpos] in T; cbn [fst snd].
  - intros E. apply IH in E. lia.
  - unfold end_of_doc. pose proof (ws_lower d1) as W. unfold lower, gw in W. rewrite (ws_erase inp d1) in W.
    destruct (parse_whitespace inp d1) as [[[c|] d2]| |] eqn:E; try discriminate. intros _. specialize (W _ eq_refl). cbn [snd] in W.
    pose proof (ws_end _ _ _ E). lia.
Qed.
Lemma from_str_lower v st : fst (fst (from_str_impl' I oc inp v st)) = Ok tt -> len <= snd (from_str_impl' I oc inp v st).
Proof. intros E. apply outer_lower in E. exact E. Qed.
End Driver.
End Lower.
