(** The methods of Lexer.v compute the functions of LexSpec.v, without fault. *)
From Coq Require Import String ZArith List Bool Lia Floats.SpecFloat.
From Verif Require Import Base Utf8 Utf8Facts F64 Lexer Grammar LexSpec.
Import ListNotations.
Open Scope Z_scope.

Lemma Some_pair_inv {A B} (a c : A) (b d : B) : Some (a, b) = Some (c, d) -> a = c /\ b = d.
Proof. intros [= -> ->]. auto. Qed.

(** ** Bounded iteration *)
Lemma iter_until_measure {A B} (f : A -> lstep A B) (m : A -> Z) (p : positive) :
  (forall a a', f a = More a' -> m a' <= m a - 1) ->
  forall a a', iter_until p f a = More a' -> m a' <= m a - Zpos p.
Proof.
  intros Hf. induction p as [p IH | p IH |]; intros a a'; cbn [iter_until].
  - destruct (f a) as [a0|b] eqn:E0; [|discriminate].
    destruct (iter_until p f a0) as [a1|b] eqn:E1; [|discriminate].
    intros E2. apply Hf in E0. apply IH in E1. apply IH in E2. lia.
  - destruct (iter_until p f a) as [a1|b] eqn:E1; [|discriminate].
    intros E2. apply IH in E1. apply IH in E2. lia.
  - intros E. apply Hf in E. lia.
Qed.

Lemma iter_until_done {A B} (f : A -> lstep A B) (P : B -> Prop) p :
  (forall a b, f a = Done b -> P b) ->
  forall a b, iter_until p f a = Done b -> P b.
Proof.
  intros Hf. induction p as [p IH | p IH |]; intros a b; cbn [iter_until].
  - destruct (f a) as [a0|b0] eqn:E0.
    + destruct (iter_until p f a0) as [a1|b1] eqn:E1.
      * apply IH.
      * intros E. injection E as <-. eapply IH. exact E1.
    + intros E. injection E as <-. eapply Hf. exact E0.
  - destruct (iter_until p f a) as [a1|b1] eqn:E1.
    + apply IH.
    + intros E. injection E as <-. eapply IH. exact E1.
  - apply Hf.
Qed.

Lemma parts_step_measure st st' :
  f64_parts_step st = More st' -> Z.abs (snd st') / 308 <= Z.abs (snd st) / 308 - 1.
Proof.
  destruct st as [f e]. unfold f64_parts_step, POW10_get.
  destruct (Z.ltb_spec (Z.abs e) 309).
  { destruct (0 <=? e); [|discriminate].
    destruct (f_is_infinite _); discriminate. }
  destruct (SFeqb f f_zero); [discriminate|].
  destruct (Z.leb_spec 0 e); [discriminate|].
  intros E. injection E as <-. cbn [snd].
  rewrite !Z.abs_neq by lia.
  replace (- (e + 308)) with (- e + (-1) * 308) by lia.
  rewrite Z.div_add by lia. lia.
Qed.

Lemma f64_from_parts_nofault nn r e f : f64_from_parts nn r e <> Fault f.
Proof.
  unfold f64_from_parts.
  assert (0 <= Z.abs e / 308) by (apply Z.div_pos; lia).
  destruct (iter_until _ _ _) as [st|x] eqn:E.
  - pose proof (iter_until_measure f64_parts_step (fun st => Z.abs (snd st) / 308) _
      parts_step_measure _ _ E) as M.
    cbn [snd] in M.
    assert (0 <= Z.abs (snd st) / 308) by (apply Z.div_pos; lia).
    rewrite Z2Pos.id in M by lia. lia.
  - assert (Q : forall f, x <> Fault f).
    2:{ destruct x; cbn; try discriminate. specialize (Q f0). congruence. }
    revert E. apply (iter_until_done f64_parts_step (fun b => forall f, b <> Fault f)).
    + clear. intros [g e] b. unfold f64_parts_step.
      destruct (POW10_get _).
      * destruct (0 <=? e).
        -- destruct (f_is_infinite _); intros [= <-]; discriminate.
        -- intros [= <-]; discriminate.
      * destruct (SFeqb _ _); [intros [= <-]; discriminate|].
        destruct (0 <=? e); [intros [= <-]; discriminate|discriminate].
Qed.

Lemma exp_float_nofault nn r e ex f : exp_float nn r e ex <> Fault f.
Proof.
  unfold exp_float. destruct ex as [[neg ds]|]; [|apply f64_from_parts_nofault].
  destruct (acc_exp 0 ds); [apply f64_from_parts_nofault|].
  destruct (_ && _); discriminate.
Qed.

Lemma frac_float_nofault nn r e fr ex f : frac_float nn r e fr ex <> Fault f.
Proof.
  unfold frac_float. destruct fr as [ds|]; [|apply exp_float_nofault].
  destruct (acc_frac r e ds). apply exp_float_nofault.
Qed.

Lemma lit_event_nofault n f : lit_event n <> Fault f.
Proof.
  unfold lit_event. destruct (acc_int 0 (n_int n)) as [r [|d rest]].
  - destruct (n_frac n), (n_exp n); try discriminate;
      unfold float_event; destruct (frac_float _ _ _ _ _) eqn:E; cbn; try discriminate;
      exfalso; exact (frac_float_nofault _ _ _ _ _ _ E).
  - unfold float_event; destruct (frac_float _ _ _ _ _) eqn:E; cbn; try discriminate;
      exfalso; exact (frac_float_nofault _ _ _ _ _ _ E).
Qed.

Lemma with_rest_nofault {A} (r : res A) s f :
  (forall g, r <> Fault g) -> with_rest r s <> Fault f.
Proof. intros H. destruct r; cbn; try discriminate. specialize (H f0). congruence. Qed.

Lemma tok_nofault s f : tok s <> Fault f.
Proof.
  unfold tok. destruct (skip_ws s) as [|c r]; [discriminate|].
  repeat match goal with
  | |- (if ?b then _ else _) <> _ => destruct b
  | |- match ?x with Some _ => _ | None => _ end <> _ => destruct x as [[? ?]|] || destruct x
  | |- with_rest _ _ <> _ => apply with_rest_nofault; intro; apply lit_event_nofault
  | |- _ <> _ => discriminate
  end.
Qed.

(** ** Positions as suffixes *)
Section Facts.
Variable oc : bool.
Variable inp : bytes.

Definition Sfx (s : bytes) : Prop := exists pre, inp = pre ++ s.
Definition posof (s : bytes) : nat := (List.length inp - List.length s)%nat.

Lemma Sfx_tl c s : Sfx (c :: s) -> Sfx s.
Proof. intros [pre E]. exists (pre ++ [c]). rewrite <- app_assoc. exact E. Qed.

Lemma Sfx_app a s : Sfx (a ++ s) -> Sfx s.
Proof. intros [pre E]. exists (pre ++ a). rewrite <- app_assoc. exact E. Qed.

Lemma Sfx_len s : Sfx s -> (List.length s <= List.length inp)%nat.
Proof. intros [pre ->]. rewrite app_length. lia. Qed.

Lemma posof_tl c s : Sfx (c :: s) -> S (posof (c :: s)) = posof s.
Proof. intros H. apply Sfx_len in H. unfold posof. cbn in *. lia. Qed.

Lemma posof_app a s : Sfx (a ++ s) -> (posof (a ++ s) + List.length a)%nat = posof s.
Proof. intros H. apply Sfx_len in H. unfold posof. rewrite app_length in *. lia. Qed.

Lemma nth_posof c s : Sfx (c :: s) -> nth_error inp (posof (c :: s)) = Some c.
Proof.
  intros [pre E]. unfold posof. rewrite E, app_length.
  rewrite nth_error_app2 by lia.
  replace (_ - _)%nat with 0%nat by lia. reflexivity.
Qed.

Lemma posof_nil : posof [] = List.length inp.
Proof. unfold posof. cbn. lia. Qed.

Lemma posof_lt c s : Sfx (c :: s) -> (posof (c :: s) < List.length inp)%nat.
Proof. intros H. apply Sfx_len in H. unfold posof. cbn in *. lia. Qed.

Lemma posof_inj s1 s2 : Sfx s1 -> Sfx s2 -> posof s1 = posof s2 -> s1 = s2.
Proof.
  intros [p1 E1] [p2 E2] H.
  assert (L : List.length s1 = List.length s2).
  { pose proof (f_equal (@List.length Z) E1) as L1. pose proof (f_equal (@List.length Z) E2) as L2.
    rewrite app_length in L1, L2. unfold posof in H. lia. }
  rewrite E1 in E2. 
  assert (L' : List.length p1 = List.length p2).
  { pose proof (f_equal (@List.length Z) E2) as L3. rewrite !app_length in L3. lia. }
  clear - E2 L'. revert p2 E2 L'. induction p1 as [|x p1 IH]; intros [|y p2] E L; cbn in *; try lia.
  - exact E.
  - injection E as _ E. apply (IH p2 E). lia.
Qed.

(** Slices between two positions. *)
Lemma slice_posof a s : Sfx (a ++ s) -> slice inp (posof (a ++ s)) (posof s) = Ok a.
Proof.
  intros H. pose proof (posof_app _ _ H) as P. pose proof (Sfx_len _ H) as L.
  destruct H as [pre E]. unfold slice.
  assert (Q : (Nat.leb (posof (a ++ s)) (posof s) && Nat.leb (posof s) (List.length inp))%bool = true).
  { apply andb_true_iff. rewrite !Nat.leb_le. unfold posof. rewrite app_length. split; lia. }
  rewrite Q. f_equal.
  replace (posof s - posof (a ++ s))%nat with (List.length a) by lia.
  assert (posof (a ++ s) = List.length pre) as ->.
  { unfold posof. rewrite E, !app_length. lia. }
  rewrite E, skipn_app, skipn_all, Nat.sub_diag. cbn [skipn app].
  rewrite firstn_app, Nat.sub_diag, firstn_all. cbn. apply app_nil_r.
Qed.

Definition lx (s : bytes) (b : bytes) : lex := mklex (posof s) b.

Lemma next_cons c s b : Sfx (c :: s) -> next inp (lx (c :: s) b) = Ok (Some c, lx s b).
Proof.
  intros H. unfold next, lx, len. cbn [pos buf].
  rewrite (proj2 (Nat.ltb_lt _ _) (posof_lt _ _ H)).
  unfold idx. rewrite (nth_posof _ _ H). cbn. rewrite (posof_tl _ _ H). reflexivity.
Qed.
Lemma next_nil b : next inp (lx [] b) = Ok (None, lx [] b).
Proof.
  unfold next, lx, len. cbn [pos]. rewrite posof_nil, Nat.ltb_irrefl. reflexivity.
Qed.
Lemma peek_cons c s b : Sfx (c :: s) -> peek inp (lx (c :: s) b) = Ok (Some c).
Proof.
  intros H. unfold peek, lx, len. cbn [pos buf].
  rewrite (proj2 (Nat.ltb_lt _ _) (posof_lt _ _ H)).
  unfold idx. rewrite (nth_posof _ _ H). reflexivity.
Qed.
Lemma peek_nil b : peek inp (lx [] b) = Ok None.
Proof.
  unfold peek, lx, len. cbn [pos]. rewrite posof_nil, Nat.ltb_irrefl. reflexivity.
Qed.
Lemma bump_cons c s b : Sfx (c :: s) -> bump (lx (c :: s) b) = lx s b.
Proof. intros H. unfold bump, lx. cbn. rewrite (posof_tl _ _ H). reflexivity. Qed.

Definition hd0 (s : bytes) : Z := match s with c :: _ => c | [] => 0 end.

Lemma peek_or_nul_eq s b : Sfx s -> peek_or_nul inp (lx s b) = Ok (hd0 s).
Proof.
  intros H. unfold peek_or_nul. destruct s as [|c s].
  - rewrite peek_nil. reflexivity.
  - rewrite peek_cons by exact H. reflexivity.
Qed.
Lemma next_or_nul_cons c s b : Sfx (c :: s) -> next_or_nul inp (lx (c :: s) b) = Ok (c, lx s b).
Proof. intros H. unfold next_or_nul. rewrite next_cons by exact H. reflexivity. Qed.
Lemma next_or_nul_nil b : next_or_nul inp (lx [] b) = Ok (0, lx [] b).
Proof. unfold next_or_nul. rewrite next_nil. reflexivity. Qed.
Lemma next_or_eof_cons c s b : Sfx (c :: s) -> next_or_eof inp (lx (c :: s) b) = Ok (c, lx s b).
Proof. intros H. unfold next_or_eof. rewrite next_cons by exact H. reflexivity. Qed.
Lemma next_or_eof_nil b : next_or_eof inp (lx [] b) = Err.
Proof. unfold next_or_eof. rewrite next_nil. reflexivity. Qed.

(** Outcome [r] of a method is the outcome [p] of the function on suffixes. *)
Definition on_lex {A} (b : bytes) (p : res (A * bytes)) : res (A * lex) :=
  let* (a, s) := p in Ok (a, lx s b).

(** ** Whitespace *)
Lemma skip_ws_suffix s : exists w, s = w ++ skip_ws s /\ forallb is_ws w = true.
Proof.
  induction s as [|c s IH]; [exists []; auto|].
  cbn. destruct (is_ws c) eqn:E.
  - destruct IH as (w & E1 & E2). exists (c :: w). cbn. rewrite <- E1, E. auto.
  - exists []. auto.
Qed.

Lemma Sfx_skip_ws s : Sfx s -> Sfx (skip_ws s).
Proof. intros H. destruct (skip_ws_suffix s) as (w & E & _). rewrite E in H. eapply Sfx_app, H. Qed.

Lemma parse_whitespace_loop_eq s b fuel :
  Sfx s -> (List.length s < fuel)%nat ->
  parse_whitespace_loop inp fuel (lx s b) =
  Ok (match skip_ws s with c :: _ => Some c | [] => None end, lx (skip_ws s) b).
Proof.
  revert fuel. induction s as [|c s IH]; intros fuel H L;
    (destruct fuel as [|fuel]; [lia|]); cbn [parse_whitespace_loop skip_ws].
  - rewrite peek_nil. reflexivity.
  - rewrite peek_cons by exact H. cbn [bind].
    destruct (is_ws c) eqn:E.
    + rewrite bump_cons by exact H. apply IH; [eapply Sfx_tl, H | cbn in L; lia].
    + reflexivity.
Qed.

Lemma parse_whitespace_eq s b : Sfx s ->
  parse_whitespace inp (lx s b) =
  Ok (match skip_ws s with c :: _ => Some c | [] => None end, lx (skip_ws s) b).
Proof.
  intros H. unfold parse_whitespace. apply parse_whitespace_loop_eq; [exact H|].
  apply Sfx_len in H. unfold len. lia.
Qed.

(** ** Hex escapes *)
Lemma decode_hex_loop_eq k n s b :
  Sfx s -> 0 <= n -> n * 16 ^ Z.of_nat k + 16 ^ Z.of_nat k <= 65536 ->
  decode_hex_loop oc inp k n (lx s b) =
  match p_hex k n s with Some (n', r) => Ok (n', lx r b) | None => Err end.
Proof.
  revert n s. induction k as [|k IH]; intros n s H Hn B; [reflexivity|].
  cbn [decode_hex_loop p_hex].
  destruct s as [|c s]; [rewrite next_or_eof_nil; reflexivity|].
  rewrite next_or_eof_cons by exact H. cbn [bind].
  assert (P : 1 <= 16 ^ Z.of_nat k).
  { pose proof (Z.pow_pos_nonneg 16 (Z.of_nat k)). lia. }
  rewrite Nat2Z.inj_succ, Z.pow_succ_r in B by lia.
  assert (C : forall v, 0 <= v <= 15 -> chk_u16 oc (n * 16 + v) = Ok (n * 16 + v)).
  { intros v Hv. unfold chk_u16, chk.
    replace ((0 <=? n * 16 + v) && (n * 16 + v <=? u16_MAX)) with true; [reflexivity|].
    symmetry. apply andb_true_iff. rewrite !Z.leb_le. unfold u16_MAX. nia. }
  unfold hexval.
  destruct (is_digit c) eqn:D.
  { unfold is_digit in D. apply andb_true_iff in D. rewrite !Z.leb_le in D.
    rewrite C by lia. cbn [bind]. apply IH; [eapply Sfx_tl, H | lia | nia]. }
  assert (G : forall v, 0 <= v <= 15 -> 
    (let* n1 := chk_u16 oc (n * 16 + v) in decode_hex_loop oc inp k n1 (lx s b)) =
    match p_hex k (n * 16 + v) s with Some (n', r) => Ok (n', lx r b) | None => Err end).
  { intros v Hv. rewrite C by lia. cbn [bind]. apply IH; [eapply Sfx_tl, H | lia | nia]. }
  destruct (Z.leb_spec 97 c), (Z.leb_spec c 102); cbn [andb];
  destruct (Z.leb_spec 65 c), (Z.leb_spec c 70); cbn [andb];
  repeat match goal with
  | |- context [c =? ?x] =>
      destruct (Z.eqb_spec c x); [subst c; first [exfalso; lia | cbn [orb];
        match goal with |- context [chk_u16 oc (n * 16 + ?v)] =>
          rewrite (G v) by lia; reflexivity end] | ]
  end; cbn [orb bind]; try reflexivity; exfalso; lia.
Qed.

Lemma decode_hex_escape_eq s b : Sfx s ->
  decode_hex_escape oc inp (lx s b) =
  match p_hex 4 0 s with Some (n', r) => Ok (n', lx r b) | None => Err end.
Proof. intros H. apply decode_hex_loop_eq; [exact H | lia | cbn; lia]. Qed.

Lemma hexval_range c v : hexval c = Some v -> 0 <= v <= 15.
Proof.
  unfold hexval, is_digit.
  destruct (Z.leb_spec 48 c), (Z.leb_spec c 57); cbn [andb];
  destruct (Z.leb_spec 97 c), (Z.leb_spec c 102); cbn [andb];
  destruct (Z.leb_spec 65 c), (Z.leb_spec c 70); cbn [andb];
  intros [= <-]; lia.
Qed.

Lemma p_hex_suffix k n s n' r :
  p_hex k n s = Some (n', r) -> 0 <= n ->
  (exists h, s = h ++ r /\ List.length h = k) /\ 0 <= n' < (n + 1) * 16 ^ Z.of_nat k.
Proof.
  revert n s. induction k as [|k IH]; intros n s E Hn.
  - injection E as <- <-. split; [exists []; auto|]. cbn. lia.
  - cbn [p_hex] in E. destruct s as [|c s]; [discriminate|].
    destruct (hexval c) as [v|] eqn:V; [|discriminate].
    apply hexval_range in V. apply IH in E; [|lia]. destruct E as [(h & -> & <-) B].
    split; [exists (c :: h); auto|].
    rewrite Nat2Z.inj_succ, Z.pow_succ_r by lia. nia.
Qed.

Lemma Sfx_p_hex k n s n' r : p_hex k n s = Some (n', r) -> 0 <= n -> Sfx s -> Sfx r.
Proof.
  intros E Hn H. apply p_hex_suffix in E; [|exact Hn]. destruct E as [(h & -> & _) _].
  eapply Sfx_app, H.
Qed.

Lemma p_hex4_range s n r : p_hex 4 0 s = Some (n, r) -> 0 <= n <= 65535.
Proof. intros E. apply p_hex_suffix in E; [|lia]. cbn in E. lia. Qed.

Lemma surrogate_value n1 n2 :
  55296 <= n1 <= 56319 -> 56320 <= n2 <= 57343 ->
  Z.lor (Z.shiftl (n1 - 55296) 10) (n2 - 56320) + 65536
  = 65536 + (n1 - 55296) * 1024 + (n2 - 56320).
Proof.
  intros H1 H2.
  rewrite Z.shiftl_mul_pow2 by lia.
  assert (E : Z.lor ((n1 - 55296) * 2 ^ 10) (n2 - 56320) = (n1 - 55296) * 2 ^ 10 + (n2 - 56320)).
  { rewrite <- Z.lxor_lor, <- Z.add_nocarry_lxor; [reflexivity| |].
    all: apply Z.bits_inj'; intros i Hi; rewrite Z.bits_0, Z.land_spec;
      destruct (Z.ltb_spec i 10).
    1,3: rewrite Z.mul_pow2_bits_low by lia; reflexivity.
    all: replace (Z.testbit (n2 - 56320) i) with false; [apply andb_false_r|];
      symmetry; destruct (Z.eq_dec n2 56320) as [->|];
      [apply Z.testbit_0_l | apply Z.bits_above_log2; [lia|]];
      apply Z.log2_lt_pow2; [lia|];
      apply Z.lt_le_trans with (2 ^ 10); [lia | apply Z.pow_le_mono_r; lia]. }
  rewrite E. lia.
Qed.

Lemma parse_unicode_escape_eq s b : Sfx s ->
  parse_unicode_escape oc inp (lx s b) =
  match p_uni s with Some (x, r) => Ok (lx r (b ++ x)) | None => Err end.
Proof.
  intros H. unfold parse_unicode_escape, p_uni.
  rewrite decode_hex_escape_eq by exact H.
  destruct (p_hex 4 0 s) as [[n1 s1]|] eqn:E1; [|reflexivity]. cbn [bind].
  pose proof (p_hex4_range _ _ _ E1) as R1.
  assert (K1 : Sfx s1) by (eapply Sfx_p_hex; [exact E1 | lia | exact H]).
  destruct (Z.leb_spec 56320 n1), (Z.leb_spec n1 57343); cbn [andb bind]; try reflexivity.
  all: destruct (Z.leb_spec 55296 n1), (Z.leb_spec n1 56319); cbn [andb]; try (exfalso; lia).
  all: try (unfold char_from_u32; rewrite (proj2 (is_scalar_spec n1)) by lia; reflexivity).
  destruct s1 as [|a s2]; [rewrite next_or_eof_nil; reflexivity|].
  rewrite next_or_eof_cons by exact K1. cbn [bind].
  assert (K2 : Sfx s2) by (eapply Sfx_tl, K1).
  destruct (Z.eqb_spec a 92); cbn [negb andb bind].
  2:{ destruct s2; reflexivity. }
  destruct s2 as [|c s2]; [rewrite next_or_eof_nil; reflexivity|].
  rewrite next_or_eof_cons by exact K2. cbn [bind].
  assert (K3 : Sfx s2) by (eapply Sfx_tl, K2).
  destruct (Z.eqb_spec c 117); cbn [negb bind]; [|reflexivity].
  rewrite decode_hex_escape_eq by exact K3.
  destruct (p_hex 4 0 s2) as [[n2 s3]|] eqn:E2; [|reflexivity]. cbn [bind].
  pose proof (p_hex4_range _ _ _ E2) as R2.
  destruct (Z.ltb_spec n2 56320), (Z.ltb_spec 57343 n2); cbn [orb bind];
  destruct (Z.leb_spec 56320 n2), (Z.leb_spec n2 57343); cbn [andb]; try reflexivity; try (exfalso; lia).
  rewrite surrogate_value by lia.
  unfold char_from_u32. rewrite (proj2 (is_scalar_spec _)) by lia. reflexivity.
Qed.

Lemma parse_escape_eq s b : Sfx s ->
  parse_escape oc inp (lx s b) =
  match p_esc s with Some (x, r) => Ok (lx r (b ++ x)) | None => Err end.
Proof.
  intros H. unfold parse_escape, p_esc, short_esc.
  destruct s as [|c s]; [rewrite next_or_eof_nil; reflexivity|].
  rewrite next_or_eof_cons by exact H. cbn [bind].
  repeat match goal with
  | |- context [c =? ?x] => destruct (c =? x); [reflexivity || (apply parse_unicode_escape_eq; eapply Sfx_tl, H)|]
  end.
  reflexivity.
Qed.

(** ** Strings *)
Definition plain (c : Z) : bool := negb ((c <? 32) || (c =? 34) || (c =? 92)).

Lemma ESCAPE_idx c : 0 <= c <= 255 -> idx ESCAPE (Z.to_nat c) = Ok (negb (plain c)).
Proof.
  intros H.
  assert (T : forallb (fun n => match nth_error ESCAPE n with
      | Some e => Bool.eqb e (negb (plain (Z.of_nat n))) | None => false end) (seq 0 256) = true)
    by (vm_compute; reflexivity).
  rewrite forallb_forall in T.
  specialize (T (Z.to_nat c)). rewrite in_seq in T. specialize (T ltac:(lia)).
  rewrite Z2Nat.id in T by lia. unfold idx.
  destruct (nth_error ESCAPE (Z.to_nat c)) as [e|]; [|discriminate].
  apply eqb_prop in T. rewrite T. reflexivity.
Qed.

Fixpoint span_plain (s : bytes) : bytes * bytes :=
  match s with
  | c :: r => if plain c then let (a, r') := span_plain r in (c :: a, r') else ([], s)
  | [] => ([], [])
  end.

Lemma span_plain_app s : s = fst (span_plain s) ++ snd (span_plain s).
Proof.
  induction s as [|c s IH]; [reflexivity|]. cbn.
  destruct (plain c); [|reflexivity].
  destruct (span_plain s) as [a r]. cbn in *. rewrite <- IH. reflexivity.
Qed.

Lemma span_plain_hd s c r : snd (span_plain s) = c :: r -> plain c = false.
Proof.
  induction s as [|x s IH]; cbn; [discriminate|].
  destruct (plain x) eqn:E.
  - destruct (span_plain s). exact IH.
  - cbn. intros [= <- _]. exact E.
Qed.

Definition is_byte (c : Z) : Prop := 0 <= c <= 255.

Lemma scan_plain_eq s fuel :
  Sfx s -> Forall is_byte s -> (List.length s < fuel)%nat ->
  scan_plain inp fuel (posof s) = Ok (posof (snd (span_plain s))).
Proof.
  revert fuel. induction s as [|c s IH]; intros fuel H Hb L;
    (destruct fuel as [|fuel]; [lia|]); cbn [scan_plain].
  - rewrite posof_nil. unfold len. rewrite Nat.ltb_irrefl. cbn. rewrite posof_nil. reflexivity.
  - unfold len. rewrite (proj2 (Nat.ltb_lt _ _) (posof_lt _ _ H)).
    unfold idx at 1. rewrite (nth_posof _ _ H). cbn [bind].
    inversion Hb; subst.
    rewrite ESCAPE_idx by assumption. cbn [bind]. rewrite negb_involutive. cbn [span_plain].
    destruct (plain c).
    + rewrite (posof_tl _ _ H), IH; [|eapply Sfx_tl, H | assumption | cbn in L; lia].
      destruct (span_plain s). reflexivity.
    + reflexivity.
Qed.

Lemma p_esc_facts s x r : p_esc s = Some (x, r) ->
  (exists h, s = h ++ r /\ h <> []) /\ str_ok x = true /\
  (str_ok s = true -> str_ok r = true).
Proof.
  assert (HX : forall k n s n' r, p_hex k n s = Some (n', r) -> str_ok s = true -> str_ok r = true).
  { clear. induction k as [|k IH]; intros n s n' r E H.
    - injection E as _ <-. exact H.
    - cbn [p_hex] in E. destruct s as [|c s]; [discriminate|].
      destruct (hexval c) as [v|] eqn:V; [|discriminate].
      apply IH in E; [exact E|]. rewrite str_ok_ascii in H; [exact H|].
      clear - V. unfold hexval, is_digit in V. apply inr_true.
      destruct (Z.leb_spec 48 c), (Z.leb_spec c 57); cbn [andb] in V; try lia;
      destruct (Z.leb_spec 97 c), (Z.leb_spec c 102); cbn [andb] in V; try lia;
      destruct (Z.leb_spec 65 c), (Z.leb_spec c 70); cbn [andb] in V; try lia; discriminate. }
  unfold p_esc. destruct s as [|c s]; [discriminate|].
  destruct (short_esc c) as [y|] eqn:SE.
  { intros [= <- <-]. split; [exists [c]; split; [reflexivity | discriminate]|].
    unfold short_esc in SE.
    repeat match type of SE with
    | (if c =? ?v then _ else _) = _ => destruct (Z.eqb_spec c v);
        [injection SE as <-; subst c; split; [reflexivity | cbn; auto]|]
    end. discriminate. }
  destruct (Z.eqb_spec c 117); [|discriminate]. subst c. unfold p_uni.
  destruct (p_hex 4 0 s) as [[n1 s1]|] eqn:E1; [|discriminate].
  pose proof (p_hex4_range _ _ _ E1) as R1.
  pose proof (p_hex_suffix _ _ _ _ _ E1 ltac:(lia)) as [(h1 & -> & L1) _].
  destruct (Z.leb_spec 56320 n1), (Z.leb_spec n1 57343); cbn [andb]; try discriminate.
  all: destruct (Z.leb_spec 55296 n1), (Z.leb_spec n1 56319); cbn [andb]; try (exfalso; lia).
  all: try (intros [= <- <-]; split; [exists (117 :: h1); split; [reflexivity | discriminate]|];
    split; [rewrite <- (app_nil_r (utf8_enc n1)), str_ok_enc; [reflexivity | apply is_scalar_spec; lia]
           | intros K; rewrite str_ok_ascii in K by reflexivity; eapply HX; eassumption]).
  destruct s1 as [|a [|c s2]]; try discriminate.
  destruct (Z.eqb_spec a 92), (Z.eqb_spec c 117); cbn [andb]; try discriminate. subst a c.
  destruct (p_hex 4 0 s2) as [[n2 s3]|] eqn:E2; [|discriminate].
  pose proof (p_hex_suffix _ _ _ _ _ E2 ltac:(lia)) as [(h2 & -> & L2) _].
  destruct (Z.leb_spec 56320 n2), (Z.leb_spec n2 57343); cbn [andb]; try discriminate.
  intros EQ. apply Some_pair_inv in EQ. destruct EQ as [<- <-]. split.
  { exists (117 :: h1 ++ 92 :: 117 :: h2). split; [|discriminate].
    cbn. rewrite <- app_assoc. reflexivity. }
  split.
  { rewrite <- (app_nil_r (utf8_enc _)), str_ok_enc; [reflexivity | apply is_scalar_spec; lia]. }
  intros K. rewrite str_ok_ascii in K by reflexivity. apply (HX _ _ _ _ _ E1) in K.
  rewrite !str_ok_ascii in K by reflexivity. eapply HX; eassumption.
Qed.

Lemma p_str_fuel f1 f2 s :
  (List.length s < f1)%nat -> (List.length s < f2)%nat -> p_str f1 s = p_str f2 s.
Proof.
  revert f2 s. induction f1 as [|f1 IH]; intros f2 s L1 L2; [lia|].
  destruct f2 as [|f2]; [lia|]. cbn [p_str].
  destruct s as [|c r]; [reflexivity|]. cbn in L1, L2.
  destruct (c =? 34); [reflexivity|]. destruct (c =? 92).
  - destruct (p_esc r) as [[x r1]|] eqn:E; [|reflexivity].
    apply p_esc_facts in E. destruct E as [(h & -> & Hh) _].
    rewrite app_length in L1, L2.
    rewrite (IH f2 r1) by lia. reflexivity.
  - destruct (c <? 32); [reflexivity|]. rewrite (IH f2 r) by lia. reflexivity.
Qed.

Lemma p_string_cons c r :
  p_string (c :: r) =
  if c =? 34 then Some ([], r)
  else if c =? 92 then
    match p_esc r with
    | Some (x, r1) =>
        match p_string r1 with Some (t, r2) => Some (x ++ t, r2) | None => None end
    | None => None
    end
  else if c <? 32 then None
  else match p_string r with Some (t, r2) => Some (c :: t, r2) | None => None end.
Proof.
  unfold p_string at 1. cbn [p_str].
  destruct (c =? 34); [reflexivity|]. destruct (c =? 92).
  - destruct (p_esc r) as [[x r1]|] eqn:E; [|reflexivity].
    apply p_esc_facts in E. destruct E as [(h & -> & Hh) _].
    unfold p_string. rewrite (p_str_fuel _ (S (List.length r1)) r1); [reflexivity| |lia].
    cbn. rewrite app_length. lia.
  - destruct (c <? 32); [reflexivity|]. reflexivity.
Qed.

Lemma p_string_span a s :
  forallb plain a = true ->
  p_string (a ++ s) = match p_string s with Some (t, r) => Some (a ++ t, r) | None => None end.
Proof.
  induction a as [|c a IH]; intros H.
  - cbn [app]. destruct (p_string s) as [[? ?]|]; reflexivity.
  - cbn in H. apply andb_true_iff in H. destruct H as [H1 H2].
    cbn [app]. rewrite p_string_cons, IH by exact H2.
    unfold plain in H1. apply negb_true_iff in H1. rewrite !orb_false_iff in H1.
    destruct H1 as [[-> ->] ->]. destruct (p_string s) as [[? ?]|]; reflexivity.
Qed.

Lemma span_plain_plain s : forallb plain (fst (span_plain s)) = true.
Proof.
  induction s as [|c s IH]; [reflexivity|]. cbn.
  destruct (plain c) eqn:E; [|reflexivity].
  destruct (span_plain s). cbn in *. rewrite E. exact IH.
Qed.

Lemma not_plain_ascii c : 0 <= c -> plain c = false -> inr 0 127 c = true /\ is_cont c = false.
Proof.
  intros H0 H. unfold plain in H. apply negb_false_iff in H.
  rewrite !orb_true_iff, Z.ltb_lt, !Z.eqb_eq in H.
  split; [apply inr_true | apply inr_false]; lia.
Qed.

Lemma parse_str_loop_eq fuel s b :
  Sfx s -> str_ok s = true -> str_ok b = true -> (List.length s < fuel)%nat ->
  match p_string s with
  | Some (t, r) =>
      exists b', parse_str_loop oc inp fuel (posof s) (lx s b) = Ok (b ++ t, lx r b') /\
      str_ok (b ++ t) = true
  | None => parse_str_loop oc inp fuel (posof s) (lx s b) = Err
  end.
Proof.
  revert s b. induction fuel as [|fuel IH]; intros s b H Hs Hb L; [lia|].
  cbn [parse_str_loop].
  change (pos (lx s b)) with (posof s). change (buf (lx s b)) with b.
  pose proof (str_ok_bytes _ Hs) as By.
  rewrite scan_plain_eq; [|exact H | exact By | pose proof (Sfx_len _ H); unfold len; lia].
  cbn [bind].
  pose proof (span_plain_app s) as ES. pose proof (span_plain_plain s) as EP.
  pose proof (span_plain_hd s) as EH.
  destruct (span_plain s) as [a s'] eqn:Espan. cbn [fst snd] in *. clear Espan.
  rewrite ES in H, Hs, L, By. rewrite ES. rewrite p_string_span by exact EP.
  assert (H' : Sfx s') by (eapply Sfx_app, H).
  destruct s' as [|c r].
  { rewrite posof_nil. unfold len. rewrite Nat.eqb_refl. reflexivity. }
  specialize (EH c r eq_refl).
  assert (B0 : is_byte c).
  { rewrite Forall_app in By. destruct By as [_ By]. inversion By; assumption. }
  destruct (not_plain_ascii c ltac:(unfold is_byte in B0; lia) EH) as [Hasc Hcont].
  destruct (str_ok_split _ _ _ Hcont Hs) as [Ha Hr].
  rewrite str_ok_ascii in Hr by exact Hasc.
  assert (Hba : str_ok (b ++ a) = true) by (rewrite str_ok_app; assumption).
  rewrite (proj2 (Nat.eqb_neq _ _)) by (pose proof (posof_lt _ _ H'); unfold len; lia).
  unfold idx. rewrite (nth_posof _ _ H'). cbn [bind].
  rewrite slice_posof by exact H. cbn [bind].
  rewrite p_string_cons.
  destruct (Z.eqb_spec c 34).
  { subst c. rewrite app_nil_r.
    destruct b as [|b0 b].
    - unfold str_result. rewrite Ha. cbn [bind]. exists [].
      rewrite (posof_tl _ _ H'). split; [reflexivity | first [exact Ha | reflexivity]].
    - cbn [bind]. unfold str_result. rewrite Hba. cbn [bind].
      exists ((b0 :: b) ++ a). rewrite (posof_tl _ _ H'). split; [reflexivity | first [exact Hba | reflexivity]]. }
  destruct (Z.eqb_spec c 92).
  { subst c. rewrite (posof_tl _ _ H').
    change (mklex (posof r) (b ++ a)) with (lx r (b ++ a)).
    rewrite parse_escape_eq by (eapply Sfx_tl, H').
    destruct (p_esc r) as [[x r1]|] eqn:EE; [|reflexivity]. cbn [bind].
    change (pos (lx r1 ((b ++ a) ++ x))) with (posof r1).
    pose proof (p_esc_facts _ _ _ EE) as [(h & Eh & Hh) [Hx Hrest]].
    specialize (IH r1 ((b ++ a) ++ x)).
    assert (Hr1 : Sfx r1) by (apply Sfx_tl in H'; rewrite Eh in H'; eapply Sfx_app, H').
    specialize (IH Hr1 (Hrest Hr)).
    rewrite str_ok_app in IH by exact Hba. specialize (IH Hx).
    assert (Lr : (List.length r1 < fuel)%nat).
    { subst r. rewrite app_length in L. cbn in L. rewrite app_length in L. lia. }
    specialize (IH Lr).
    destruct (p_string r1) as [[t r2]|].
    - destruct IH as (b' & IH & IH2). exists b'. repeat rewrite <- app_assoc in IH. repeat rewrite <- app_assoc in IH2.
      repeat rewrite <- app_assoc.
      split; assumption.
    - exact IH. }
  destruct (Z.ltb_spec c 32); [reflexivity|].
  exfalso. unfold plain in EH. apply negb_false_iff in EH.
  rewrite !orb_true_iff, Z.ltb_lt, !Z.eqb_eq in EH. lia.
Qed.

Lemma parse_str_eq s b :
  Sfx s -> str_ok s = true ->
  match p_string s with
  | Some (t, r) =>
      exists b', parse_str oc inp (lx s b) = Ok (t, lx r b') /\ str_ok t = true
  | None => parse_str oc inp (lx s b) = Err
  end.
Proof.
  intros H Hs. unfold parse_str. cbn [pos lx].
  pose proof (Sfx_len _ H) as L.
  apply (parse_str_loop_eq (S (len inp)) s [] H Hs eq_refl). unfold len. lia.
Qed.

Lemma p_string_facts s t r : p_string s = Some (t, r) ->
  (exists h, s = h ++ r /\ h <> []) /\ (str_ok s = true -> str_ok r = true).
Proof.
  remember (List.length s) as n eqn:Hn. revert s t r Hn.
  induction n as [n IH] using lt_wf_ind. intros s t r Hn E.
  destruct s as [|c s]; [discriminate|]. rewrite p_string_cons in E.
  destruct (Z.eqb_spec c 34).
  { injection E as <- <-. subst c. split; [exists [34]; split; [reflexivity|discriminate]|].
    rewrite str_ok_ascii by reflexivity. auto. }
  destruct (Z.eqb_spec c 92).
  { subst c. destruct (p_esc s) as [[x r1]|] eqn:EE; [|discriminate].
    pose proof (p_esc_facts _ _ _ EE) as [(h & -> & Hh) [Hx Hrest]].
    destruct (p_string r1) as [[t1 r2]|] eqn:E1; [|discriminate].
    injection E as <- <-.
    destruct (IH (List.length r1)) with (s := r1) (t := t1) (r := r2) as [(h1 & -> & Hh1) Hk]; auto.
    { subst n. cbn. rewrite app_length. lia. }
    split.
    - exists (92 :: h ++ h1). split; [cbn; rewrite <- app_assoc; reflexivity | discriminate].
    - intros K. apply Hk, Hrest. rewrite str_ok_ascii in K by reflexivity. exact K. }
  destruct (Z.ltb_spec c 32); [discriminate|].
  destruct (p_string s) as [[t1 r2]|] eqn:E1; [|discriminate]. injection E as <- <-.
  split.
  - destruct (IH (List.length s)) with (s := s) (t := t1) (r := r2) as [(h1 & -> & Hh1) _]; auto.
    { subst n. cbn. lia. }
    exists (c :: h1). split; [reflexivity | discriminate].
  - intros K.
    (* a valid string continues with its next character *)
    clear IH Hn.
    assert (G : exists a s', s = a ++ s' /\ forallb plain a = true /\
       match s' with [] => False | x :: _ => plain x = false end).
    { pose proof (span_plain_app s) as ES. pose proof (span_plain_plain s) as EP.
      pose proof (span_plain_hd s) as EH. destruct (span_plain s) as [a s'].
      cbn in ES, EP, EH. exists a, s'. split; [exact ES|]. split; [exact EP|].
      destruct s' as [|x s']; [|apply (EH _ _ eq_refl)].
      rewrite ES, p_string_span in E1 by exact EP. discriminate. }
    destruct G as (a & s' & -> & Ea & Es').
    rewrite p_string_span in E1 by exact Ea.
    destruct s' as [|x s']; [contradiction|].
    assert (Hx : 0 <= x).
    { apply str_ok_bytes in K. rewrite app_comm_cons, Forall_app in K. destruct K as [_ K].
      inversion K; lia. }
    destruct (not_plain_ascii x Hx Es') as [Hasc Hcont].
    rewrite app_comm_cons in K.
    destruct (str_ok_split _ _ _ Hcont K) as [_ K2].
    rewrite str_ok_ascii in K2 by exact Hasc.
    rewrite p_string_cons in E1.
    destruct (Z.eqb_spec x 34); [injection E1 as <- <-; exact K2|].
    destruct (Z.eqb_spec x 92).
    2:{ destruct (Z.ltb_spec x 32); [discriminate|].
        exfalso. unfold plain in Es'. apply negb_false_iff in Es'.
        rewrite !orb_true_iff, Z.ltb_lt, !Z.eqb_eq in Es'. lia. }
    destruct (p_esc s') as [[y r1]|] eqn:EE; [|discriminate].
    pose proof (p_esc_facts _ _ _ EE) as [_ [_ Hrest]].
    specialize (Hrest K2).
    (* continue by induction on the rest *)
    clear - E1 Hrest.
    destruct (p_string r1) as [[t2 r3]|] eqn:E2; [|discriminate].
    assert (r3 = r2) as -> by congruence. clear E1.
    revert E2 Hrest. generalize t2 r2. clear.
    remember (List.length r1) as n eqn:Hn. revert r1 Hn.
    induction n as [n IH] using lt_wf_ind. intros s Hn t r E K.
    pose proof (span_plain_app s) as ES. pose proof (span_plain_plain s) as EP.
    pose proof (span_plain_hd s) as EH. destruct (span_plain s) as [a s']. cbn in ES, EP, EH.
    rewrite ES, p_string_span in E by exact EP.
    destruct s' as [|x s']; [discriminate|].
    specialize (EH _ _ eq_refl). rewrite ES in K.
    assert (Hx : 0 <= x).
    { apply str_ok_bytes in K. rewrite Forall_app in K. destruct K as [_ K]. inversion K; lia. }
    destruct (not_plain_ascii x Hx EH) as [Hasc Hcont].
    destruct (str_ok_split _ _ _ Hcont K) as [_ K2].
    rewrite str_ok_ascii in K2 by exact Hasc.
    rewrite p_string_cons in E.
    destruct (Z.eqb_spec x 34); [injection E as <- <-; exact K2|].
    destruct (Z.eqb_spec x 92).
    2:{ destruct (Z.ltb_spec x 32); [discriminate|].
        exfalso. unfold plain in EH. apply negb_false_iff in EH.
        rewrite !orb_true_iff, Z.ltb_lt, !Z.eqb_eq in EH. lia. }
    destruct (p_esc s') as [[y r1]|] eqn:EE; [|discriminate].
    pose proof (p_esc_facts _ _ _ EE) as [(h & -> & Hh) [_ Hrest]].
    destruct (p_string r1) as [[t2 r3]|] eqn:E2; [|discriminate].
    injection E as _ <-.
    eapply (IH (List.length r1)); [|reflexivity|exact E2|auto].
    subst n. rewrite ES, !app_length. cbn. rewrite app_length. lia.
Qed.

End Facts.
