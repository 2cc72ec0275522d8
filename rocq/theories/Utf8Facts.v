(** Facts about UTF-8: the executable check agrees with the specification, and
    validity splits at ASCII bytes. *)
From Coq Require Import ZArith List Bool Lia.
From Verif Require Import Base Utf8.
Import ListNotations.
Open Scope Z_scope.

Lemma inr_true lo hi b : inr lo hi b = true <-> lo <= b <= hi.
Proof. unfold inr. rewrite andb_true_iff, !Z.leb_le. tauto. Qed.
Lemma inr_false lo hi b : inr lo hi b = false <-> (b < lo \/ hi < b).
Proof. unfold inr. rewrite andb_false_iff, !Z.leb_gt. tauto. Qed.

Ltac inr_solve :=
  repeat match goal with
  | H : _ && _ = true |- _ => apply andb_true_iff in H; destruct H
  | H : inr _ _ _ = true |- _ => apply inr_true in H
  | H : inr _ _ _ = false |- _ => apply inr_false in H
  end.

Ltac inr_eval :=
  repeat match goal with
  | |- context [inr ?a ?b ?c] =>
      first [ replace (inr a b c) with true by (symmetry; apply inr_true; lia)
            | replace (inr a b c) with false by (symmetry; apply inr_false; lia) ]
  end.

Lemma is_scalar_spec c : is_scalar c = true <-> (0 <= c < 55296 \/ 57344 <= c <= 1114111).
Proof.
  unfold is_scalar. rewrite orb_true_iff, !andb_true_iff, !Z.leb_le, Z.ltb_lt. tauto.
Qed.

Lemma str_ok_enc c s : is_scalar c = true -> str_ok (utf8_enc c ++ s) = str_ok s.
Proof.
  intros H. apply is_scalar_spec in H. unfold utf8_enc.
  destruct (Z.ltb_spec c 128).
  { cbn [app str_ok]. inr_eval. reflexivity. }
  destruct (Z.ltb_spec c 2048).
  { cbn [app].
    assert (2 <= c / 64 <= 31) by (Z.to_euclidean_division_equations; lia).
    assert (0 <= c mod 64 <= 63) by (Z.to_euclidean_division_equations; lia).
    cbn [str_ok]. inr_eval. cbn. reflexivity. }
  destruct (Z.ltb_spec c 65536).
  { cbn [app].
    assert (0 <= c / 4096 <= 15) by (Z.to_euclidean_division_equations; lia).
    assert (0 <= (c / 64) mod 64 <= 63) by (Z.to_euclidean_division_equations; lia).
    assert (0 <= c mod 64 <= 63) by (Z.to_euclidean_division_equations; lia).
    assert (c / 4096 = 0 -> 32 <= (c / 64) mod 64) by (Z.to_euclidean_division_equations; lia).
    assert (c / 4096 = 13 -> (c / 64) mod 64 <= 31) by (Z.to_euclidean_division_equations; lia).
    cbn [str_ok].
    set (a := c / 4096) in *. set (b := (c / 64) mod 64) in *. set (d := c mod 64) in *.
    clearbody a b d.
    replace (inr 0 127 (224 + a)) with false by (symmetry; apply inr_false; lia).
    replace (inr 194 223 (224 + a)) with false by (symmetry; apply inr_false; lia).
    replace (inr 128 191 (128 + d)) with true by (symmetry; apply inr_true; lia).
    cbn [andb].
    assert (Q : inr 224 224 (224 + a) && inr 160 191 (128 + b)
      || (inr 225 236 (224 + a) || inr 238 239 (224 + a)) && inr 128 191 (128 + b)
      || inr 237 237 (224 + a) && inr 128 159 (128 + b) = true).
    { rewrite !orb_true_iff, !andb_true_iff, orb_true_iff, !inr_true. lia. }
    rewrite Q. reflexivity. }
  { cbn [app].
    assert (0 <= c / 262144 <= 4) by (Z.to_euclidean_division_equations; lia).
    assert (0 <= (c / 4096) mod 64 <= 63) by (Z.to_euclidean_division_equations; lia).
    assert (0 <= (c / 64) mod 64 <= 63) by (Z.to_euclidean_division_equations; lia).
    assert (0 <= c mod 64 <= 63) by (Z.to_euclidean_division_equations; lia).
    assert (c / 262144 = 0 -> 16 <= (c / 4096) mod 64) by (Z.to_euclidean_division_equations; lia).
    assert (c / 262144 = 4 -> (c / 4096) mod 64 <= 15) by (Z.to_euclidean_division_equations; lia).
    cbn [str_ok].
    set (a := c / 262144) in *. set (b := (c / 4096) mod 64) in *.
    set (d := (c / 64) mod 64) in *. set (e := c mod 64) in *.
    clearbody a b d e.
    replace (inr 0 127 (240 + a)) with false by (symmetry; apply inr_false; lia).
    replace (inr 194 223 (240 + a)) with false by (symmetry; apply inr_false; lia).
    replace (inr 224 224 (240 + a)) with false by (symmetry; apply inr_false; lia).
    replace (inr 225 236 (240 + a)) with false by (symmetry; apply inr_false; lia).
    replace (inr 238 239 (240 + a)) with false by (symmetry; apply inr_false; lia).
    replace (inr 237 237 (240 + a)) with false by (symmetry; apply inr_false; lia).
    replace (inr 128 191 (128 + d)) with true by (symmetry; apply inr_true; lia).
    replace (inr 128 191 (128 + e)) with true by (symmetry; apply inr_true; lia).
    cbn [andb orb].
    assert (Q : inr 240 240 (240 + a) && inr 144 191 (128 + b)
      || inr 241 243 (240 + a) && inr 128 191 (128 + b)
      || inr 244 244 (240 + a) && inr 128 143 (128 + b) = true).
    { rewrite !orb_true_iff, !andb_true_iff, !inr_true. lia. }
    rewrite Q. reflexivity. }
Qed.

(** A valid nonempty string starts with the encoding of a scalar value. *)
Lemma str_ok_cons_inv a s :
  str_ok (a :: s) = true ->
  exists c s', is_scalar c = true /\ a :: s = utf8_enc c ++ s' /\ str_ok s' = true.
Proof.
  intros H.
  assert (K : forall c s', is_scalar c = true -> a :: s = utf8_enc c ++ s' ->
    exists c s', is_scalar c = true /\ a :: s = utf8_enc c ++ s' /\ str_ok s' = true).
  { intros c s' Hc E. exists c, s'. split; [exact Hc|]. split; [exact E|].
    rewrite E, str_ok_enc in H by exact Hc. exact H. }
  cbn [str_ok] in H.
  destruct (inr 0 127 a) eqn:E1.
  { inr_solve. apply (K a s).
    - apply is_scalar_spec. lia.
    - unfold utf8_enc. destruct (Z.ltb_spec a 128); [reflexivity | lia]. }
  destruct s as [|b s2]; [discriminate|].
  destruct (inr 194 223 a && inr 128 191 b) eqn:E2.
  { inr_solve. apply (K ((a - 192) * 64 + (b - 128)) s2).
    - apply is_scalar_spec. lia.
    - unfold utf8_enc.
      destruct (Z.ltb_spec ((a - 192) * 64 + (b - 128)) 128); [lia|].
      destruct (Z.ltb_spec ((a - 192) * 64 + (b - 128)) 2048); [|lia].
      cbn [app]. f_equal; [|f_equal]; Z.to_euclidean_division_equations; lia. }
  destruct s2 as [|c s3]; [discriminate|].
  destruct (inr 128 191 c &&
     ((inr 224 224 a && inr 160 191 b) ||
      ((inr 225 236 a || inr 238 239 a) && inr 128 191 b) ||
      (inr 237 237 a && inr 128 159 b))) eqn:E3.
  { apply andb_true_iff in E3. destruct E3 as [E3 E4].
    rewrite !orb_true_iff, !andb_true_iff, orb_true_iff, !inr_true in E4.
    apply inr_true in E3.
    apply (K ((a - 224) * 4096 + (b - 128) * 64 + (c - 128)) s3).
    - apply is_scalar_spec. lia.
    - unfold utf8_enc.
      destruct (Z.ltb_spec ((a - 224) * 4096 + (b - 128) * 64 + (c - 128)) 128); [lia|].
      destruct (Z.ltb_spec ((a - 224) * 4096 + (b - 128) * 64 + (c - 128)) 2048); [lia|].
      destruct (Z.ltb_spec ((a - 224) * 4096 + (b - 128) * 64 + (c - 128)) 65536); [|lia].
      cbn [app]. f_equal; [|f_equal; [|f_equal]]; Z.to_euclidean_division_equations; lia. }
  destruct s3 as [|d s4]; [discriminate|].
  destruct (inr 128 191 c && inr 128 191 d &&
     ((inr 240 240 a && inr 144 191 b) ||
      (inr 241 243 a && inr 128 191 b) ||
      (inr 244 244 a && inr 128 143 b))) eqn:E4; [|discriminate].
  apply andb_true_iff in E4. destruct E4 as [E4 E5].
  rewrite !orb_true_iff, !andb_true_iff, !inr_true in E5.
  inr_solve.
  set (x := (a - 240) * 262144 + (b - 128) * 4096 + (c - 128) * 64 + (d - 128)).
  apply (K x s4).
  - apply is_scalar_spec. lia.
  - unfold utf8_enc.
    destruct (Z.ltb_spec x 128); [lia|].
    destruct (Z.ltb_spec x 2048); [lia|].
    destruct (Z.ltb_spec x 65536); [lia|].
    cbn [app]. subst x.
    f_equal; [|f_equal; [|f_equal; [|f_equal]]]; Z.to_euclidean_division_equations; lia.
Qed.

Lemma utf8_enc_nonempty c : exists a s, utf8_enc c = a :: s.
Proof.
  unfold utf8_enc. destruct (c <? 128); [eauto|]. destruct (c <? 2048); [eauto|].
  destruct (c <? 65536); eauto.
Qed.

Lemma str_ok_encode_all cs : forallb is_scalar cs = true -> str_ok (encode_all cs) = true.
Proof.
  induction cs as [|c cs IH]; intros H; [reflexivity|].
  cbn in H. apply andb_true_iff in H. destruct H as [H1 H2].
  unfold encode_all. cbn [map concat]. rewrite str_ok_enc by exact H1. apply IH. exact H2.
Qed.

Theorem str_ok_spec s : str_ok s = true <-> Utf8 s.
Proof.
  split.
  - remember (length s) as n eqn:Hn.
    revert s Hn. induction n as [n IH] using lt_wf_ind. intros s Hn H.
    destruct s as [|a s].
    { exists []. split; reflexivity. }
    destruct (str_ok_cons_inv a s H) as (c & s' & Hc & E & Hs').
    destruct (utf8_enc_nonempty c) as (x & y & Exy).
    destruct (IH (length s')) with (s := s') as (cs & H1 & H2); auto.
    { subst n. rewrite E, Exy. cbn. rewrite app_length. lia. }
    exists (c :: cs). split.
    + cbn. rewrite Hc. exact H1.
    + rewrite E, H2. reflexivity.
  - intros (cs & H & ->). apply str_ok_encode_all. exact H.
Qed.

Lemma str_ok_app a b : str_ok a = true -> str_ok (a ++ b) = str_ok b.
Proof.
  intros H. apply str_ok_spec in H. destruct H as (cs & H & ->).
  induction cs as [|c cs IH]; [reflexivity|].
  cbn in H. apply andb_true_iff in H. destruct H as [H1 H2].
  unfold encode_all. cbn [map concat]. rewrite <- app_assoc, str_ok_enc by exact H1.
  apply IH. exact H2.
Qed.

Definition is_cont (b : Z) : bool := inr 128 191 b.

(** Continuation bytes inside an encoded scalar. *)
Lemma utf8_enc_tail c x s :
  is_scalar c = true -> utf8_enc c = x :: s -> forallb is_cont s = true /\ is_cont x = false.
Proof.
  intros H E. apply is_scalar_spec in H. unfold utf8_enc in E. symmetry in E.
  destruct (Z.ltb_spec c 128).
  { injection E as -> ->. split; [reflexivity|]. apply inr_false. lia. }
  destruct (Z.ltb_spec c 2048).
  { pose proof (f_equal (hd 0) E) as E1. pose proof (f_equal (@tl Z) E) as E2.
    cbn [hd tl] in E1, E2. rewrite E1, E2. cbn [forallb]. unfold is_cont.
    rewrite !andb_true_iff, !inr_true, inr_false.
    repeat split; try reflexivity; Z.to_euclidean_division_equations; lia. }
  destruct (Z.ltb_spec c 65536).
  { pose proof (f_equal (hd 0) E) as E1. pose proof (f_equal (@tl Z) E) as E2.
    cbn [hd tl] in E1, E2. rewrite E1, E2. cbn [forallb]. unfold is_cont.
    rewrite !andb_true_iff, !inr_true, inr_false.
    repeat split; try reflexivity; Z.to_euclidean_division_equations; lia. }
  { pose proof (f_equal (hd 0) E) as E1. pose proof (f_equal (@tl Z) E) as E2.
    cbn [hd tl] in E1, E2. rewrite E1, E2. cbn [forallb]. unfold is_cont.
    rewrite !andb_true_iff, !inr_true, inr_false.
    repeat split; try reflexivity; Z.to_euclidean_division_equations; lia. }
Qed.

(** Validity splits in front of every byte that is not a continuation byte. *)
Lemma str_ok_split a c b :
  is_cont c = false -> str_ok (a ++ c :: b) = true ->
  str_ok a = true /\ str_ok (c :: b) = true.
Proof.
  intros Hc. remember (length a) as n eqn:Hn. revert a Hn.
  induction n as [n IH] using lt_wf_ind. intros a Hn H.
  destruct a as [|x a]; [split; [reflexivity | exact H]|].
  cbn [app] in H.
  destruct (str_ok_cons_inv _ _ H) as (u & s' & Hu & E & Hs').
  destruct (utf8_enc_nonempty u) as (y & t & Et).
  destruct (utf8_enc_tail u y t Hu Et) as [Ht _].
  rewrite Et in E. cbn [app] in E. injection E as <- E.
  assert (T : exists a', a = t ++ a' /\ s' = a' ++ c :: b).
  { clear - E Ht Hc. revert t E Ht. induction a as [|z a IHa]; intros t E Ht.
    - destruct t as [|z t]; cbn in E.
      + exists []. auto.
      + injection E as <- E. cbn in Ht. rewrite Hc in Ht. discriminate.
    - destruct t as [|z' t]; cbn in E.
      + exists (z :: a). auto.
      + injection E as <- E. cbn in Ht. apply andb_true_iff in Ht.
        destruct (IHa t E (proj2 Ht)) as (a' & -> & ->). exists a'. auto. }
  destruct T as (a' & -> & ->).
  destruct (IH (length a')) with (a := a') as [IH1 IH2]; auto.
  { subst n. cbn. rewrite app_length. lia. }
  split; [|exact IH2].
  change (x :: t ++ a') with ((x :: t) ++ a'). rewrite <- Et, str_ok_enc by exact Hu. exact IH1.
Qed.

Lemma str_ok_ascii c s : inr 0 127 c = true -> str_ok (c :: s) = str_ok s.
Proof. intros H. cbn [str_ok]. rewrite H. reflexivity. Qed.

(** All bytes of a valid string are bytes. *)
Lemma utf8_enc_bytes c : is_scalar c = true -> Forall (fun b => 0 <= b <= 255) (utf8_enc c).
Proof.
  intros H. apply is_scalar_spec in H. unfold utf8_enc.
  destruct (Z.ltb_spec c 128).
  { repeat constructor; lia. }
  destruct (Z.ltb_spec c 2048).
  { repeat constructor; Z.to_euclidean_division_equations; lia. }
  destruct (Z.ltb_spec c 65536);
  repeat constructor; Z.to_euclidean_division_equations; lia.
Qed.

Lemma str_ok_bytes s : str_ok s = true -> Forall (fun b => 0 <= b <= 255) s.
Proof.
  intros H. apply str_ok_spec in H. destruct H as (cs & H & ->).
  induction cs as [|c cs IH]; [constructor|].
  cbn in H. apply andb_true_iff in H. destruct H as [H1 H2].
  unfold encode_all. cbn [map concat]. apply Forall_app. split.
  - apply utf8_enc_bytes. exact H1.
  - apply IH. exact H2.
Qed.
