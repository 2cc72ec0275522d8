(** Reading back what was written. *)
From Coq Require Import String ZArith List Bool Lia Reals Permutation Floats.SpecFloat.
From Flocq Require Import Core.Core IEEE754.BinarySingleNaN.
From Verif Require Import Base Utf8 Utf8Facts F64 Lexer Grammar LexSpec Types Ser Reading MapFacts ReadFacts ReadMain NumValue FloatRead NumFacts DocSpec TypedFacts
  ClaimsTypes SerSpec SerFacts RenderFacts WriteFacts FloatRT.
Import ListNotations.
Open Scope Z_scope.

(** ** Lists *)
Lemma forall2_in_l {A B} (R : A -> B -> Prop) l l' a : Forall2 R l l' -> In a l -> exists b, In b l' /\ R a b.
Proof. induction 1 as [|x y l l' H HF IH]; intros []; [subst; exists y; split; [left; reflexivity|assumption]|]. destruct (IH H0) as (b & ? & ?). exists b. split; [right; assumption|assumption]. Qed.
Lemma forall2_in_r {A B} (R : A -> B -> Prop) l l' b : Forall2 R l l' -> In b l' -> exists a, In a l /\ R a b.
Proof. induction 1 as [|x y l l' H HF IH]; intros []; [subst; exists x; split; [left; reflexivity|assumption]|]. destruct (IH H0) as (a & ? & ?). exists a. split; [right; assumption|assumption]. Qed.
Lemma forall2_len {A B} (R : A -> B -> Prop) l l' : Forall2 R l l' -> List.length l = List.length l'.
Proof. induction 1; cbn [List.length]; congruence. Qed.
Lemma forall2_nth_l {A B} (R : A -> B -> Prop) l l' : Forall2 R l l' -> forall i a, nth_error l i = Some a -> exists b, nth_error l' i = Some b /\ R a b.
Proof.
  induction 1 as [|x y l l' H HF IH]; intros [|i] a Hi; cbn [nth_error] in *; try discriminate.
  - injection Hi as <-. eauto.
  - apply IH, Hi.
Qed.

(** ** Maps *)
Lemma sorted_ext {K A B} (cmp : K -> K -> comparison) (m : list (K * A)) (m' : list (K * B)) :
  map fst m = map fst m' -> sorted_keys cmp m = sorted_keys cmp m'.
Proof.
  revert m'. induction m as [|[k v] m IH]; intros [|[k' v'] m'] H; try discriminate; [reflexivity|].
  cbn [map fst] in H. injection H as -> H. specialize (IH _ H). cbn [sorted_keys].
  destruct m as [|[k1 v1] m], m' as [|[k2 v2] m']; try discriminate; [reflexivity|]. cbn [map fst] in H. injection H as -> _.
  destruct (cmp k' k2); try reflexivity. exact IH.
Qed.
Lemma sorted_nodup {K A} (cmp : K -> K -> comparison) (P : K -> Prop)
  (Hr : forall a, P a -> cmp a a = Eq) (Ht : forall a b c, P a -> P b -> P c -> cmp a b = Lt -> cmp b c = Lt -> cmp a c = Lt) (m : list (K * A)) :
  Forall (fun kv => P (fst kv)) m -> sorted_keys cmp m = true -> NoDup (map fst m).
Proof.
  induction m as [|[k v] m IH]; intros HP HS; [constructor|].
  apply (sorted_cons cmp P) in HS; [|assumption|exact HP]. destruct HS as [HB HS]. inversion HP; subst. cbn [map fst]. constructor; [|apply IH; assumption].
  intros Hin. apply in_map_iff in Hin. destruct Hin as ([k' v'] & E & Hin). cbn in E. subst k'. unfold below in HB. rewrite Forall_forall in HB. apply HB in Hin. cbn in Hin, H1.
  rewrite Hr in Hin by assumption. discriminate.
Qed.
Lemma nodup_last {K A} (l : list (K * A)) k v : NoDup (map fst l) -> (In (k, v) l <-> last_binding l k v).
Proof.
  intros HN. split; [|apply last_in]. intros Hin. apply in_split in Hin. destruct Hin as (a & b & ->). exists a, b. split; [reflexivity|].
  rewrite map_app in HN. apply NoDup_remove_2 in HN. apply Forall_forall. intros [k' v'] Hi E0. cbn in E0. subst k'. apply HN.
  apply in_or_app. right. apply (in_map fst) in Hi. exact Hi.
Qed.
Lemma perm_MapOf {K A} (cmp : K -> K -> comparison) (m l : list (K * A)) :
  sorted_keys cmp m = true -> NoDup (map fst m) -> Permutation m l -> MapOf cmp l m.
Proof.
  intros HS HN HP. split; [exact HS|]. intros k v.
  assert (NoDup (map fst l)) by (eapply Permutation_NoDup; [apply Permutation_map, HP|exact HN]).
  rewrite <- nodup_last by assumption. split; apply Permutation_in; [exact HP|apply Permutation_sym, HP].
Qed.

(** ** Keys *)
Lemma digits_value_eq ds : Forall digit ds -> forall acc, digits_value acc (dtext ds) = Some (fold_left (fun a d => a * 10 + d) ds acc).
Proof.
  intros H. induction H as [|d ds Hd H IH]; intros acc; [reflexivity|]. unfold digit in Hd. cbn [dtext map digits_value fold_left].
  assert (is_digit (48 + d) = true) as -> by (unfold is_digit; apply andb_true_iff; rewrite !Z.leb_le; lia).
  change (map (fun d0 => 48 + d0) ds) with (dtext ds). rewrite IH. f_equal. f_equal. f_equal. lia.
Qed.
Lemma int_key_back sg b z : int_ok sg b z = true -> int_from_str sg b (itoa z) = Some z.
Proof.
  intros HI.
  unfold itoa. destruct (z <? 0) eqn:EZ.
  - apply Z.ltb_lt in EZ. destruct (dec_digits_eq (- z)) as (ds & A & B & C); [lia|]. rewrite A.
    assert (sg = true). { destruct sg; [reflexivity|]. unfold int_ok, int_min in HI. apply andb_true_iff in HI. rewrite Z.leb_le in HI. lia. } subst sg.
    cbn [int_from_str Z.eqb Pos.eqb andb]. destruct B as [|d ds Hd HD].
    + cbn in C. lia.
    + cbn [dtext map]. change ((48 + d) :: map (fun d0 => 48 + d0) ds) with (dtext (d :: ds)).
      rewrite digits_value_eq by (constructor; [unfold digit; lia|exact HD]). change (fold_left _ (d :: ds) 0) with (digits_val (d :: ds)). rewrite C, Z.opp_involutive, HI. reflexivity.
  - apply Z.ltb_ge in EZ. destruct (dec_digits_eq z) as (ds & A & B & C); [lia|]. rewrite A. unfold int_from_str.
    assert (HD : Forall digit ds) by (apply int_digits_all, B).
    destruct ds as [|d ds]; [inversion B|]. inversion HD as [|? ? Hd HD']; subst. unfold digit in Hd. cbn [dtext map].
    rewrite (proj2 (Z.eqb_neq (48 + d) 43)) by lia. rewrite (proj2 (Z.eqb_neq (48 + d) 45)) by lia. cbn [andb].
    change ((48 + d) :: map (fun d0 => 48 + d0) ds) with (dtext (d :: ds)).
    rewrite digits_value_eq by exact HD. change (fold_left _ (d :: ds) 0) with (digits_val (d :: ds)). rewrite HI. reflexivity.
Qed.
Lemma key_back K v : key_ok K v = true -> key_from_str K (key_to_string v) = Some v.
Proof.
  destruct K as [|sg b|], v; cbn [key_ok key_to_string key_from_str]; intros H; try discriminate; [reflexivity| |].
  - rewrite int_key_back by exact H. reflexivity.
  - destruct b; reflexivity.
Qed.
Lemma key_ok_kind K v : key_ok K v = true -> key_kind K v.
Proof. destruct K, v; cbn; intros H; try discriminate; exact Logic.I. Qed.

(** ** Floats and integers *)
Definition dlits (d : doc) : Prop := Forall (fun n => lit_ok n /\ lit_short n) (lits d).
Lemma dlits_arr l : dlits (DArr l) <-> Forall dlits l.
Proof. unfold dlits. cbn [lits]. induction l as [|d l IH]; cbn [flat_map]; [split; constructor|]. rewrite Forall_app, Forall_cons_iff, IH. tauto. Qed.
Lemma dlits_obj l : dlits (DObj l) <-> Forall (fun kd => dlits (snd kd)) l.
Proof. unfold dlits. cbn [lits]. induction l as [|d l IH]; cbn [flat_map]; [split; constructor|]. rewrite Forall_app, Forall_cons_iff, IH. tauto. Qed.
Lemma dlits_num n : dlits (DNum n) -> lit_ok n /\ lit_short n.
Proof. intros H. inversion H; assumption. Qed.
Lemma dlits_ok d : dlits d -> doc_ok d.
Proof.
  induction d as [|b|s|n|l IH|l IH] using doc_ind'; intros H; try exact Logic.I.
  - apply dlits_num in H. apply H.
  - apply doc_ok_arr. apply dlits_arr in H. rewrite Forall_forall in *. auto.
  - apply doc_ok_obj. apply dlits_obj in H. rewrite Forall_forall in *. auto.
Qed.
Lemma reads_readable' E T d v : dlits d -> ty_ok T = true -> env_ok E = true -> Reads E T d v -> readable d.
Proof.
  intros HO HT HE HR. apply dlits_ok in HO. apply (reads_de E HE d HO T v HT) in HR.
  destruct HR as (t & Ht & _). apply (readable_iff E); eauto.
Qed.
Lemma f64_back f n : f64_inner f -> ~ is_int_lit n -> n_neg n = sign_SF f -> nearest64 (lit_value n) = freal f -> dlits (DNum n) ->
  exists y, reads_f n y /\ f64_close f y.
Proof.
  intros [F B] HN HS HV HD. apply dlits_num in HD. destruct HD as [HO HL].
  destruct (reads_back n (freal f) HO HL HN HV B) as (y & Hy & [Vy Fy] & Sy & D).
  exists y. split; [exact Hy|]. split; [exact Vy|]. split; [rewrite <- finite_SF; exact Fy|]. split; [congruence|exact D].
Qed.
Lemma u64_back z n : is_int_lit n -> lit_int n = z -> n_neg n = (z <? 0) -> 0 <= z <= u64_MAX -> reads_u n z.
Proof. intros HI HZ HN HB. rewrite (proj2 (Z.ltb_ge z 0)) in HN by lia. split; [exact HI|]. split; [exact HN|]. split; [congruence|lia]. Qed.
Lemma i64_back z n : is_int_lit n -> lit_int n = z -> n_neg n = (z <? 0) -> i64_MIN <= z < 0 -> reads_i n z.
Proof. intros HI HZ HN HB. rewrite (proj2 (Z.ltb_lt z 0)) in HN by lia. split; [exact HI|]. split; [exact HN|]. split; [congruence|lia]. Qed.

(** ** json::Value *)
Lemma jfloats_arr l : jfloats_ok (JvArr l) <-> Forall jfloats_ok l.
Proof. cbn [jfloats_ok]. induction l as [|x l IH]; [split; constructor|]. rewrite Forall_cons_iff, <- IH. tauto. Qed.
Lemma jfloats_obj l : jfloats_ok (JvObj l) <-> Forall (fun kj => jfloats_ok (snd kj)) l.
Proof. cbn [jfloats_ok]. induction l as [|x l IH]; [split; constructor|]. rewrite Forall_cons_iff, <- IH. tauto. Qed.

Lemma num_back m d : jnum_ok m = true -> jfloats_ok (JvNum m) -> Denotes (ntree m) d -> dlits d ->
  (exists n m', d = DNum n /\ JReads d (JvNum m') /\ JBack (JvNum m) (JvNum m')) \/ (d = DNull /\ exists f, m = NF64 f /\ f_is_finite f = false).
Proof.
  intros HO HF HD HL. unfold ntree in HD. destruct m as [z|z|f]; cbn [jnum_ok jtree] in *.
  - inversion HD; subst. apply andb_true_iff in HO. rewrite !Z.leb_le in HO. left. exists n, (NU64 (lit_int n)). split; [reflexivity|].
    split; [|constructor]. constructor. apply u64_back; auto.
  - inversion HD; subst. apply andb_true_iff in HO. rewrite !Z.leb_le in HO. left. exists n.
    destruct (Z_lt_le_dec (lit_int n) 0) as [HZ|HZ].
    + exists (NI64 (lit_int n)). split; [reflexivity|]. split; [|constructor; exact HZ]. constructor. apply i64_back; auto. lia.
    + exists (NU64 (lit_int n)). split; [reflexivity|]. split; [|apply jb_i64_nonneg; exact HZ]. constructor. apply u64_back; auto. unfold i64_MAX, u64_MAX in *. lia.
  - inversion HD; subst.
    + left. destruct (f64_back f n) as (y & Hy & HC); auto. exists n, (NF64 y). split; [reflexivity|]. split; constructor; assumption.
    + right. split; [reflexivity|]. eauto.
Qed.
Theorem json_back j : forall d, jval_ok j = true -> jfloats_ok j -> Denotes (jtree j) d -> dlits d -> exists j', JReads d j' /\ JBack j j'.
Proof.
  induction j as [|b|m|s|l IH|l IH] using jval_ind'; intros d HO HF HD HL; cbn [jval_ok] in *.
  - inversion HD; subst. exists JvNull. split; constructor.
  - inversion HD; subst. exists (JvBool b). split; constructor.
  - destruct (num_back m d HO HF HD HL) as [(n & m' & -> & H1 & H2)|(-> & f & -> & Hf)]; [eauto|]. exists JvNull. split; constructor. exact Hf.
  - inversion HD; subst. exists (JvStr s). split; constructor.
  - cbn [jtree] in HD. inversion HD as [| | | | | | |ts ds HDs|]; subst. apply dlits_arr in HL. apply jfloats_arr in HF.
    assert (exists js, Forall2 JReads ds js /\ Forall2 JBack l js) as (js & A & B).
    { clear HD. revert ds HDs HL. induction l as [|j l IHl]; intros ds HDs HL; cbn [map] in HDs; inversion HDs as [|? d ? ds' Hd HDs']; subst.
      - exists []. split; constructor.
      - cbn [forallb] in HO. apply andb_true_iff in HO. destruct HO as [HO1 HO2]. inversion IH; inversion HF; inversion HL; subst.
        destruct (IHl ltac:(assumption) HO2 ltac:(assumption) ds' HDs' ltac:(assumption)) as (js & A & B).
        destruct (H1 d) as (j' & ? & ?); auto. exists (j' :: js). split; constructor; assumption. }
    exists (JvArr js). split; constructor; assumption.
  - cbn [jtree] in HD. inversion HD as [| | | | | | | |ts ds HDs]; subst. apply dlits_obj in HL. apply jfloats_obj in HF.
    apply andb_true_iff in HO. destruct HO as [HS HO].
    assert (exists js, Forall2 (fun kd kj => fst kd = fst kj /\ JReads (snd kd) (snd kj)) ds js /\ Forall2 (fun a b => fst a = fst b /\ JBack (snd a) (snd b)) l js) as (js & A & B).
    { clear HD HS. revert ds HDs HL. induction l as [|[k j] l IHl]; intros ds HDs HL; cbn [map] in HDs; inversion HDs as [|? kd ? ds' Hd HDs']; subst.
      - exists []. split; constructor.
      - cbn [forallb fst snd] in *. apply andb_true_iff in HO. destruct HO as [HO1 HO2]. apply andb_true_iff in HO1. destruct HO1 as [_ HO1]. inversion IH; inversion HF; inversion HL; subst.
        destruct (IHl ltac:(assumption) HO2 ltac:(assumption) ds' HDs' ltac:(assumption)) as (js & A & B). destruct Hd as [Hk Hd]. cbn [fst snd] in *.
        destruct (H1 (snd kd)) as (j' & ? & ?); auto. exists ((k, j') :: js). split; constructor; cbn [fst snd]; auto. }
    assert (EK : map fst l = map fst js). { clear -B. induction B as [|a b l js [H _] HF IH]; cbn [map]; congruence. }
    exists (JvObj js). split; [|constructor; exact B]. econstructor; [exact A|].
    apply perm_MapOf; [rewrite <- (sorted_ext bytes_cmp l js EK); exact HS| |apply Permutation_refl].
    rewrite <- EK. apply (sorted_nodup bytes_cmp (fun _ => True)).
    + intros a _. apply bytes_cmp_refl.
    + intros a b c _ _ _. apply bytes_cmp_trans.
    + apply Forall_forall. auto.
    + exact HS.
Qed.

(** ** null *)
Lemma null_json j d : Denotes (jtree j) d -> (d = DNull <-> prints_null (VJson j) = true).
Proof.
  intros H. destruct j as [|b|m|s|l|l]; cbn [jtree prints_null] in *; try destruct m; inversion H; subst; split; try congruence; try discriminate; auto.
  - rewrite H1. discriminate.
  - rewrite H1. reflexivity.
Qed.

Lemma null_f64 f d : Denotes (STF64 f) d -> (d = DNull <-> negb (f_is_finite f) = true).
Proof. intros H. inversion H as [| | | | |? ? F|? F| |]; subst; rewrite F; split; (congruence || discriminate || (intros; reflexivity)). Qed.
Lemma null_iff E v : forall T t d, has_type E T v -> Writes E T v t -> Denotes t d -> (d = DNull <-> prints_null v = true).
Proof.
  induction v as [|b|s|z|f|f|v IH| |v IH|a b IHa IHb|l IH|l IH|j|m|l|l|l IH|i] using val_ind'; intros T t d HT HW HD; inversion HW; subst; cbn [prints_null];
    try (inversion HD; subst; split; congruence || discriminate || reflexivity; fail).
  - rewrite (null_f64 _ _ HD). inversion HT; subst. destruct (widen_spec f) as (_ & -> & _); [assumption|]. reflexivity.
  - apply null_f64, HD.
  - inversion HT; subst. eapply IH; eauto.
  - inversion HT; subst. eapply IH; eauto.
  - apply null_json, HD.
  - apply null_json in HD. rewrite HD. cbn [prints_null]. destruct m; reflexivity.
Qed.

(** ** All types *)
Lemma floats_seq l : floats_ok (VSeq l) <-> Forall floats_ok l.
Proof. cbn [floats_ok]. induction l as [|x l IH]; [split; constructor|]. rewrite Forall_cons_iff, <- IH. tauto. Qed.
Lemma floats_map l : floats_ok (VMap l) <-> Forall (fun kv => floats_ok (snd kv)) l.
Proof. cbn [floats_ok]. induction l as [|x l IH]; [split; constructor|]. rewrite Forall_cons_iff, <- IH. tauto. Qed.

Section Main.
Variable E : env.
Hypothesis HE : env_ok E = true.
Hypothesis HN : distinct_names E.

Definition Pb (v : val) : Prop := forall T t d, has_type E T v -> ty_ok T = true -> floats_ok v -> Writes E T v t -> Denotes t d -> dlits d ->
  exists v', Reads E T d v' /\ Back E T v v'.

Lemma seq_back T l ts ds : Forall Pb l -> ty_ok T = true -> Forall (has_type E T) l -> Forall floats_ok l ->
  Forall2 (Writes E T) l ts -> Forall2 Denotes ts ds -> Forall dlits ds -> exists l', Forall2 (Reads E T) ds l' /\ Forall2 (Back E T) l l'.
Proof.
  intros HP HO HT HF HW. revert ds HP HT HF. induction HW as [|v t l ts Hw HW IH]; intros ds HP HT HF HD HL; inversion HD as [|? d ? ds' Hd HD']; subst.
  - exists []. split; constructor.
  - inversion HP; inversion HT; inversion HF; inversion HL; subst. destruct (IH ds') as (l' & A & B); auto.
    match goal with HX : Pb v |- _ => destruct (HX T t d) as (v' & ? & ?); auto end. exists (v' :: l'). split; constructor; assumption.
Qed.
Lemma map_back K T l ts ds : Forall (fun kv => Pb (snd kv)) l -> ty_ok T = true -> Forall (fun kv => key_ok K (fst kv) = true) l ->
  Forall (fun kv => has_type E T (snd kv)) l -> Forall (fun kv => floats_ok (snd kv)) l ->
  Forall2 (fun kv kt => fst kt = key_to_string (fst kv) /\ Writes E T (snd kv) (snd kt)) l ts ->
  Forall2 (fun kt kd => fst kt = fst kd /\ Denotes (snd kt) (snd kd)) ts ds -> Forall (fun kd => dlits (snd kd)) ds ->
  exists l', Forall2 (fun kd kv => KeyReads K (fst kd) (fst kv) /\ Reads E T (snd kd) (snd kv)) ds l' /\
    Forall2 (fun a b => fst a = fst b /\ Back E T (snd a) (snd b)) l l'.
Proof.
  intros HP HO HK HT HF HW. revert ds HP HK HT HF. induction HW as [|[k v] [kt t] l ts [Hk Hw] HW IH]; intros ds HP HK HT HF HD HL; inversion HD as [|? [kd d] ? ds' [Hd1 Hd2] HD']; subst.
  - exists []. split; constructor.
  - cbn [fst snd] in *. subst. inversion HP; inversion HK; inversion HT; inversion HF; inversion HL; subst. cbn [fst snd] in *. destruct (IH ds') as (l' & A & B); auto.
    match goal with HX : Pb v |- _ => destruct (HX T t d) as (v' & ? & ?); auto end. exists ((k, v') :: l').
    split; constructor; cbn [fst snd]; auto. split; [|assumption]. apply key_reads_iff, key_back. assumption.
Qed.
Lemma struct_back (fs : list (bytes * ty)) : forall vs ts (ds : list (bytes * doc)), Forall Pb vs -> Forall (fun f => ty_ok (snd f) = true) fs -> Forall2 (fun f v => has_type E (snd f) v) fs vs -> Forall floats_ok vs ->
  Forall2 (fun fv kt => fst kt = fst (fst fv) /\ Writes E (snd (fst fv)) (snd fv) (snd kt)) (combine fs vs) ts ->
  Forall2 (fun kt kd => fst kt = fst kd /\ Denotes (snd kt) (snd kd)) ts ds -> Forall (fun kd => dlits (snd kd)) ds ->
  exists vs', List.length vs' = List.length fs /\ Forall2 (fun f kd => fst f = fst kd) fs ds /\
    (forall i f kd v', nth_error fs i = Some f -> nth_error ds i = Some kd -> nth_error vs' i = Some v' -> Reads E (snd f) (snd kd) v') /\
    Forall2 (fun fv v' => Back E (snd (fst fv)) (snd fv) v') (combine fs vs) vs'.
Proof.
  induction fs as [|[n T] fs IH]; intros vs ts ds HP HO HT HF HW HD HL.
  - inversion HT; subst. inversion HW; subst. inversion HD; subst. exists []. split; [reflexivity|]. split; [constructor|]. split; [|constructor].
    intros [|i] f kd v' H; discriminate.
  - inversion HT as [|? v ? vs0 Ht HT']; subst. cbn [combine] in HW. inversion HW as [|? [kt t] ? ts0 [Hk Hw] HW']; subst. inversion HD as [|? [kd d] ? ds0 [Hd1 Hd2] HD']; subst.
    cbn [fst snd] in *. subst. inversion HP; inversion HO; inversion HF; inversion HL; subst. cbn [fst snd] in *.
    destruct (IH vs0 ts0 ds0) as (vs' & A & B & C & D); auto.
    match goal with HX : Pb v |- _ => destruct (HX T t d) as (v' & ? & ?); auto end.
    exists (v' :: vs'). split; [cbn [List.length]; congruence|]. split; [constructor; [reflexivity|exact B]|]. split.
    + intros [|i] f kd' w H1' H2' H3'; cbn [nth_error] in *.
      * injection H1' as <-. injection H2' as <-. injection H3' as <-. assumption.
      * eapply C; eauto.
    + cbn [combine]. constructor; assumption.
Qed.
Lemma nodup_fst_nth {A} (fs : list (bytes * A)) i j k a b : NoDup (map fst fs) -> nth_error fs i = Some (k, a) -> nth_error fs j = Some (k, b) -> i = j.
Proof.
  intros HD H1 H2. apply (map_nth_error fst) in H1, H2. cbn [fst] in *.
  eapply (proj1 (NoDup_nth_error _) HD); [|congruence]. apply nth_error_Some. congruence.
Qed.
Lemma names_struct id fs : nth_error E id = Some (DStruct fs) -> NoDup (map fst fs).
Proof. intros H. apply nth_error_In in H. exact (proj1 (Forall_forall _ _) HN _ H). Qed.
Lemma names_enum id ns : nth_error E id = Some (DEnum ns) -> NoDup ns.
Proof. intros H. apply nth_error_In in H. exact (proj1 (Forall_forall _ _) HN _ H). Qed.

Lemma env_ty id fs : nth_error E id = Some (DStruct fs) -> Forall (fun f => ty_ok (snd f) = true) fs.
Proof.
  intros H. apply nth_error_In in H. unfold env_ok in HE. rewrite forallb_forall in HE. specialize (HE _ H). cbn in HE.
  rewrite forallb_forall in HE. apply Forall_forall. exact HE.
Qed.

Theorem written_reads v : Pb v.
Proof.
  induction v as [|b|s|z|f|f|v IH| |v IH|a b IHa IHb|l IH|l IH|j|m|l|l|l IH|i] using val_ind'; intros T t d HT HO HF HW HD HL; inversion HW; subst.
  - inversion HD; subst. exists VUnit. split; constructor.
  - inversion HD; subst. exists (VBool b). split; constructor.
  - inversion HD; subst. exists (VStr s). split; constructor.
  - inversion HD as [| | |? n HI HZ HS| | | | |]; subst. inversion HT as [| | |? ? ? HB| | | | | | | | | | | | | | |]; subst. exists (VInt (lit_int n)). split; [|constructor].
    unfold int_ok in HB. apply andb_true_iff in HB. rewrite !Z.leb_le in HB.
    constructor; [exact HI| |lia]. intros Hn. rewrite Hn in HS. symmetry in HS. apply Z.ltb_lt in HS. unfold int_min in HB. lia.
  - inversion HD as [| | | |? n HI HZ HS| | | |]; subst. inversion HT as [| | |? ? ? HB| | | | | | | | | | | | | | |]; subst. exists (VInt (lit_int n)). split; [|constructor].
    unfold int_ok in HB. apply andb_true_iff in HB. rewrite !Z.leb_le in HB. constructor; [exact HI|reflexivity|lia].
  - inversion HT as [| | | |? HB| | | | | | | | | | | | | |]; subst. destruct (widen_spec f HB) as (V & F & S & R). cbn [floats_ok] in HF.
    inversion HD as [| | | | |? n F' HI HS HV|? F'| |]; subst; [|congruence]. apply dlits_num in HL. destruct HL as [L1 L2].
    destruct (f32_back n f) as (y & Hy & Hf); auto; try congruence. exists (VF32 f). split; [rewrite <- Hf; apply rd_f32; exact Hy|constructor; exact HF].
  - cbn [floats_ok] in HF. inversion HD as [| | | | |? n F' HI HS HV|? F'| |]; subst; [|destruct HF; congruence].
    destruct (f64_back f n) as (y & Hy & HC); auto. exists (VF64 y). split; [apply rd_f64; exact Hy|constructor; exact HC].
  - inversion HT; subst. cbn [floats_ok ty_ok] in *. destruct (IH T0 t d) as (v' & A & B); auto. exists (VBox v'). split; constructor; assumption.
  - inversion HD; subst. exists VNone. split; constructor.
  - inversion HT; subst. cbn [ty_ok] in HO. pose proof (null_iff E v T0 t d ltac:(assumption) ltac:(assumption) HD) as HNu. destruct (prints_null v) eqn:EP.
    + exists VNone. rewrite (proj2 HNu eq_refl). split; constructor; assumption.
    + cbn [floats_ok] in HF. destruct HF as [HF|HF]; [congruence|]. destruct (IH T0 t d) as (v' & A & B); auto. exists (VSome v'). split; constructor; try assumption.
      intros ->. destruct HNu as [HNu _]. specialize (HNu eq_refl). discriminate.
  - inversion HT; subst. cbn [ty_ok floats_ok] in *. apply andb_true_iff in HO. destruct HO as [O1 O2]. destruct HF as [F1 F2].
    inversion HD as [| | | | | | |? ds HDs|]; subst. inversion HDs as [|? d1 ? ? D1 HDs1]; subst. inversion HDs1 as [|? d2 ? ? D2 HDs2]; subst. inversion HDs2; subst.
    apply dlits_arr in HL. inversion HL as [|? ? L1 HL1]; subst. inversion HL1 as [|? ? L2 _]; subst.
    destruct (IHa A ta d1) as (a' & ? & ?); auto. destruct (IHb B tb d2) as (b' & ? & ?); auto. exists (VPair a' b'). split; constructor; assumption.
  - inversion HT; subst. cbn [ty_ok] in HO. apply floats_seq in HF. inversion HD as [| | | | | | |? ds HDs|]; subst. apply dlits_arr in HL.
    destruct (seq_back T0 l ts ds) as (l' & A & B); auto. exists (VSeq l'). split; constructor; assumption.
  - inversion HT; subst. cbn [ty_ok] in HO. apply floats_seq in HF. inversion HD as [| | | | | | |? ds HDs|]; subst. apply dlits_arr in HL.
    destruct (seq_back T0 l ts ds) as (l' & A & B); auto. exists (VSeq l'). split; constructor; try assumption.
    apply forall2_len in HDs. match goal with HX : Forall2 (Writes E T0) _ _ |- _ => apply forall2_len in HX end. congruence.
  - inversion HT as [| | | | | | | | | | | |? ? ? ? HS HK Hv| | | | | |]; subst. cbn [ty_ok] in HO. apply andb_true_iff in HO. destruct HO as [_ HO]. apply floats_map in HF.
    inversion HD as [| | | | | | | |? ds HDs]; subst. apply dlits_obj in HL.
    match goal with HX : if h then Permutation l ?b else _ |- _ => rename HX into HP; rename b into lw end.
    match goal with HX : Forall2 _ lw ts |- _ => rename HX into HWs end.
    assert (Permutation l lw) as HPm by (destruct h; [exact HP|subst; apply Permutation_refl]). clear HP.
    destruct (map_back K T0 lw ts ds) as (l' & A & B); auto; try (eapply Permutation_Forall; [exact HPm|assumption]).
    destruct (Permutation_Forall2 (Permutation_sym HPm) B) as (m' & HPm' & B').
    assert (EK : map fst l = map fst m'). { clear -B'. induction B' as [|x y l m [H _] HF IH]; cbn [map]; congruence. }
    exists (VMap m'). split; [|constructor; exact B']. econstructor; [exact A|].
    apply perm_MapOf; [rewrite <- (sorted_ext key_cmp l m' EK); exact HS| |apply Permutation_sym, HPm'].
    rewrite <- EK. apply (sorted_nodup key_cmp (key_kind K)).
    + intros x. apply key_cmp_refl.
    + intros x y w. apply key_cmp_trans.
    + eapply Forall_impl; [|exact HK]. intros kv. apply key_ok_kind.
    + exact HS.
  - inversion HT; subst. cbn [floats_ok] in HF. destruct (json_back j d) as (j' & A & B); auto. exists (VJson j'). split; constructor; assumption.
  - inversion HT; subst. destruct (num_back m d) as [(n & m' & -> & A & B)|(-> & f & -> & Hf)]; auto.
    + destruct m; cbn [floats_ok jfloats_ok] in *; auto.
    + exists (VNum m'). split; [|constructor; exact B]. inversion A; subst; constructor; assumption.
    + cbn [floats_ok] in HF. destruct HF. congruence.
  - inversion HT; subst. cbn [floats_ok] in HF. destruct (json_back (JvArr l) d) as (j' & A & B); auto.
    inversion HD; subst. inversion B; subst. eexists. split; constructor; eassumption.
  - inversion HT; subst. cbn [floats_ok] in HF. destruct (json_back (JvObj l) d) as (j' & A & B); auto.
    inversion HD; subst. inversion B; subst. eexists. split; constructor; eassumption.
  - inversion HT as [| | | | | | | | | | | | | | | | |? fs' ? EN HTs|]; subst. match goal with HX : nth_error E id = Some (DStruct fs) |- _ => rename HX into EN' end.
    rewrite EN' in EN. injection EN as <-. inversion HD as [| | | | | | | |? ds HDs]; subst. apply dlits_obj in HL.
    apply (floats_seq l) in HF. pose proof (env_ty id fs EN') as HFt. pose proof (names_struct id fs EN') as HND.
    destruct (struct_back fs l ts ds) as (vs' & A & B & C & D); auto.
    exists (VStruct vs'). split; [|econstructor; eassumption].
    assert (KD : map fst ds = map fst fs). { clear -B. induction B; cbn [map]; congruence. }
    assert (KN : NoDup (map fst ds)) by (rewrite KD; exact HND).
    assert (LD : List.length ds = List.length fs) by (rewrite <- (map_length fst ds), KD, map_length; reflexivity).
    assert (ALL : forall k d, In (k, d) ds -> exists i T v, nth_error fs i = Some (k, T) /\ nth_error ds i = Some (k, d) /\ nth_error vs' i = Some v /\ Reads E T d v).
    { intros k d Hin. apply In_nth_error in Hin. destruct Hin as [i Hi]. 
      assert (i < List.length ds)%nat by (apply nth_error_Some; congruence).
      destruct (nth_error fs i) as [[k' T]|] eqn:Ef; [|apply nth_error_None in Ef; lia].
      destruct (nth_error vs' i) as [v|] eqn:Ev; [|apply nth_error_None in Ev; lia].
      destruct (forall2_nth_l _ _ _ B i _ Ef) as (kd & Hkd & Ek). rewrite Hi in Hkd. injection Hkd as <-. cbn [fst] in Ek. subst k'.
      exists i, T, v. repeat split; auto. exact (C i _ _ _ Ef Hi Ev). }
    econstructor; [exact EN'| | |exact A|].
    + apply Forall_forall. intros [k d] Hin. cbn [snd]. destruct (ALL k d Hin) as (i & T & v & Hf & _ & _ & HR).
      apply (reads_readable' E T d v); auto.
      * rewrite Forall_forall in HL. exact (HL _ Hin).
      * rewrite Forall_forall in HFt. apply nth_error_In in Hf. exact (HFt _ Hf).
    + intros k d i T Hin [Hf _]. destruct (ALL k d Hin) as (j & T' & v & Hf' & _ & _ & HR). assert (i = j) by (first [exact (nodup_fst_nth _ _ _ _ _ _ HND Hf Hf')|exact (nodup_fst_nth _ _ _ _ _ _ HND Hf Hj')]). subst j.
      rewrite Hf in Hf'. injection Hf' as <-. eauto.
    + intros i n T v Hf Hv. left. split.
      * split; [exact Hf|]. intros j T' Hj Hj'. assert (i = j) by (first [exact (nodup_fst_nth _ _ _ _ _ _ HND Hf Hf')|exact (nodup_fst_nth _ _ _ _ _ _ HND Hf Hj')]). lia.
      * assert (i < List.length ds)%nat by (rewrite LD; apply nth_error_Some; congruence).
        destruct (nth_error ds i) as [[n' d]|] eqn:Ed; [|apply nth_error_None in Ed; lia].
        destruct (forall2_nth_l _ _ _ B i _ Hf) as (kd & Hkd & Ek). rewrite Ed in Hkd. injection Hkd as <-. cbn [fst] in Ek. subst n'.
        exists d. split; [apply nodup_last; [exact KN|eapply nth_error_In, Ed]|]. exact (C i _ _ _ Hf Ed Hv).
  - inversion HD; subst. exists (VEnum i). split; [|constructor]. econstructor; [eassumption|]. split; [assumption|].
    intros j Hj Hj'. match goal with HX : nth_error E id = _ |- _ => apply names_enum in HX; rewrite NoDup_nth_error in HX; specialize (HX i j) end.
    assert (i = j); [|lia]. match goal with HX : _ -> _ -> i = j |- _ => apply HX end; [apply nth_error_Some; congruence|congruence].
Qed.
End Main.

(** ** Values that come back unchanged *)
Lemma jplain_back j : forall j', jplain j = true -> JBack j j' -> j' = j.
Proof.
  induction j as [|b|m|s|l IH|l IH] using jval_ind'; intros j' HP HB; inversion HB; subst; cbn [jplain] in HP; try reflexivity; try discriminate.
  - apply Z.ltb_lt in HP. lia.
  - f_equal. match goal with HX : Forall2 JBack l ?b |- _ => revert HX; clear HB; revert b end. induction IH as [|j l Hj IH IHl]; intros l' HX; inversion HX; subst; [reflexivity|].
    cbn [forallb] in HP. apply andb_true_iff in HP. destruct HP. f_equal; auto.
  - f_equal. match goal with HX : Forall2 _ l ?b |- _ => revert HX; clear HB; revert b end. induction IH as [|[k j] l Hj IH IHl]; intros l' HX; inversion HX as [|? [k' j'] ? ? [? ?]]; subst; [reflexivity|].
    cbn [forallb fst snd] in *. apply andb_true_iff in HP. destruct HP. subst. f_equal; auto. f_equal. auto.
Qed.
Lemma plain_back E v : forall T v', has_type E T v -> plain v = true -> Back E T v v' -> v' = v.
Proof.
  induction v as [|b|s|z|f|f|v IH| |v IH|a b IHa IHb|l IH|l IH|j|m|l|l|l IH|i] using val_ind'; intros T v' HT HP HB; inversion HB; subst; cbn [plain] in HP; try reflexivity; try discriminate.
  - inversion HT; subst. f_equal. eauto.
  - match goal with HX : prints_null v = true |- _ => rewrite HX in HP end. discriminate.
  - inversion HT; subst. apply andb_true_iff in HP. destruct HP. f_equal. eauto.
  - inversion HT; subst. apply andb_true_iff in HP. destruct HP. f_equal; eauto.
  - inversion HT; subst. f_equal. match goal with HX : Forall2 _ l ?b, HY : Forall _ l |- _ => revert HX HY; clear - IH HP; revert b end.
    induction IH as [|x l Hx IH IHl]; intros l' HX HY; inversion HX; inversion HY; subst; [reflexivity|]. cbn [forallb] in HP. apply andb_true_iff in HP. destruct HP. f_equal; eauto.
  - inversion HT; subst. f_equal. match goal with HX : Forall2 _ l ?b, HY : Forall _ l |- _ => revert HX HY; clear - IH HP; revert b end.
    induction IH as [|x l Hx IH IHl]; intros l' HX HY; inversion HX; inversion HY; subst; [reflexivity|]. cbn [forallb] in HP. apply andb_true_iff in HP. destruct HP. f_equal; eauto.
  - inversion HT; subst. f_equal. match goal with HX : Forall2 _ l ?b, HY : Forall (fun kv => has_type _ _ _) l |- _ => revert HX HY; clear - IH HP; revert b end.
    induction IH as [|[k x] l Hx IH IHl]; intros l' HX HY; inversion HX as [|? [k' x'] ? ? [? ?]]; inversion HY; subst; [reflexivity|]. cbn [forallb fst snd] in *. apply andb_true_iff in HP. destruct HP. subst.
    f_equal; eauto. f_equal. eauto.
  - f_equal. apply jplain_back; assumption.
  - match goal with HX : JBack (JvNum _) (JvNum _) |- _ => apply jplain_back in HX; [|exact HP] end. congruence.
  - match goal with HX : JBack (JvArr _) (JvArr _) |- _ => apply jplain_back in HX; [|exact HP] end. congruence.
  - match goal with HX : JBack (JvObj _) (JvObj _) |- _ => apply jplain_back in HX; [|exact HP] end. congruence.
  - inversion HT as [| | | | | | | | | | | | | | | | |? fs' ? EN HTs|]; subst. match goal with HX : nth_error E id = Some (DStruct fs) |- _ => rewrite HX in EN; injection EN as <- end.
    f_equal. match goal with HX : Forall2 _ (combine fs l) ?b |- _ => revert HX; clear - IH HP HTs; revert b end. revert fs HTs.
    induction IH as [|x l Hx IH IHl]; intros fs HTs l' HX; inversion HTs; subst; cbn [combine] in HX; inversion HX; subst; [reflexivity|]. cbn [forallb] in HP. apply andb_true_iff in HP. destruct HP.
    cbn [fst snd] in *. f_equal; eauto.
Qed.
Lemma jplain_floats j : jplain j = true -> jfloats_ok j.
Proof.
  induction j as [|b|m|s|l IH|l IH] using jval_ind'; intros HP; try exact Logic.I.
  - destruct m; try exact Logic.I. discriminate.
  - apply jfloats_arr. cbn [jplain] in HP. rewrite forallb_forall in HP. rewrite Forall_forall in *. auto.
  - apply jfloats_obj. cbn [jplain] in HP. rewrite forallb_forall in HP. rewrite Forall_forall in *. auto.
Qed.
Lemma plain_floats v : plain v = true -> floats_ok v.
Proof.
  induction v as [|b|s|z|f|f|v IH| |v IH|a b IHa IHb|l IH|l IH|j|m|l|l|l IH|i] using val_ind'; intros HP; cbn [plain] in HP; try exact Logic.I; auto; try discriminate.
  - apply andb_true_iff in HP. right. apply IH, HP.
  - apply andb_true_iff in HP. split; [apply IHa|apply IHb]; apply HP.
  - apply floats_seq. rewrite forallb_forall in HP. rewrite Forall_forall in *. auto.
  - apply floats_map. rewrite forallb_forall in HP. rewrite Forall_forall in *. auto.
  - apply jplain_floats, HP.
  - destruct m; try exact Logic.I. discriminate.
  - apply jplain_floats. exact HP.
  - apply jplain_floats. exact HP.
  - apply (floats_seq l). rewrite forallb_forall in HP. rewrite Forall_forall in *. auto.
Qed.
