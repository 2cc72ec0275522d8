(** C41, C42: the derive macros. *)
From Coq Require Import String ZArith List Bool Lia.
From Verif Require Import Base Types MapFacts Derive DeriveSpec.
From Verif Require Lexer Impls Ser.
Import ListNotations.
Open Scope Z_scope.

Lemma cons_inv {A} (a b : A) l l' : a :: l = b :: l' -> a = b /\ l = l'.
Proof. intros [= -> ->]. auto. Qed.

(** ** attr.rs *)
Lemma sm_inv a attrs ms :
  SerdeMetas (a :: attrs) ms ->
  (a_path a <> bs "serde" /\ SerdeMetas attrs ms) \/
  (a_path a = bs "serde" /\ exists ms1 ms', a_metas a = Some ms1 /\ ms1 ++ ms' = ms /\ SerdeMetas attrs ms').
Proof.
  intros H. remember (a :: attrs) as l eqn:El. destruct H as [|b bttrs ms Hp H|b bttrs ms1 ms Hp Ha H].
  - discriminate.
  - apply cons_inv in El. destruct El as [-> ->]. left. auto.
  - apply cons_inv in El. destruct El as [-> ->]. right. eauto 6.
Qed.
Lemma rename_meta_ok r m r' :
  rename_meta r m = Ok r' <-> r = None /\ exists s, m = mkmeta (bs "rename") (RhsStr s) /\ r' = Some s.
Proof.
  unfold rename_meta. destruct m as [p rhs]. cbn [m_path m_rhs]. split.
  - destruct (bytes_eqb p (bs "rename")) eqn:Ep; [|discriminate].
    apply bytes_eqb_eq in Ep. subst p.
    destruct rhs as [s| |]; try discriminate. destruct r; [discriminate|].
    intros H. assert (r' = Some s) as -> by congruence. split; [reflexivity|]. eauto.
  - intros (-> & s & Em & ->).
    assert (p = bs "rename") as -> by congruence. assert (rhs = RhsStr s) as -> by congruence.
    assert (bytes_eqb (bs "rename") (bs "rename") = true) as -> by (apply bytes_eqb_eq; reflexivity).
    reflexivity.
Qed.

Definition no_fault {A} (r : res A) : Prop := match r with Fault _ => False | _ => True end.

Lemma rename_metas_total r ms : no_fault (rename_metas r ms).
Proof.
  revert r. induction ms as [|m ms IH]; intros r; cbn [rename_metas]; [exact I|].
  assert (Hm : no_fault (rename_meta r m)).
  { unfold rename_meta. destruct (bytes_eqb _ _); [|exact I].
    destruct (m_rhs m); try exact I. destruct r; exact I. }
  destruct (rename_meta r m); cbn in *; auto.
Qed.

Lemma rename_metas_ok r ms r' :
  rename_metas r ms = Ok r' <->
  (ms = [] /\ r' = r) \/ (r = None /\ exists s, ms = [mkmeta (bs "rename") (RhsStr s)] /\ r' = Some s).
Proof.
  revert r. induction ms as [|m ms IH]; intros r; cbn [rename_metas].
  - split.
    + intros H. left. split; [reflexivity|congruence].
    + intros [[_ ->]|(_ & s & H & _)]; [reflexivity|discriminate].
  - destruct (rename_meta r m) as [r1| |] eqn:Em; cbn [bind].
    + apply rename_meta_ok in Em. destruct Em as (-> & s & -> & ->). rewrite IH. split.
      * intros [[-> ->]|(E & _)]; [|discriminate]. right. split; [reflexivity|]. exists s. auto.
      * intros [[E _]|(_ & s' & E & ->)]; [discriminate|]. apply cons_inv in E. destruct E as [E ->].
        assert (s = s') as -> by congruence. left. auto.
    + split; [discriminate|]. intros [[E _]|(-> & s' & E & ->)]; [discriminate|].
      exfalso. apply cons_inv in E. destruct E as [-> ->].
      assert (H : rename_meta None (mkmeta (bs "rename") (RhsStr s')) = Ok (Some s')).
      { apply rename_meta_ok. eauto. }
      congruence.
    + split; [discriminate|]. intros [[E _]|(-> & s' & E & ->)]; [discriminate|].
      exfalso. apply cons_inv in E. destruct E as [-> ->].
      assert (H : rename_meta None (mkmeta (bs "rename") (RhsStr s')) = Ok (Some s')).
      { apply rename_meta_ok. eauto. }
      congruence.
Qed.

Lemma attr_rename_loop_total r attrs : no_fault (attr_rename_loop r attrs).
Proof.
  revert r. induction attrs as [|a attrs IH]; intros r; cbn [attr_rename_loop]; [exact I|].
  destruct (negb _); [apply IH|]. destruct (a_metas a) as [ms|]; [|exact I].
  pose proof (rename_metas_total r ms) as H. destruct (rename_metas r ms); cbn in *; auto.
Qed.

Lemma attr_rename_loop_some s attrs r' :
  attr_rename_loop (Some s) attrs = Ok r' <-> SerdeMetas attrs [] /\ r' = Some s.
Proof.
  induction attrs as [|a attrs IH]; cbn [attr_rename_loop].
  - split; [intros H; split; [constructor|congruence]|intros [_ ->]; reflexivity].
  - destruct (bytes_eqb (a_path a) (bs "serde")) eqn:Ep; cbn [negb].
    + apply bytes_eqb_eq in Ep. destruct (a_metas a) as [ms|] eqn:Ea.
      * split.
        -- destruct (rename_metas (Some s) ms) as [r1| |] eqn:Em; cbn [bind]; try discriminate.
           apply rename_metas_ok in Em. destruct Em as [[-> ->]|(E & _)]; [|discriminate].
           rewrite IH. intros [H ->]. split; [|reflexivity].
           change (@nil meta) with (@nil meta ++ []). eapply sm_serde; eassumption.
        -- intros [H ->]. apply sm_inv in H; destruct H as [[Hp H']|(Hp & ms1 & ms' & Ha & E2 & H')]; [contradiction|].
           apply app_eq_nil in E2. destruct E2 as [-> ->].
           assert (ms = []) as -> by congruence.
           cbn [rename_metas bind]. apply IH. auto.
      * split; [discriminate|]. intros [H ->].
        apply sm_inv in H; destruct H as [[Hp H']|(Hp & ms1 & ms' & Ha & E2 & H')]; [contradiction|congruence].
    + assert (Hp : a_path a <> bs "serde").
      { intros E. apply bytes_eqb_eq in E. congruence. }
      rewrite IH. split; intros [H ->]; (split; [|reflexivity]).
      * apply sm_other; assumption.
      * apply sm_inv in H; destruct H as [[_ H']|[Hp' _]]; [assumption|contradiction].
Qed.

Lemma attr_rename_ok attrs r' :
  attr_rename attrs = Ok r' <->
  (SerdeMetas attrs [] /\ r' = None) \/
  (exists s, SerdeMetas attrs [mkmeta (bs "rename") (RhsStr s)] /\ r' = Some s).
Proof.
  unfold attr_rename. induction attrs as [|a attrs IH]; cbn [attr_rename_loop].
  - split.
    + intros H. left. split; [constructor|congruence].
    + intros [[_ ->]|(s & H & _)]; [reflexivity|inversion H].
  - destruct (bytes_eqb (a_path a) (bs "serde")) eqn:Ep; cbn [negb].
    + apply bytes_eqb_eq in Ep. destruct (a_metas a) as [ms|] eqn:Ea.
      * split.
        -- destruct (rename_metas None ms) as [r1| |] eqn:Em; cbn [bind]; try discriminate.
           apply rename_metas_ok in Em. destruct Em as [[-> ->]|(_ & s & -> & ->)].
           ++ rewrite IH. intros [[H ->]|(s & H & ->)]; [left|right; exists s]; (split; [|reflexivity]).
              ** change (@nil meta) with (@nil meta ++ []). eapply sm_serde; eassumption.
              ** change [mkmeta (bs "rename") (RhsStr s)]
                   with ([] ++ [mkmeta (bs "rename") (RhsStr s)]).
                 eapply sm_serde; eassumption.
           ++ rewrite attr_rename_loop_some. intros [H ->]. right. exists s. split; [|reflexivity].
              rewrite <- (app_nil_r [_]). eapply sm_serde; eassumption.
        -- intros [[H ->]|(s & H & ->)];
             (apply sm_inv in H; destruct H as [[Hp H']|(Hp & ms1 & ms' & Ha & E2 & H')]; [contradiction|]);
             assert (ms1 = ms) as -> by congruence.
           ++ apply app_eq_nil in E2. destruct E2 as [-> ->]. cbn [rename_metas bind].
              apply IH. auto.
           ++ destruct ms as [|m ms].
              ** cbn [app] in E2. subst ms'. cbn [rename_metas bind]. apply IH. eauto.
              ** cbn [app] in E2. apply cons_inv in E2. destruct E2 as [-> E2]. apply app_eq_nil in E2.
                 destruct E2 as [-> ->].
                 assert (Hm : rename_metas None [mkmeta (bs "rename") (RhsStr s)] = Ok (Some s)).
                 { apply rename_metas_ok. eauto. }
                 rewrite Hm. cbn [bind]. apply attr_rename_loop_some. auto.
      * split; [discriminate|]. intros [[H _]|(s & H & _)];
          (apply sm_inv in H; destruct H as [[Hp H']|(Hp & ms1 & ms' & Ha & E2 & H')]; [contradiction|congruence]).
    + assert (Hp : a_path a <> bs "serde").
      { intros E. apply bytes_eqb_eq in E. congruence. }
      rewrite IH. split.
      * intros [[H ->]|(s & H & ->)]; [left|right; exists s]; (split; [|reflexivity]);
          apply sm_other; assumption.
      * intros [[H ->]|(s & H & ->)]; [left|right; exists s]; (split; [|reflexivity]);
          (apply sm_inv in H; destruct H as [[_ H']|[Hp' _]]; [assumption|contradiction]).
Qed.

Lemma trim_raw_nohash n s : NoHash s -> trim_raw n s = s.
Proof.
  intros H. destruct n as [|n]; [reflexivity|]. destruct s as [|a [|b s]]; try reflexivity.
  cbn [trim_raw]. destruct (b =? 35) eqn:Eb; [|now rewrite andb_false_r].
  apply Z.eqb_eq in Eb. subst b. exfalso. apply H. right. left. reflexivity.
Qed.

Lemma unraw_spec ident name : Ident ident name -> unraw ident = name.
Proof.
  intros [H [-> | ->]]; unfold unraw.
  - apply trim_raw_nohash; assumption.
  - change (bs "r#" ++ name) with (114 :: 35 :: name). cbn [length].
    change (trim_raw (S (S (length name))) (114 :: 35 :: name)) with (trim_raw (S (length name)) name).
    apply trim_raw_nohash; assumption.
Qed.

Lemma ident_functional ident n1 n2 : Ident ident n1 -> Ident ident n2 -> n1 = n2.
Proof. intros H1 H2. apply unraw_spec in H1, H2. congruence. Qed.

Lemma name_of_total attrs ident : no_fault (name_of attrs ident).
Proof.
  unfold name_of. pose proof (attr_rename_loop_total None attrs) as H.
  unfold attr_rename. destruct (attr_rename_loop None attrs); cbn in *; auto.
Qed.

(** C41. The name a field or variant gets is its wire name: the identifier without r#, or
    what the one #[serde(rename)] says. There is an error (and no panic) exactly if
    it has no wire name: an attribute that is not of the supported form, an unsupported
    or duplicate meta. *)
Theorem C41_wire_name attrs ident name :
  (exists n, Ident ident n) ->
  (name_of attrs ident = Ok name <-> WireName attrs ident name) /\
  (name_of attrs ident = Err <-> ~ exists n, WireName attrs ident n).
Proof.
  intros (n0 & Hn0).
  assert (Hok : forall name, name_of attrs ident = Ok name <-> WireName attrs ident name).
  { clear name. intros name. unfold name_of. split.
    - destruct (attr_rename attrs) as [r| |] eqn:Er; cbn [bind]; try discriminate.
      intros H. apply attr_rename_ok in Er. destruct Er as [[Hm ->]|(s & Hm & ->)].
      + assert (name = unraw ident) as -> by congruence. apply wn_ident; [assumption|].
        rewrite (unraw_spec _ _ Hn0). assumption.
      + assert (name = s) as -> by congruence. apply wn_rename. assumption.
    - intros [name' Hm Hi|name' Hm].
      + assert (attr_rename attrs = Ok None) as -> by (apply attr_rename_ok; auto).
        cbn [bind]. rewrite (unraw_spec _ _ Hi). reflexivity.
      + assert (attr_rename attrs = Ok (Some name')) as -> by (apply attr_rename_ok; eauto).
        reflexivity. }
  split; [apply Hok|]. split.
  - intros H (n & Hn). apply Hok in Hn. congruence.
  - intros H. pose proof (name_of_total attrs ident) as Ht.
    destruct (name_of attrs ident) as [n| |] eqn:E; [|reflexivity|destruct Ht].
    exfalso. apply H. exists n. apply Hok. reflexivity.
Qed.

Theorem C41_wire_name_unique attrs ident n1 n2 :
  WireName attrs ident n1 -> WireName attrs ident n2 -> (exists n, Ident ident n) -> n1 = n2.
Proof.
  intros H1 H2 H. apply (proj1 (C41_wire_name attrs ident n1 H)) in H1.
  apply (proj1 (C41_wire_name attrs ident n2 H)) in H2. congruence.
Qed.

(** ** Which items are supported *)
Lemma collect_forall2 {A B} (f : A -> res B) l bs0 :
  collect f l = Ok bs0 <-> Forall2 (fun a b => f a = Ok b) l bs0.
Proof.
  revert bs0. induction l as [|a l IH]; intros bs0; cbn [collect].
  - split; [intros [= <-]; constructor|intros H; inversion H; reflexivity].
  - split.
    + destruct (f a) as [b| |] eqn:Ea; cbn [bind]; try discriminate.
      destruct (collect f l) as [bs1| |] eqn:El; cbn [bind]; try discriminate.
      intros [= <-]. constructor; [assumption|]. apply IH. reflexivity.
    + intros H. inversion H as [|? b ? bs1 Ha Hl]; subst. rewrite Ha. cbn [bind].
      apply IH in Hl. rewrite Hl. reflexivity.
Qed.

Lemma collect_ok {A B} (f : A -> res B) l :
  (exists bs0, collect f l = Ok bs0) <-> Forall (fun a => exists b, f a = Ok b) l.
Proof.
  split.
  - intros (bs0 & H). apply collect_forall2 in H. induction H; constructor; eauto.
  - intros H. induction H as [|a l (b & Hb) _ (bs0 & IH)]; [exists []; reflexivity|].
    exists (b :: bs0). cbn [collect]. rewrite Hb. cbn [bind]. rewrite IH. reflexivity.
Qed.

Lemma collect_total {A B} (f : A -> res B) l : (forall a, no_fault (f a)) -> no_fault (collect f l).
Proof.
  intros Hf. induction l as [|a l IH]; cbn [collect]; [exact I|].
  specialize (Hf a). destruct (f a); cbn in *; auto. destruct (collect f l); cbn in *; auto.
Qed.

Lemma unit_variant_total v : no_fault (unit_variant v).
Proof. unfold unit_variant. destruct (v_fields v); exact I. Qed.

Lemma unit_variant_ok v x : unit_variant v = Ok x <-> v_fields v = FieldsUnit /\ x = v_ident v.
Proof.
  unfold unit_variant. destruct (v_fields v); split; try discriminate; try (intros [? ?]; congruence).
  intros [= <-]. auto.
Qed.

Lemma legal_forall {A} (g : A -> bytes) l :
  Forall (fun x => exists n, Ident x n) (map g l) -> Forall (fun a => exists n, Ident (g a) n) l.
Proof. rewrite Forall_map. auto. Qed.

Lemma names_ok {A} (ga : A -> list attribute) (gi : A -> bytes) l :
  Forall (fun x => exists n, Ident x n) (map gi l) ->
  ((exists ns, collect (fun a => name_of (ga a) (gi a)) l = Ok ns) <->
   Forall (fun a => exists n, WireName (ga a) (gi a) n) l).
Proof.
  intros Hl. apply legal_forall in Hl. rewrite collect_ok, !Forall_forall.
  rewrite Forall_forall in Hl.
  split; intros H a Ha; specialize (H a Ha); specialize (Hl a Ha); destruct H as (n & H); exists n;
    (apply (proj1 (C41_wire_name (ga a) (gi a) n Hl))); exact H.
Qed.

Lemma names_forall2 {A} (ga : A -> list attribute) (gi : A -> bytes) l ns :
  Forall (fun x => exists n, Ident x n) (map gi l) ->
  (collect (fun a => name_of (ga a) (gi a)) l = Ok ns <->
   Forall2 (fun a n => WireName (ga a) (gi a) n) l ns).
Proof.
  intros Hl. apply legal_forall in Hl. rewrite collect_forall2. split.
  - intros H. induction H as [|a n l ns Ha _ IH]; constructor.
    + apply (proj1 (C41_wire_name _ _ _ (Forall_inv Hl))). exact Ha.
    + apply IH. exact (Forall_inv_tail Hl).
  - intros H. induction H as [|a n l ns Ha _ IH]; constructor.
    + apply (proj1 (C41_wire_name _ _ _ (Forall_inv Hl))). exact Ha.
    + apply IH. exact (Forall_inv_tail Hl).
Qed.

Definition generic (i : derive_input) : bool := has_generics i || has_where i.

Lemma enum_names_ok vs :
  Forall (fun x => exists n, Ident x n) (map v_ident vs) ->
  ((exists a b, collect unit_variant vs = Ok a /\
                collect (fun v => name_of (v_attrs v) (v_ident v)) vs = Ok b) <->
   Forall (fun v => v_fields v = FieldsUnit /\ exists n, WireName (v_attrs v) (v_ident v) n) vs).
Proof.
  intros Hl. split.
  - intros (a & b & Ha & Hb).
    assert (H1 : Forall (fun v => exists x, unit_variant v = Ok x) vs) by (apply collect_ok; eauto).
    assert (H2 : Forall (fun v => exists n, WireName (v_attrs v) (v_ident v) n) vs).
    { apply (names_ok v_attrs v_ident); eauto. }
    rewrite Forall_forall in *. intros v Hv. split; [|apply H2; assumption].
    destruct (H1 v Hv) as (x & Hx). apply unit_variant_ok in Hx. tauto.
  - intros H.
    assert (H1 : Forall (fun v => exists x, unit_variant v = Ok x) vs).
    { rewrite Forall_forall in *. intros v Hv. exists (v_ident v). apply unit_variant_ok.
      split; [apply H; assumption|reflexivity]. }
    assert (H2 : Forall (fun v => exists n, WireName (v_attrs v) (v_ident v) n) vs).
    { rewrite Forall_forall in *. intros v Hv. apply H; assumption. }
    apply collect_ok in H1. destruct H1 as (a & Ha).
    apply (names_ok v_attrs v_ident) in H2; [|assumption]. destruct H2 as (b & Hb). eauto.
Qed.

(** C42. The derives expand to an impl exactly for the supported items; for all others
    they report an error (a compile error at the use site), they don't panic. *)
Theorem C42_supported_items i :
  legal_idents (i_data i) ->
  ((exists c, derive_ser i = Ok c) <-> Derivable (i_data i) (generic i)) /\
  ((exists c, derive_de i = Ok c) <-> Derivable (i_data i) (generic i)).
Proof.
  intros [_ Hl]. unfold derive_ser, derive_de, generic.
  destruct i as [attrs ident hg hw d]. cbn [i_data has_generics has_where] in *.
  destruct d as [[fs|n|]|vs|]; cbn [idents] in Hl;
    try (split; (split; [intros (c & H); discriminate|intros H; inversion H])).
  - pose proof (names_ok f_attrs f_ident fs Hl) as Hn.
    assert (Hd : (exists ns, collect (fun f => name_of (f_attrs f) (f_ident f)) fs = Ok ns) <->
                 Derivable (DataStruct (FieldsNamed fs)) (hg || hw)).
    { rewrite Hn. split; [apply dv_struct|intros H; inversion H; assumption]. }
    unfold ser_struct, de_struct.
    split; (rewrite <- Hd; split;
      [ intros (c & H); destruct (collect _ fs); try discriminate; eauto
      | intros (ns & ->); cbn [bind]; eauto ]).
  - pose proof (enum_names_ok vs Hl) as Hn.
    assert (Hd : (hg || hw = false /\ exists a b, collect unit_variant vs = Ok a /\
                  collect (fun v => name_of (v_attrs v) (v_ident v)) vs = Ok b) <->
                 Derivable (DataEnum vs) (hg || hw)).
    { rewrite Hn. split; [intros [-> H]; apply dv_enum; assumption|].
      intros H; inversion H; subst. auto. }
    unfold ser_enum, de_enum; cbn [has_generics has_where].
    split; (rewrite <- Hd; split;
      [ intros (c & H); destruct (hg || hw); try discriminate; split; [reflexivity|];
        destruct (collect unit_variant vs); try discriminate; cbn [bind] in H;
        destruct (collect _ vs); try discriminate; eauto
      | intros (-> & a & b & -> & Hb); cbn [bind]; rewrite Hb; cbn [bind]; eauto ]).
Qed.

Theorem C42_error_otherwise i :
  legal_idents (i_data i) -> ~ Derivable (i_data i) (generic i) ->
  derive_ser i = Err /\ derive_de i = Err.
Proof.
  intros Hl Hn. destruct (C42_supported_items i Hl) as [Hs Hd].
  assert (Hts : no_fault (derive_ser i) /\ no_fault (derive_de i)).
  { clear. unfold derive_ser, derive_de. destruct (i_data i) as [[fs|n|]|vs|];
      try (split; exact I).
    - pose proof (collect_total (fun f => name_of (f_attrs f) (f_ident f)) fs
                    (fun f => name_of_total _ _)) as H.
      unfold ser_struct, de_struct. destruct (collect _ fs); cbn in *; auto.
    - pose proof (collect_total unit_variant vs unit_variant_total) as H1.
      pose proof (collect_total (fun v => name_of (v_attrs v) (v_ident v)) vs
                    (fun v => name_of_total _ _)) as H2.
      unfold ser_enum, de_enum. destruct (has_generics i || has_where i); [split; exact I|].
      destruct (collect unit_variant vs); cbn [bind no_fault] in *; auto.
      destruct (collect _ vs); cbn [bind no_fault] in *; auto. }
  split.
  - destruct (derive_ser i); [exfalso; apply Hn, Hs; eauto|reflexivity|destruct Hts as [[] _]].
  - destruct (derive_de i); [exfalso; apply Hn, Hd; eauto|reflexivity|destruct Hts as [_ []]].
Qed.

(** Attributes and the name of the container play no role. *)
Theorem C42_container_is_irrelevant attrs1 attrs2 x1 x2 hg hw d :
  derive_ser (mkinput attrs1 x1 hg hw d) = derive_ser (mkinput attrs2 x2 hg hw d) /\
  derive_de (mkinput attrs1 x1 hg hw d) = derive_de (mkinput attrs2 x2 hg hw d).
Proof. split; reflexivity. Qed.

(** ** The generated code of structs *)
Lemma nth_error_nil {A} n : nth_error (@nil A) n = None.
Proof. destruct n; reflexivity. Qed.

Lemma match_nat_combine {A} (l : list A) start n :
  match_nat (start + n) (combine (seq start (length l)) l) = nth_error l n.
Proof.
  revert start n. induction l as [|a l IH]; intros start n; cbn [length seq combine match_nat].
  - now rewrite nth_error_nil.
  - destruct n as [|n].
    + rewrite Nat.add_0_r, Nat.eqb_refl. reflexivity.
    + destruct (Nat.eqb_spec (start + S n) start); [lia|].
      replace (start + S n)%nat with (S start + n)%nat by lia. apply IH.
Qed.

Lemma match_str_nodup {A} (xs : list bytes) (vs : list A) j x :
  NoDup xs -> nth_error xs j = Some x -> length xs = length vs ->
  match_str x (combine xs vs) = nth_error vs j.
Proof.
  intros Hd. revert vs j. induction Hd as [|y xs Hy Hd IH]; intros vs j Hj Hlen.
  - destruct j; discriminate.
  - destruct vs as [|v vs]; [discriminate|]. cbn [combine match_str].
    destruct j as [|j]; cbn [nth_error] in *.
    + injection Hj as ->.
      assert (bytes_eqb x x = true) as -> by (apply bytes_eqb_eq; reflexivity). reflexivity.
    + destruct (bytes_eqb x y) eqn:E.
      * apply bytes_eqb_eq in E. subst y. exfalso. apply Hy. eapply nth_error_In; eassumption.
      * apply IH; [assumption|]. cbn [length] in Hlen. lia.
Qed.

Lemma nth_error_combine' {A B} (l1 : list A) (l2 : list B) n :
  nth_error (combine l1 l2) n =
  match nth_error l1 n, nth_error l2 n with Some a, Some b => Some (a, b) | _, _ => None end.
Proof.
  revert l2 n. induction l1 as [|a l1 IH]; intros l2 n; cbn [combine].
  - rewrite !nth_error_nil. reflexivity.
  - destruct l2 as [|b l2].
    + rewrite !nth_error_nil. destruct (nth_error _ _); reflexivity.
    + destruct n; cbn [nth_error]; [reflexivity|apply IH].
Qed.

Lemma f2_len {A B} (R : A -> B -> Prop) l1 l2 : Forall2 R l1 l2 -> length l1 = length l2.
Proof. induction 1; cbn; congruence. Qed.

Lemma f2_nth {A B} (R : A -> B -> Prop) l1 l2 j a :
  Forall2 R l1 l2 -> nth_error l1 j = Some a -> exists b, nth_error l2 j = Some b /\ R a b.
Proof.
  intros H. revert j. induction H as [|x y l1 l2 Hxy H IH]; intros [|j] Hj; try discriminate.
  - injection Hj as <-. exists y. auto.
  - apply IH. exact Hj.
Qed.
Lemma f2_nth' {A B} (R : A -> B -> Prop) l1 l2 j b :
  Forall2 R l1 l2 -> nth_error l2 j = Some b -> exists a, nth_error l1 j = Some a /\ R a b.
Proof.
  intros H. revert j. induction H as [|x y l1 l2 Hxy H IH]; intros [|j] Hj; try discriminate.
  - injection Hj as <-. exists x. auto.
  - apply IH. exact Hj.
Qed.

Lemma gen_next_eq (names xs : list bytes) {V} (vs : list V) n :
  NoDup xs -> length names = length xs -> length vs = length xs ->
  gen_next (combine (seq 0 (length xs)) (combine names xs)) (combine xs vs) n =
  nth_error (combine names vs) n.
Proof.
  intros Hd Hl1 Hl2. unfold gen_next.
  assert (E : match_nat n (combine (seq 0 (length xs)) (combine names xs)) =
              nth_error (combine names xs) n).
  { rewrite <- (Nat.add_0_l n) at 1.
    replace (length xs) with (length (combine names xs)) by (rewrite combine_length; lia).
    apply match_nat_combine. }
  rewrite E, !nth_error_combine'.
  destruct (nth_error names n) as [nm|] eqn:En; [|reflexivity].
  destruct (nth_error xs n) as [x|] eqn:Ex.
  - rewrite (match_str_nodup xs vs n x Hd Ex (eq_sym Hl2)).
    destruct (nth_error vs n); reflexivity.
  - apply nth_error_None in Ex. assert (nth_error names n <> None) by congruence.
    rewrite nth_error_Some in *. lia.
Qed.

Lemma match_str_find {A} (ns : list bytes) (vs : list A) k i :
  match match_str k (combine ns vs) with
  | Some v => exists j, (j < length ns)%nat /\ Impls.find_name k ns i = Some (i + j)%nat /\
                        nth_error vs j = Some v
  | None => length ns = length vs -> Impls.find_name k ns i = None
  end.
Proof.
  revert vs i. induction ns as [|n ns IH]; intros vs i; cbn [combine match_str Impls.find_name].
  - auto.
  - destruct vs as [|v vs]; cbn [combine match_str]; [discriminate|].
    destruct (bytes_eqb k n).
    + exists 0%nat. split; [cbn; lia|]. rewrite Nat.add_0_r. auto.
    + specialize (IH vs (S i)). destruct (match_str k (combine ns vs)) as [w|].
      * destruct IH as (j & Hj & Hf & Hv). exists (S j). split; [cbn; lia|]. split; [|exact Hv].
        rewrite Hf. f_equal. lia.
      * cbn [length]. intros H. apply IH. lia.
Qed.

Lemma match_str_find_eq {A} (ns : list bytes) (vs : list A) k :
  length ns = length vs ->
  match_str k (combine ns vs) =
  match Impls.find_name k ns 0 with Some i => nth_error vs i | None => None end.
Proof.
  intros Hl. pose proof (match_str_find ns vs k 0) as H.
  destruct (match_str k (combine ns vs)) as [v|].
  - destruct H as (j & _ & -> & Hv). rewrite Nat.add_0_l. auto.
  - rewrite (H Hl). reflexivity.
Qed.

(** Taking fields. *)
Lemma take_slot_notin {V} x (ys : list bytes) (os : list (option V)) y o :
  x <> y ->
  take_slot x ((y, o) :: combine ys os) =
  (let '(r, s) := take_slot x (combine ys os) in (r, (y, o) :: s)).
Proof.
  intros Hn. cbn [take_slot]. destruct (bytes_eqb x y) eqn:E; [|reflexivity].
  apply bytes_eqb_eq in E. contradiction.
Qed.

Lemma gen_takes_skip {V} (xs : list bytes) (y : bytes) (o : option V) slots :
  ~ In y xs ->
  gen_takes xs ((y, o) :: slots) =
  (let '(l, s) := gen_takes xs slots in (l, (y, o) :: s)).
Proof.
  revert slots. induction xs as [|x xs IH]; intros slots Hy; cbn [gen_takes]; [reflexivity|].
  cbn [take_slot]. destruct (bytes_eqb x y) eqn:E.
  { apply bytes_eqb_eq in E. exfalso. apply Hy. left. exact E. }
  destruct (take_slot x slots) as [[v|] s1]; [|reflexivity].
  rewrite IH by (intros H; apply Hy; right; exact H).
  destruct (gen_takes xs s1); reflexivity.
Qed.

Lemma gen_takes_eq (xs : list bytes) (fields : list (option val)) :
  NoDup xs -> length xs = length fields ->
  gen_takes xs (combine xs fields) =
  (option_map (combine xs) (fst (Impls.take_fields fields)), combine xs (snd (Impls.take_fields fields))).
Proof.
  intros Hd. revert fields. induction Hd as [|x xs Hx Hd IH]; intros fields Hlen.
  - destruct fields; [reflexivity|discriminate].
  - destruct fields as [|o fields]; [discriminate|]. cbn [combine gen_takes take_slot].
    assert (bytes_eqb x x = true) as -> by (apply bytes_eqb_eq; reflexivity).
    destruct o as [v|]; cbn [Impls.take_fields]; [|reflexivity].
    rewrite gen_takes_skip by assumption. rewrite IH by (cbn [length] in Hlen; lia).
    destruct (Impls.take_fields fields) as [[l|] r]; reflexivity.
Qed.

Lemma gen_ctor_eq {V} (xs : list bytes) (vs : list V) :
  NoDup xs -> length xs = length vs ->
  gen_ctor xs (combine xs vs) = Some (combine xs vs).
Proof.
  intros Hd Hlen.
  assert (H : forall pre_x pre_v post_x post_v,
    xs = pre_x ++ post_x -> vs = pre_v ++ post_v -> length pre_x = length pre_v ->
    gen_ctor post_x (combine xs vs) = Some (combine post_x post_v)).
  { intros pre_x pre_v post_x. revert pre_x pre_v.
    induction post_x as [|x post_x IH]; intros pre_x pre_v post_v Ex Ev El; [reflexivity|].
    assert (length post_v = S (length post_x)).
    { subst. rewrite !app_length in Hlen. cbn [length] in *. lia. }
    destruct post_v as [|v post_v]; [discriminate|]. cbn [gen_ctor combine].
    rewrite (match_str_nodup xs vs (length pre_x) x Hd); [|
      subst xs; rewrite nth_error_app2, Nat.sub_diag by lia; reflexivity | assumption].
    rewrite Ev, El, nth_error_app2, Nat.sub_diag by lia. cbn [nth_error].
    rewrite <- Ev, (IH (pre_x ++ [x]) (pre_v ++ [v]) post_v); [reflexivity| | |].
    - rewrite <- app_assoc. exact Ex.
    - rewrite <- app_assoc. exact Ev.
    - rewrite !app_length. cbn. lia. }
  apply (H [] []); reflexivity.
Qed.

Lemma take_fields_len fields l :
  fst (Impls.take_fields fields) = Some l -> length l = length fields.
Proof.
  revert l. induction fields as [|[v|] fields IH]; intros l; cbn [Impls.take_fields].
  - intros [= <-]. reflexivity.
  - destruct (Impls.take_fields fields) as [[l1|] r]; cbn; intros [= <-]. cbn. f_equal.
    apply IH. reflexivity.
  - discriminate.
Qed.

(** C41, structs. [fs] the fields, [names] their wire names. The two derives generate code
    that, for a struct whose j-th field has identifier x, wire name n and value v:
    - Serialize: in state j yields n together with the field x's value, and after the last
      field nothing;
    - Deserialize: the key n begins the slot of a field that has the wire name n (the slot
      of x itself if the wire names are distinct), any other key is ignored; finish builds the
      struct from exactly the slots, each under its own field, if all are filled. *)
Theorem C41_struct_code i fs names :
  i_data i = DataStruct (FieldsNamed fs) -> legal_idents (i_data i) ->
  Forall2 (fun f n => WireName (f_attrs f) (f_ident f) n) fs names ->
  exists arms slots keys takes ctor,
    derive_ser i = Ok (SerStruct arms) /\
    derive_de i = Ok (DeStruct slots keys takes ctor) /\
    slots = map (fun f => (f_ident f, f_ty f)) fs /\
    (* serialization *)
    (forall (V : Type) (self : list (bytes * V)),
       map fst self = map f_ident fs ->
       (forall j f n v, nth_error fs j = Some f -> nth_error names j = Some n ->
          nth_error self j = Some (f_ident f, v) -> gen_next arms self j = Some (n, v)) /\
       (forall j, (length fs <= j)%nat -> gen_next arms self j = None)) /\
    (* keys *)
    (forall k x, gen_key keys k = Some x ->
       exists j f, nth_error fs j = Some f /\ f_ident f = x /\ nth_error names j = Some k) /\
    (forall k, gen_key keys k = None <-> ~ In k names) /\
    (NoDup names -> forall j f n, nth_error fs j = Some f -> nth_error names j = Some n ->
       gen_key keys n = Some (f_ident f)) /\
    (* finish *)
    (forall state : list (bytes * option val),
       map fst state = map f_ident fs ->
       (forall self, fst (gen_finish takes ctor state) = Some self <->
          map fst self = map f_ident fs /\
          map (fun o => Some (snd o)) self = map snd state)).
Proof.
  intros Ei [Hd Hl] Hw. rewrite Ei in Hd, Hl. cbn [idents] in Hd, Hl.
  assert (Hc : collect (fun f => name_of (f_attrs f) (f_ident f)) fs = Ok names).
  { apply (names_forall2 f_attrs f_ident); assumption. }
  assert (Hlen : length names = length fs) by (symmetry; eapply f2_len; eassumption).
  unfold derive_ser, derive_de. rewrite Ei. unfold ser_struct, de_struct. rewrite Hc. cbn [bind].
  do 5 eexists. split; [reflexivity|]. split; [reflexivity|]. split.
  { clear. induction fs as [|f fs IH]; cbn; [reflexivity|]. f_equal. exact IH. }
  split; [|split; [|split; [|split]]].
  - intros V self Hself.
    assert (Hcomb : self = combine (map f_ident fs) (map snd self)).
    { rewrite <- Hself. clear. induction self as [|[a b] self IH]; cbn; congruence. }
    assert (Hls : length (map snd self) = length (map f_ident fs)).
    { rewrite map_length, <- (map_length fst self), Hself. reflexivity. }
    assert (Hg : forall j, gen_next (combine (seq 0 (length fs)) (combine names (map f_ident fs))) self j =
                 nth_error (combine names (map snd self)) j).
    { intros j. rewrite Hcomb at 1.
      replace (length fs) with (length (map f_ident fs)) by apply map_length.
      apply gen_next_eq; [assumption| |assumption]. rewrite map_length. assumption. }
    split.
    + intros j f n v Hf Hn Hs. rewrite Hg, nth_error_combine', Hn.
      rewrite nth_error_map, Hs. reflexivity.
    + intros j Hj. rewrite Hg. apply nth_error_None. rewrite combine_length. lia.
  - intros k x Hk. unfold gen_key in Hk.
    pose proof (match_str_find names (map f_ident fs) k 0) as H. rewrite Hk in H.
    destruct H as (j & Hj & Hf & Hx). rewrite nth_error_map in Hx.
    destruct (nth_error fs j) as [f|] eqn:Ef; [|discriminate].
    exists j, f. split; [exact Ef|]. split; [now injection Hx|].
    rewrite Nat.add_0_l in Hf. clear - Hf.
    assert (G : forall i, Impls.find_name k names i = Some (i + j)%nat -> nth_error names j = Some k).
    { clear Hf. revert j. induction names as [|n names IH]; intros j i; cbn [Impls.find_name]; [discriminate|].
      destruct (bytes_eqb k n) eqn:E.
      - intros H. assert (j = 0%nat) as -> by (injection H; lia). apply bytes_eqb_eq in E.
        cbn. congruence.
      - destruct j as [|j].
        + intros H. exfalso. rewrite Nat.add_0_r in H.
          assert (Hge : forall ns i j, Impls.find_name k ns i = Some j -> (i <= j)%nat).
          { clear. induction ns as [|m ns IH]; intros i j; cbn [Impls.find_name]; [discriminate|].
            destruct (bytes_eqb k m); [intros [= ->]; lia|]. intros H. apply IH in H. lia. }
          apply Hge in H. lia.
        + intros H. cbn [nth_error]. apply (IH j (S i)). rewrite H. f_equal. lia. }
    apply (G 0%nat). exact Hf.
  - intros k. unfold gen_key.
    assert (Hl2 : length names = length (map f_ident fs)) by (rewrite map_length; exact Hlen).
    clear - Hl2. revert Hl2. generalize (map f_ident fs) as xs. intros xs. revert xs.
    induction names as [|n names IH]; intros xs Hlen; cbn [combine match_str].
    + split; auto.
    + destruct xs as [|x xs]; [discriminate|]. cbn [combine match_str].
      destruct (bytes_eqb k n) eqn:E.
      * split; [discriminate|]. intros H. exfalso. apply H. left. apply bytes_eqb_eq in E. auto.
      * rewrite IH by (cbn [length] in Hlen; lia). split.
        -- intros H [-> |H']; [|auto].
           assert (bytes_eqb k k = true) by (apply bytes_eqb_eq; reflexivity). congruence.
        -- intros H H'. apply H. right. exact H'.
  - intros Hnd j f n Hf Hn. unfold gen_key.
    rewrite (match_str_nodup names (map f_ident fs) j n Hnd Hn) by (rewrite map_length; exact Hlen).
    rewrite nth_error_map, Hf. reflexivity.
  - intros state Hst self.
    assert (Hcomb : state = combine (map f_ident fs) (map snd state)).
    { rewrite <- Hst. clear. induction state as [|[a b] state IH]; cbn; congruence. }
    assert (Hls : length (map f_ident fs) = length (map snd state)).
    { rewrite <- Hst, !map_length. reflexivity. }
    unfold gen_finish. rewrite Hcomb at 1. rewrite gen_takes_eq by assumption.
    assert (Htf : forall fields l, fst (Impls.take_fields fields) = Some l <-> fields = map Some l).
    { clear. induction fields as [|[v|] fields IH]; intros l; cbn [Impls.take_fields].
      - split; [intros [= <-]; reflexivity|]. destruct l; [reflexivity|discriminate].
      - specialize (IH (tl l)). destruct (Impls.take_fields fields) as [[l1|] r]; cbn [fst option_map] in *.
        + split.
          * intros [= <-]. cbn [tl map] in *. f_equal. apply IH. reflexivity.
          * intros H. destruct l as [|w l]; [discriminate|]. cbn [tl map] in *.
            injection H as -> H. f_equal. f_equal. apply IH in H. congruence.
        + split; [discriminate|]. intros H. destruct l as [|w l]; [discriminate|].
          cbn [tl map] in *. injection H as -> H. apply IH in H. discriminate.
      - split; [discriminate|]. destruct l; discriminate. }
    destruct (fst (Impls.take_fields (map snd state))) as [vals|] eqn:Ev; cbn [option_map fst].
    + pose proof (take_fields_len _ _ Ev) as Hlv. apply Htf in Ev.
      rewrite gen_ctor_eq by (assumption || lia). split.
      * intros [= <-]. split.
        -- clear - Hls Hlv. rewrite <- Hls in Hlv. clear Hls. revert vals Hlv.
           generalize (map f_ident fs) as xs.
           induction xs as [|x xs IH]; intros [|v vals] H; cbn in *; try discriminate; [reflexivity|].
           f_equal. apply IH. lia.
        -- rewrite Ev. clear - Hls Hlv. rewrite <- Hls in Hlv. clear Hls. revert vals Hlv.
           generalize (map f_ident fs) as xs.
           induction xs as [|x xs IH]; intros [|v vals] H; cbn in *; try discriminate; [reflexivity|].
           f_equal. apply IH. lia.
      * intros [H1 H2]. f_equal. rewrite Ev in H2. rewrite <- H1. clear - H2. revert vals H2.
        induction self as [|[a b] self IH]; intros [|v vals] H; cbn in *; try discriminate; [reflexivity|].
        injection H as -> H. f_equal. apply IH. exact H.
    + split; [discriminate|]. intros [_ H]. exfalso.
      assert (Hx : map snd state = map Some (map snd self)) by (rewrite map_map; auto).
      apply Htf in Hx. congruence.
Qed.

(** C41, enums. *)
Theorem C41_enum_code i vs names :
  i_data i = DataEnum vs -> generic i = false -> legal_idents (i_data i) ->
  Forall (fun v => v_fields v = FieldsUnit) vs ->
  Forall2 (fun v n => WireName (v_attrs v) (v_ident v) n) vs names ->
  exists sarms darms,
    derive_ser i = Ok (SerEnum sarms) /\ derive_de i = Ok (DeEnum darms) /\
    (* every variant is written under its wire name *)
    (forall j v n, nth_error vs j = Some v -> nth_error names j = Some n ->
       gen_variant_name sarms (v_ident v) = Some n) /\
    (* a string reads as a variant that has it as its wire name, and is an error if there is
       none *)
    (forall s x, gen_variant darms s = Some x ->
       exists j v, nth_error vs j = Some v /\ v_ident v = x /\ nth_error names j = Some s) /\
    (forall s, gen_variant darms s = None <-> ~ In s names) /\
    (NoDup names -> forall j v n, nth_error vs j = Some v -> nth_error names j = Some n ->
       gen_variant darms n = Some (v_ident v)).
Proof.
  intros Ei Hg [Hd Hl] Hu Hw. rewrite Ei in Hd, Hl. cbn [idents] in Hd, Hl.
  assert (Hc : collect (fun v => name_of (v_attrs v) (v_ident v)) vs = Ok names).
  { apply (names_forall2 v_attrs v_ident); assumption. }
  assert (Hv : collect unit_variant vs = Ok (map v_ident vs)).
  { apply collect_forall2. clear - Hu. induction Hu; constructor; [|assumption].
    apply unit_variant_ok. auto. }
  assert (Hlen : length names = length (map v_ident vs)).
  { rewrite map_length. symmetry. eapply f2_len; eassumption. }
  unfold derive_ser, derive_de. rewrite Ei. unfold ser_enum, de_enum. unfold generic in Hg.
  rewrite Hg, Hv. cbn [bind]. rewrite Hc. cbn [bind].
  do 2 eexists. split; [reflexivity|]. split; [reflexivity|]. split; [|split; [|split]].
  - intros j v n Hj Hn. unfold gen_variant_name.
    rewrite (match_str_nodup (map v_ident vs) names j (v_ident v) Hd); [exact Hn| |lia].
    rewrite nth_error_map, Hj. reflexivity.
  - intros s x Hs. unfold gen_variant in Hs.
    assert (G : forall ns xs, match_str s (combine ns xs) = Some x ->
                exists j, nth_error ns j = Some s /\ nth_error xs j = Some x).
    { clear. induction ns as [|n ns IH]; intros xs H; cbn [combine match_str] in H; [discriminate|].
      destruct xs as [|y xs]; cbn [combine match_str] in H; [discriminate|].
      destruct (bytes_eqb s n) eqn:E.
      - apply bytes_eqb_eq in E. exists 0%nat. cbn. split; congruence.
      - destruct (IH _ H) as (j & H1 & H2). exists (S j). auto. }
    destruct (G _ _ Hs) as (j & H1 & H2). rewrite nth_error_map in H2.
    destruct (nth_error vs j) as [v|] eqn:Ev; [|discriminate]. exists j, v.
    split; [exact Ev|]. split; [now injection H2|exact H1].
  - intros s. unfold gen_variant.
    clear - Hlen. revert Hlen. generalize (map v_ident vs) as xs. intros xs. revert xs.
    induction names as [|n names IH]; intros xs Hlen; cbn [combine match_str].
    + split; auto.
    + destruct xs as [|x xs]; [discriminate|]. cbn [combine match_str].
      destruct (bytes_eqb s n) eqn:E.
      * split; [discriminate|]. intros H. exfalso. apply H. left. apply bytes_eqb_eq in E. auto.
      * rewrite IH by (cbn [length] in Hlen; lia). split.
        -- intros H [-> |H']; [|auto].
           assert (bytes_eqb s s = true) by (apply bytes_eqb_eq; reflexivity). congruence.
        -- intros H H'. apply H. right. exact H'.
  - intros Hnd j v n Hj Hn. unfold gen_variant.
    rewrite (match_str_nodup names (map v_ident vs) j n Hnd Hn Hlen).
    rewrite nth_error_map, Hj. reflexivity.
Qed.

(** ** The rest of the model works with fields by position (Types.decl); this is what the
    generated code does. *)
Theorem C41_struct_refines i fs nfs :
  i_data i = DataStruct (FieldsNamed fs) -> NoDup (map f_ident fs) ->
  decl_of i = Ok (DStruct nfs) ->
  exists arms slots keys takes ctor,
    derive_ser i = Ok (SerStruct arms) /\ derive_de i = Ok (DeStruct slots keys takes ctor) /\
    slots = combine (map f_ident fs) (map snd nfs) /\
    (forall vs st, length vs = length fs ->
       gen_next arms (combine (map f_ident fs) (combine (map snd nfs) vs)) st =
       fst (Ser.map_next (Ser.PStruct nfs vs st))) /\
    (forall k, gen_key keys k =
       match Impls.find_name k (map fst nfs) 0 with
       | Some j => nth_error (map f_ident fs) j
       | None => None
       end) /\
    (forall fields, length fields = length fs ->
       gen_finish takes ctor (combine (map f_ident fs) fields) =
       (option_map (combine (map f_ident fs)) (fst (Impls.take_fields fields)),
        combine (map f_ident fs) (snd (Impls.take_fields fields)))).
Proof.
  intros Ei Hd Hdecl. unfold decl_of in Hdecl. rewrite Ei in Hdecl.
  destruct (collect _ fs) as [names| |] eqn:Hc; cbn [bind] in Hdecl; try discriminate.
  assert (nfs = combine names (map f_ty fs)) as -> by congruence. clear Hdecl.
  assert (Hlen : length names = length fs).
  { apply collect_forall2 in Hc. symmetry. eapply f2_len; eassumption. }
  assert (Hf : map fst (combine names (map f_ty fs)) = names).
  { clear - Hlen. revert names Hlen. induction fs as [|f fs IH]; intros [|n names] H; cbn in *;
      try discriminate; [reflexivity|]. f_equal. apply IH. lia. }
  assert (Hs : map snd (combine names (map f_ty fs)) = map f_ty fs).
  { clear - Hlen. revert names Hlen. induction fs as [|f fs IH]; intros [|n names] H; cbn in *;
      try discriminate; [reflexivity|]. f_equal. apply IH. lia. }
  unfold derive_ser, derive_de. rewrite Ei. unfold ser_struct, de_struct. rewrite Hc. cbn [bind].
  rewrite Hf, Hs.
  do 5 eexists. split; [reflexivity|]. split; [reflexivity|]. split; [reflexivity|].
  split; [|split].
  - intros vs st Hvs. cbn [Ser.map_next fst].
    replace (length fs) with (length (map f_ident fs)) by apply map_length.
    rewrite gen_next_eq; [|assumption|rewrite map_length; lia|
      rewrite combine_length, !map_length; lia].
    rewrite !nth_error_combine'. destruct (nth_error names st); [|reflexivity].
    destruct (nth_error (map f_ty fs) st); [|reflexivity].
    destruct (nth_error vs st); reflexivity.
  - intros k. unfold gen_key. apply match_str_find_eq. rewrite map_length. lia.
  - intros fields Hlf. unfold gen_finish.
    rewrite gen_takes_eq by (assumption || (rewrite map_length; lia)).
    destruct (fst (Impls.take_fields fields)) as [l|] eqn:E; cbn [option_map]; [|reflexivity].
    rewrite gen_ctor_eq; [reflexivity|assumption|].
    apply take_fields_len in E. rewrite map_length. lia.
Qed.

Theorem C41_enum_refines i vs names :
  i_data i = DataEnum vs -> NoDup (map v_ident vs) -> decl_of i = Ok (DEnum names) ->
  generic i = false -> Forall (fun v => v_fields v = FieldsUnit) vs ->
  exists sarms darms,
    derive_ser i = Ok (SerEnum sarms) /\ derive_de i = Ok (DeEnum darms) /\
    (forall j v, nth_error vs j = Some v ->
       gen_variant_name sarms (v_ident v) = nth_error names j) /\
    (forall s, gen_variant darms s =
       match Impls.find_name s names 0 with
       | Some j => nth_error (map v_ident vs) j
       | None => None
       end).
Proof.
  intros Ei Hd Hdecl Hg Hu. unfold decl_of in Hdecl. rewrite Ei in Hdecl.
  destruct (collect (fun v => name_of (v_attrs v) (v_ident v)) vs) as [ns| |] eqn:Hc;
    cbn [bind] in Hdecl; try discriminate.
  assert (names = ns) as -> by congruence. clear Hdecl.
  assert (Hv : collect unit_variant vs = Ok (map v_ident vs)).
  { apply collect_forall2. clear - Hu. induction Hu; constructor; [|assumption].
    apply unit_variant_ok. auto. }
  assert (Hlen : length ns = length (map v_ident vs)).
  { rewrite map_length. apply collect_forall2 in Hc. symmetry. eapply f2_len; eassumption. }
  unfold derive_ser, derive_de. rewrite Ei. unfold ser_enum, de_enum. unfold generic in Hg.
  rewrite Hg, Hv. cbn [bind]. rewrite Hc. cbn [bind].
  do 2 eexists. split; [reflexivity|]. split; [reflexivity|]. split.
  - intros j v Hj. unfold gen_variant_name. apply match_str_nodup; [assumption| |lia].
    rewrite nth_error_map, Hj. reflexivity.
  - intros s. apply match_str_find_eq. assumption.
Qed.

(** ** Examples *)
(** struct S { r#type: String, #[serde(rename = "n")] #[doc] count: u8 } *)
Definition ex_struct : derive_input :=
  mkinput [mkattr (bs "serde") None] (bs "S") true false
    (DataStruct (FieldsNamed
       [mkfield [] (bs "r#type") TString;
        mkfield [mkattr (bs "serde") (Some [mkmeta (bs "rename") (RhsStr (bs "n"))]);
                 mkattr (bs "doc") None] (bs "count") (TInt false 8)])).
Example ex_C42_struct :
  legal_idents (i_data ex_struct) /\ Derivable (i_data ex_struct) (generic ex_struct) /\
  decl_of ex_struct = Ok (DStruct [(bs "type", TString); (bs "n", TInt false 8)]).
Proof.
  assert (Hi1 : Ident (bs "r#type") (bs "type")).
  { split; [|right; reflexivity]. unfold NoHash. cbn. intuition discriminate. }
  assert (Hi2 : Ident (bs "count") (bs "count")).
  { split; [|left; reflexivity]. unfold NoHash. cbn. intuition discriminate. }
  split; [|split; [|reflexivity]].
  - split; cbn [idents i_data ex_struct map f_ident].
    + repeat constructor; cbn; intuition discriminate.
    + repeat constructor; eauto.
  - apply dv_struct. constructor; [|constructor; [|constructor]].
    + exists (bs "type"). apply wn_ident; [constructor|exact Hi1].
    + exists (bs "n"). apply wn_rename. cbn [f_attrs].
      rewrite <- (app_nil_r [_]). eapply sm_serde; [reflexivity|reflexivity|].
      apply sm_other; [cbn; discriminate|constructor].
Qed.
Example ex_C42_not : (* tuple structs, unions, variants with fields, unknown and duplicate metas *)
  derive_de (mkinput [] (bs "P") false false (DataStruct (FieldsUnnamed 2))) = Err /\
  derive_ser (mkinput [] (bs "U") false false DataUnion) = Err /\
  derive_ser (mkinput [] (bs "E") false false
    (DataEnum [mkvariant [] (bs "A") FieldsUnit; mkvariant [] (bs "B") (FieldsUnnamed 1)])) = Err /\
  derive_ser (mkinput [] (bs "E") true false (DataEnum [mkvariant [] (bs "A") FieldsUnit])) = Err /\
  name_of [mkattr (bs "serde") (Some [mkmeta (bs "default") RhsNone])] (bs "x") = Err /\
  name_of [mkattr (bs "serde") (Some [mkmeta (bs "rename") (RhsStr (bs "a"))]);
           mkattr (bs "serde") (Some [mkmeta (bs "rename") (RhsStr (bs "a"))])] (bs "x") = Err.
Proof. repeat split. Qed.
Example ex_C41_code :
  exists arms slots keys takes ctor,
    derive_ser ex_struct = Ok (SerStruct arms) /\
    derive_de ex_struct = Ok (DeStruct slots keys takes ctor) /\
    gen_next arms [(bs "r#type", VStr (bs "t")); (bs "count", VInt 3)] 1 = Some (bs "n", VInt 3) /\
    gen_key keys (bs "type") = Some (bs "r#type") /\ gen_key keys (bs "count") = None /\
    fst (gen_finish takes ctor [(bs "r#type", Some (VStr [])); (bs "count", Some (VInt 3))]) =
    Some [(bs "r#type", VStr []); (bs "count", VInt 3)].
Proof. do 5 eexists. repeat split. Qed.
