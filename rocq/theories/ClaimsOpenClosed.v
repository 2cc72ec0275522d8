(** C57, continued: the open-world model of serialization (OpenSer.v), in which C57 is stated,
    and the closed universe of types (Ser.v), in which C27-C38 are, write the same texts. *)
From Coq Require Import String ZArith List Bool Lia Permutation Floats.SpecFloat.
From Verif Require Import Base Utf8 F64 Lexer Types Reading ReadFacts FloatRT Ser SerSpec SerFacts WriteFacts RenderFacts OpenSer OpenSerSpec OpenSerMain ClosedSerSpec ClosedSerFacts OrderAll FromStr ExactPrint
  ClaimsSer ClaimsTypes ClaimsWrite ClaimsOpenSer.
Import ListNotations.
Open Scope Z_scope.

Lemma no_users_rust : rust_like no_users.
Proof.
  split; [intros []|]. split; [intros []|]. split; [intros []|]. split; [intros []|]. split; [intros []|].
  intros k st. split; [left; eexists; reflexivity|]. intros s st' [= <- _]. apply text_utf8.
Qed.
Lemma shows_written ryu c t : shows c t -> stree_ok t = true -> writes no_users ryu c tt (Ok (render itoa ryu t)) tt.
Proof.
  intros H HO. exists (nodes t). split; [|discriminate]. apply (C27_any_serialize (open_iface no_users) ryu c tt t tt); [apply (open_valid no_users), no_users_rust|exact (H HO)|lia].
Qed.

(** What is written for a value of a type can be described in Rust. *)
Lemma written_ok E v : env_ok E = true -> names_ok E = true -> forall T t, ty_ok T = true -> has_type E T v -> Writes E T v t -> stree_ok t = true.
Proof.
  intros HE HN.
  induction v as [|b|s|z|f|f|v IH| |v IH|a b IHa IHb|l IH|l IH|j|m|l|l|l IH|i] using val_ind'; intros T t HO HT HW; inversion HT; subst; inversion HW; subst; cbn [stree_ok ty_ok] in *; try reflexivity; try assumption; eauto.
  - pose proof (int64_id _ _ _ HO ltac:(eassumption)) as HI. cbv iota in HI. apply andb_true_iff. rewrite !Z.leb_le. apply HI.
  - pose proof (int64_id _ _ _ HO ltac:(eassumption)) as HI. cbv iota in HI. apply andb_true_iff. rewrite !Z.leb_le. apply HI.
  - apply (widen_spec f). assumption.
  - apply andb_true_iff in HO. destruct HO as [O1 O2]. cbn [forallb]. rewrite (IHa A ta), (IHb B tb) by assumption. reflexivity.
  - match goal with HX : Forall2 _ l ts |- _ => rename HX into HF end. match goal with HX : Forall _ l |- _ => rename HX into HA end. clear HT HW.
    induction HF as [|v t l ts Hv _ IHF]; [reflexivity|]. inversion IH; inversion HA; subst. cbn [forallb]. apply andb_true_iff. split; eauto.
  - match goal with HX : Forall2 _ l ts |- _ => rename HX into HF end. match goal with HX : Forall _ l |- _ => rename HX into HA end. clear HT HW.
    induction HF as [|v t l ts Hv _ IHF]; [reflexivity|]. inversion IH; inversion HA; subst. cbn [forallb]. apply andb_true_iff. split; eauto.
  - apply andb_true_iff in HO. destruct HO as [OK O2]. match goal with HX : Forall2 _ ?l0 ts |- _ => rename HX into HF; rename l0 into l0 end.
    match goal with HX : if h then _ else _ |- _ => rename HX into HP end.
    match goal with HX : Forall (fun kv => has_type _ _ _) l |- _ => rename HX into HA end. match goal with HX : Forall (fun kv => key_ok _ _ = _) l |- _ => rename HX into HB end.
    assert (IH' : Forall (fun kv : val * val => forall T t, ty_ok T = true -> has_type E T (snd kv) -> Writes E T (snd kv) t -> stree_ok t = true) l0) by (destruct h; [eapply Permutation_Forall; [exact HP|exact IH]|subst l0; exact IH]).
    assert (HA' : Forall (fun kv : val * val => has_type E T0 (snd kv)) l0) by (destruct h; [eapply Permutation_Forall; [exact HP|exact HA]|subst l0; exact HA]).
    assert (HB' : Forall (fun kv : val * val => key_ok K (fst kv) = true) l0) by (destruct h; [eapply Permutation_Forall; [exact HP|exact HB]|subst l0; exact HB]).
    clear HT HW HP IH HA HB. induction HF as [|[k v] [k' t] l0 ts [H1 H2] _ IHF]; [reflexivity|]. inversion IH'; inversion HA'; inversion HB'; subst. cbn [forallb fst snd] in *. subst k'.
    rewrite (key_str_ok K k) by assumption. cbn [andb]. apply andb_true_iff. split; eauto.
  - apply jtree_ok. assumption.
  - apply (jtree_ok (JvNum m)). assumption.
  - apply (jtree_ok (JvArr l)). assumption.
  - apply (jtree_ok (JvObj l)). assumption.
  - match goal with HX : Forall2 _ (combine _ _) ts |- _ => rename HX into HF end. match goal with HX : Forall2 (fun f v => has_type _ _ _) _ _ |- _ => rename HX into HA end.
    assert (fs0 = fs) as -> by congruence. match goal with HX : nth_error E id = Some _ |- _ => pose proof (nth_error_In _ _ HX) as HI end.
    pose proof HE as Q2. unfold env_ok in Q2. rewrite forallb_forall in Q2. apply Q2 in HI as Q2'. cbn in Q2'.
    pose proof HN as Q3. unfold names_ok in Q3. rewrite forallb_forall in Q3. apply Q3 in HI as Q3'. cbn in Q3'. clear - IH HF HA Q2' Q3'.
    revert ts HF. induction HA as [|[nm T] v fs vs H HA IHA]; intros ts HF; cbn [combine] in HF; inversion HF; subst; [reflexivity|]. cbn [forallb fst snd] in *.
    apply andb_true_iff in Q2'. apply andb_true_iff in Q3'. destruct Q2' as [A1 A2], Q3' as [B1 B2]. inversion IH; subst. destruct y as [k' t]. cbn [fst snd] in *.
    match goal with HX : _ /\ _ |- _ => destruct HX as [-> HW] end. rewrite B1. cbn [andb]. apply andb_true_iff. split; eauto.
  - assert (ns0 = ns) as -> by congruence. match goal with HX : nth_error E id = Some _ |- _ => pose proof (nth_error_In _ _ HX) as HI end.
    pose proof HN as Q3. unfold names_ok in Q3. rewrite forallb_forall in Q3. apply Q3 in HI as Q3'. cbn in Q3'. rewrite forallb_forall in Q3'. apply Q3'. eapply nth_error_In. eassumption.
Qed.

(** Whatever the closed model writes, the open model writes for some way to see the value as
    an open-world value... *)
Theorem C57_covers_closed_texts E hm ryu k T v s : setting E hm ryu k T -> has_type E T v -> to_string_is E hm ryu k T v s ->
  exists c, Embeds E T v c /\ writes no_users ryu c tt (Ok s) tt.
Proof.
  intros HS Hv H. destruct (C27_typed E hm ryu k T v HS Hv) as (t & HW & HO & HT).
  assert (s = render itoa ryu t) as -> by (eapply to_string_fun; [exact H|exists (nodes t); exact HT]).
  destruct (writes_embeds E v T t HW HO) as (c & A & B). exists c. split; [exact A|apply shows_written; assumption].
Qed.
(** ... and for all of them if it contains no HashMap, whose order of iteration they fix. *)
Fixpoint no_hash (T : ty) : bool :=
  match T with
  | TBox T | TOption T | TVec T | TArr T _ => no_hash T
  | TPair A B => no_hash A && no_hash B
  | TMap h _ T => negb h && no_hash T
  | _ => true
  end.
Definition env_no_hash (E : env) : Prop :=
  forall id fs, nth_error E id = Some (DStruct fs) -> forallb (fun f => no_hash (snd f)) fs = true.
Lemma writes_unique E v : env_no_hash E -> forall T t1 t2, no_hash T = true -> Writes E T v t1 -> Writes E T v t2 -> t1 = t2.
Proof.
  intros HE. revert v.
  assert (FX : forall T (l : list val) ts1 ts2, Forall (fun v => forall T t1 t2, no_hash T = true -> Writes E T v t1 -> Writes E T v t2 -> t1 = t2) l -> no_hash T = true ->
    Forall2 (Writes E T) l ts1 -> Forall2 (Writes E T) l ts2 -> ts1 = ts2).
  { intros T l ts1 ts2 HI HT H1. revert ts2. induction H1 as [|v t l ts H _ IH]; intros ts2 H2; inversion H2; subst; [reflexivity|]. inversion HI; subst. f_equal; eauto. }
  intros v. induction v as [|b|s|z|f|f|v IH| |v IH|a b IHa IHb|l IH|l IH|j|m|l|l|l IH|i] using val_ind'; intros T t1 t2 HT H1 H2; inversion H1; subst; inversion H2; subst; cbn [no_hash] in *; try reflexivity; eauto.
  - apply andb_true_iff in HT. destruct HT. f_equal. f_equal; [eauto|f_equal; eauto].
  - f_equal. eauto.
  - f_equal. eauto.
  - apply andb_true_iff in HT. destruct HT as [HH HT]. destruct h; [discriminate HH|]. subst. f_equal.
    match goal with HX : Forall2 _ _ ts |- _ => rename HX into F1 end. match goal with HX : Forall2 _ _ ts0 |- _ => rename HX into F2 end. clear H1 H2. revert ts0 F2.
    induction F1 as [|[k v] [k1 t] l0 ts [A B] _ IHF]; intros ts0 F2; inversion F2 as [|? [k2 u] ? ? [A' B']]; subst; [reflexivity|]. inversion IH; subst. cbn [fst snd] in *. subst. f_equal; [f_equal; eauto|eauto].
  - assert (fs0 = fs) as -> by congruence. f_equal. match goal with HX : nth_error E id = Some _ |- _ => pose proof (HE _ _ HX) as HF end.
    match goal with HX : Forall2 _ _ ts |- _ => rename HX into F1 end. match goal with HX : Forall2 _ _ ts0 |- _ => rename HX into F2 end. clear - IH HF F1 F2.
    revert l IH ts ts0 F1 F2. induction fs as [|[nm T] fs IHfs]; intros l IH ts ts0 F1 F2; (destruct l as [|v l]; cbn [combine] in *; [inversion F1; inversion F2; subst; reflexivity|]); [inversion F1; inversion F2; subst; reflexivity|].
    cbn [forallb snd] in HF. apply andb_true_iff in HF. destruct HF as [HF1 HF2]. inversion IH; subst.
    inversion F1 as [|? [k1 t] ? ? [A B]]; inversion F2 as [|? [k2 u] ? ? [A' B']]; subst. cbn [fst snd] in *. subst. f_equal; [f_equal; eauto|eauto].
  - congruence.
Qed.
Theorem C57_agrees_with_closed_model E hm ryu k T v c s : setting E hm ryu k T -> env_no_hash E -> no_hash T = true -> has_type E T v ->
  Embeds E T v c -> (writes no_users ryu c tt (Ok s) tt <-> to_string_is E hm ryu k T v s).
Proof.
  intros HS HE HH Hv HC. destruct (C27_typed E hm ryu k T v HS Hv) as (t & HW & HO & HT).
  destruct (embeds_shows E v T c HC) as (t' & HW' & HX). assert (t' = t) as -> by (eapply writes_unique; eassumption).
  pose proof (shows_written ryu c t HX HO) as HY. assert (HZ : to_string_is E hm ryu k T v (render itoa ryu t)) by (exists (nodes t); exact HT). split.
  - intros H. destruct (writes_det no_users ryu no_users_rust _ _ _ _ _ _ H HY) as [[= ->] _]. exact HZ.
  - intros H. assert (s = render itoa ryu t) as -> by (eapply to_string_fun; eassumption). exact HY.
Qed.
(** With HashMaps: the text of any embedding is the text of one of the trees that the value may
    write (SerSpec.Writes, the specification of the closed model). *)
Theorem C57_open_texts_are_specified E hm ryu k T v c : setting E hm ryu k T -> has_type E T v -> Embeds E T v c ->
  exists t, Writes E T v t /\ writes no_users ryu c tt (Ok (render itoa ryu t)) tt.
Proof.
  intros (HT & HE & HN & _) Hv HC. destruct (embeds_shows E v T c HC) as (t & HW & HX). exists t. split; [exact HW|].
  apply shows_written; [exact HX|]. eapply written_ok; eassumption.
Qed.

(** The specification of what a value writes allows nothing more than what happens: each of the
    trees is written, for some order in which the HashMaps are iterated. *)
Lemma orders_for E hm ryu k T v t : setting E hm ryu k T -> has_type E T v -> Writes E T v t ->
  exists hm', orders hm' /\ to_string_is E hm' ryu k T v (render itoa ryu t).
Proof.
  intros (HT & HE & HN & HO & HR & Hk) Hv HW. destruct (depth_fits E T k Hk) as (F1 & F2 & F3).
  destruct (Av_describes E k F3 v T t 0%nat (every_tree E k HE F2 F3 v) Hv HT F1 HW) as (n2 & hm' & _ & O & H). exists hm'. split; [exact O|].
  exists (nodes t). intros fuel L. unfold to_string. rewrite (described_written _ ryu _ _ _ _ fuel (H hm' (fun m l _ => eq_refl)) (stree_strs _ (written_ok E v HE HN T t HT Hv HW)) L). reflexivity.
Qed.
Theorem C27_texts_are_exactly_these E hm ryu k T v s : setting E hm ryu k T -> has_type E T v ->
  ((exists hm', orders hm' /\ to_string_is E hm' ryu k T v s) <-> (exists t, Writes E T v t /\ s = render itoa ryu t)).
Proof.
  intros HS Hv. split.
  - intros (hm' & O & H). assert (HS' : setting E hm' ryu k T) by (destruct HS as (A & B & C & _ & F); exact (conj A (conj B (conj C (conj O F))))).
    destruct (C27_typed E hm' ryu k T v HS' Hv) as (t & HW & _ & HT). exists t. split; [exact HW|]. eapply to_string_fun; [exact H|exists (nodes t); exact HT].
  - intros (t & HW & ->). eapply orders_for; eassumption.
Qed.
(** With HashMaps: seeing the value in the open world fixes one order of iteration, and for that
    order both models write the same text. *)
Theorem C57_agrees_with_closed_model_hash E hm ryu k T v c : setting E hm ryu k T -> has_type E T v -> Embeds E T v c ->
  exists hm', orders hm' /\ forall s, writes no_users ryu c tt (Ok s) tt <-> to_string_is E hm' ryu k T v s.
Proof.
  intros HS Hv HC. destruct (C57_open_texts_are_specified E hm ryu k T v c HS Hv HC) as (t & HW & HY). destruct (orders_for E hm ryu k T v t HS Hv HW) as (hm' & O & HZ).
  exists hm'. split; [exact O|]. intros s. split.
  - intros H. destruct (writes_det no_users ryu no_users_rust _ _ _ _ _ _ H HY) as [[= ->] _]. exact HZ.
  - intros H. assert (s = render itoa ryu t) as -> by (eapply to_string_fun; eassumption). exact HY.
Qed.

(** ** Examples *)
Definition rs (s : bytes) (H : str_ok s = true) : rstr := mk_rstr s H.
Notation lit x := (rs (bs x) eq_refl).
Definition ex_node_open : oval :=
  CStruct [(lit "a", CUnsigned 3); (lit "b", COption None);
           (lit "next", COption (Some (CRef (CStruct [(lit "a", CUnsigned 2); (lit "b", COption (Some (CStr (lit "x")))); (lit "next", COption None)]))))].
Example ex_C57_embeds : Embeds ex_env (TNamed 0) ex_node_val ex_node_open.
Proof.
  eapply em_struct; [reflexivity|reflexivity|]. cbn [combine]. constructor; [split; [reflexivity|constructor]|].
  constructor; [split; [reflexivity|constructor]|]. constructor; [|constructor]. split; [reflexivity|]. constructor. constructor.
  eapply em_struct; [reflexivity|reflexivity|]. cbn [combine]. constructor; [split; [reflexivity|constructor]|].
  constructor; [split; [reflexivity|]|]. { constructor. apply (em_string ex_env (lit "x")). }
  constructor; [|constructor]. split; [reflexivity|constructor].
Qed.
Example ex_C57_same_text : env_no_hash ex_env /\ writes no_users exact_print ex_node_open tt (Ok ex_node_text) tt.
Proof.
  split; [intros [|[|[|id]]] fs H; cbn in H; try discriminate H; injection H as <-; reflexivity|]. exists 20%nat. split; [vm_compute; reflexivity|discriminate].
Qed.
(** A json::Value is written like the containers it consists of. *)
Example ex_C57_value : exists c, Embeds [] TValue (VJson (JvArr [JvNum (NU64 7); JvObj [(bs "k", JvNull)]])) c /\
  writes no_users exact_print c tt (Ok (bs "[7,{""k"":null}]")) tt.
Proof.
  exists (CSlice [CUnsigned 7; CMap [(lit "k", CUnit)]]). split.
  - constructor. constructor. constructor; [constructor; constructor|]. constructor; [|constructor]. constructor. constructor; [|constructor]. split; [reflexivity|constructor].
  - exists 20%nat. split; [vm_compute; reflexivity|discriminate].
Qed.
(** A HashMap of two entries can be written in both orders, and in no other way. *)
Example ex_C27_both_orders ryu k : ryu_ok ryu -> (2 <= k)%nat ->
  let T := TMap true KString (TInt false 8) in let v := VMap [(VStr (bs "a"), VInt 1); (VStr (bs "b"), VInt 2)] in
  setting [] id_order ryu k T /\ has_type [] T v /\
  forall s, (exists hm, orders hm /\ to_string_is [] hm ryu k T v s) <-> s = bs "{""a"":1,""b"":2}" \/ s = bs "{""b"":2,""a"":1}".
Proof.
  intros HR Hk T v. assert (HS : setting [] id_order ryu k T) by (unfold setting; repeat (split; [reflexivity || exact HR || apply ex_orders|]); cbn; lia).
  assert (Hv : has_type [] T v) by (apply ht_map; repeat constructor).
  split; [exact HS|]. split; [exact Hv|]. intros s. rewrite (C27_texts_are_exactly_these [] id_order ryu k T v s HS Hv). split.
  - intros (t & HW & ->). inversion HW as [| | | | | | | | | | | | |h K T0 m l ts HP F| | | | | |]; subst. cbv iota in HP. apply Permutation_length_2_inv in HP. destruct HP as [-> | ->].
    + left. inversion F as [|? [k1 t1] ? ? [A1 B1] F1]; subst. inversion F1 as [|? [k2 t2] ? ? [A2 B2] F2]; subst. inversion F2; subst. cbn [fst snd] in *. inversion B1; inversion B2; subst. vm_compute. reflexivity.
    + right. inversion F as [|? [k1 t1] ? ? [A1 B1] F1]; subst. inversion F1 as [|? [k2 t2] ? ? [A2 B2] F2]; subst. inversion F2; subst. cbn [fst snd] in *. inversion B1; inversion B2; subst. vm_compute. reflexivity.
  - intros [-> | ->].
    + exists (STMap [(bs "a", STU64 1); (bs "b", STU64 2)]). split; [|vm_compute; reflexivity]. eapply (wr_map [] true); [apply Permutation_refl|]. repeat (constructor; [split; [reflexivity|constructor]|]). constructor.
    + exists (STMap [(bs "b", STU64 2); (bs "a", STU64 1)]). split; [|vm_compute; reflexivity]. eapply (wr_map [] true); [apply perm_swap|]. repeat (constructor; [split; [reflexivity|constructor]|]). constructor.
Qed.
