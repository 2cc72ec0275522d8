(** C65: from_str::<json::Value> followed by to_string is a normal form of JSON documents. *)
From Coq Require Import String ZArith List Bool Lia Reals Permutation Sorted Floats.SpecFloat.
From Flocq Require Import Core.Core IEEE754.BinarySingleNaN.
From Verif Require Import Base Utf8 Utf8Facts F64 Lexer Grammar LexSpec Types Impls Ser JsonValue Reading ReadFacts TypedFacts FromStr Unambiguous NumValue DocSpec
  ClaimsParse ClaimsNum ClaimsTypes SerSpec RenderFacts WriteFacts ExactPrint ClaimsSer ClaimsWrite DebugSpec ClaimsDebug NormSpec NormFacts.
Import ListNotations.
Open Scope Z_scope.

Section Norm.
Variable E : env.
Variable hm : nat -> list (val * val) -> list (val * val).
Variable ryu : f64 -> bytes.
Variable k : nat.
Variable oc : bool.
Notation reprinted := (reprinted E hm ryu k oc).
Notation prints j s := (to_string_is E hm ryu k TValue (VJson j) s).

Lemma printed_is j s : setting E hm ryu k TValue -> jval_ok j = true -> (prints j s <-> s = render itoa ryu (jtree j)).
Proof.
  intros HS HJ. destruct (C27_typed E hm ryu k TValue _ HS (ht_value E _ HJ)) as (t & A & _ & C). inversion A; subst. split.
  - intros H. eapply to_string_fun; [exact H|eexists; exact C].
  - intros ->. eexists. exact C.
Qed.
Lemma read_is s j : setting E hm ryu k TValue -> text_ok s -> (from_str E k oc TValue s = Ok (VJson j) <-> exists d, JText d s /\ JReads d j).
Proof.
  intros (HT & HE & _ & _ & _ & Hk) Hs. rewrite from_str_reads by assumption. split; intros (d & Hd & H); exists d; (split; [exact Hd|]); [inversion H; assumption|constructor; exact H].
Qed.
Lemma reprinted_is s s' : setting E hm ryu k TValue -> text_ok s ->
  (reprinted s s' <-> exists d j, JText d s /\ dgood d /\ doc_ok d /\ JReads d j /\ jval_ok j = true /\ s' = render itoa ryu (jtree j)).
Proof.
  intros HS Hs. split.
  - intros (j & R & P). apply (read_is s j HS Hs) in R. destruct R as (d & Hd & R). exists d, j.
    assert (G : dgood d) by (eapply JText_good; [apply Hs|exact Hd|exists j; exact R]). assert (O : jval_ok j = true) by (eapply jr_ok; eassumption).
    apply (printed_is j s' HS O) in P. repeat (split; [assumption || (eapply JText_doc_ok; eassumption)|]). exact P.
  - intros (d & j & Hd & _ & _ & R & O & P). exists j. split; [apply (read_is s j HS Hs); eauto|]. apply (printed_is j s' HS O), P.
Qed.

(** Every text that can be read has exactly one normal form. *)
Theorem C65_exactly_one s d : setting E hm ryu k TValue -> text_ok s -> JText d s ->
  (readable d <-> exists s', reprinted s s') /\ forall s1 s2, reprinted s s1 -> reprinted s s2 -> s1 = s2.
Proof.
  intros HS Hs Hd. split; [split|].
  - intros [j R]. assert (G : dgood d) by (eapply JText_good; [apply Hs|exact Hd|exists j; exact R]). exists (render itoa ryu (jtree j)). apply reprinted_is; auto.
    exists d, j. repeat (split; [assumption || (eapply JText_doc_ok; eassumption) || (eapply jr_ok; eassumption)|]). reflexivity.
  - intros (s' & j & R & _). apply (read_is s j HS Hs) in R. destruct R as (d' & Hd' & R). rewrite (JText_unique _ _ _ Hd Hd'). exists j. exact R.
  - intros s1 s2 (j1 & R1 & P1) (j2 & R2 & P2). rewrite R1 in R2. injection R2 as <-. eapply to_string_fun; eassumption.
Qed.

(** Two texts have the same normal form iff their documents say the same. *)
Theorem C65_same_iff_same_document s1 s2 d1 d2 u1 u2 : setting E hm ryu k TValue -> text_ok s1 -> text_ok s2 -> JText d1 s1 -> JText d2 s2 ->
  reprinted s1 u1 -> reprinted s2 u2 -> (u1 = u2 <-> same_doc d1 d2).
Proof.
  intros HS H1 H2 D1 D2 R1 R2. apply (reprinted_is _ _ HS H1) in R1. apply (reprinted_is _ _ HS H2) in R2.
  destruct R1 as (d1' & j1 & D1' & G1 & O1 & J1 & V1 & ->), R2 as (d2' & j2 & D2' & G2 & O2 & J2 & V2 & ->).
  rewrite (JText_unique _ _ _ D1 D1'), (JText_unique _ _ _ D2 D2'). rewrite (same_doc_value d1' d2' j1 j2 G1 G2 J1 J2). split.
  - intros EQ. assert (HR : ryu_ok ryu) by apply HS.
    destruct (render_jtext ryu HR (jtree j1) (jtree_ok j1 V1)) as (x & X1 & X2). destruct (render_jtext ryu HR (jtree j2) (jtree_ok j2 V2)) as (y & Y1 & Y2).
    rewrite EQ in X2. rewrite (JText_unique _ _ _ X2 Y2) in X1.
    apply (denotes_same j1 j2 y); auto; [exact (read_finite d1' j1 G1 J1)|exact (read_finite d2' j2 G2 J2)].
  - apply same_render.
Qed.

(** Values whose floats are finite: the text determines the value (up to how an integer is held). *)
Fixpoint finite_floats (j : jval) : Prop :=
  match j with
  | JvNum (NF64 f) => f_is_finite f = true
  | JvArr l => (fix go l := match l with [] => True | x :: r => finite_floats x /\ go r end) l
  | JvObj l => (fix go l := match l with [] => True | x :: r => finite_floats (snd x) /\ go r end) l
  | _ => True
  end.
Lemma finite_all j : finite_floats j -> all_finite j = true.
Proof.
  induction j as [|b|m|s|l IH|l IH] using jval_ind'; intros H; try reflexivity.
  - destruct m; [reflexivity|reflexivity|exact H].
  - cbn [all_finite]. revert H. induction IH as [|x l HX IH IHl]; intros H; [reflexivity|]. destruct H as [A B]. cbn [forallb]. rewrite (HX A). exact (IHl B).
  - cbn [all_finite]. revert H. induction IH as [|x l HX IH IHl]; intros H; [reflexivity|]. destruct H as [A B]. cbn [forallb]. rewrite (HX A). exact (IHl B).
Qed.
Theorem C65_text_determines_value j1 j2 s1 s2 : setting E hm ryu k TValue -> jval_ok j1 = true -> jval_ok j2 = true -> finite_floats j1 -> finite_floats j2 ->
  prints j1 s1 -> prints j2 s2 -> (s1 = s2 <-> same_value j1 j2).
Proof.
  intros HS V1 V2 F1 F2 P1 P2. apply (printed_is _ _ HS V1) in P1. apply (printed_is _ _ HS V2) in P2. subst. split; [|apply same_render].
  intros EQ. assert (HR : ryu_ok ryu) by apply HS.
  destruct (render_jtext ryu HR (jtree j1) (jtree_ok j1 V1)) as (x & X1 & X2). destruct (render_jtext ryu HR (jtree j2) (jtree_ok j2 V2)) as (y & Y1 & Y2).
  rewrite EQ in X2. rewrite (JText_unique _ _ _ X2 Y2) in X1. apply (denotes_same j1 j2 y); auto using finite_all.
Qed.

(** Documents whose numbers are integers: the normal form says the same as the text, lists the
    keys of every object in increasing order, each once, and is its own normal form. *)
Theorem C65_normal_form s d u : setting E hm ryu k TValue -> text_ok s -> JText d s -> integers_only d -> reprinted s u ->
  text_ok u /\ reprinted u u /\ exists d', JText d' u /\ same_doc d d' /\ doc_sorted d'.
Proof.
  intros HS Hs Hd HI HR. pose proof HR as (j & R & P). apply (read_is s j HS Hs) in R. destruct R as (d1 & Hd1 & R). pose proof (JText_unique _ _ _ Hd Hd1) as <-.
  assert (G : dgood d) by (eapply JText_good; [apply Hs|exact Hd|exists j; exact R]). assert (O : jval_ok j = true) by (eapply jr_ok; eassumption).
  pose proof (integers_no_floats d j (JText_doc_ok _ _ Hd) HI R) as NF.
  destruct (C34_without_floats E hm ryu k oc j u HS O (no_floats_nff _ NF) P) as [R2 P2].
  assert (Hu : text_ok u) by (apply limit_i32; [exact (text_of_ok E hm ryu k TValue (VJson j) u HS (ht_value E _ O) P)|exact (written_runs E hm ryu k TValue (VJson j) u HS (ht_value E _ O) P)]).
  assert (RU : reprinted u u) by (exists (jnorm j); split; assumption).
  split; [exact Hu|]. split; [exact RU|].
  destruct (C36_value_keys_sorted E hm ryu k j u HS O P) as (d' & Hd' & SO). exists d'. split; [exact Hd'|]. split; [|exact SO].
  apply (C65_same_iff_same_document s u d d' u u HS Hs Hu Hd Hd' HR RU). reflexivity.
Qed.
(** And it is a shortest text that says this. *)
Theorem C65_shortest s d u s2 d2 : setting E hm ryu k TValue -> text_ok s -> JText d s -> integers_only d -> reprinted s u ->
  text_ok s2 -> JText d2 s2 -> readable d2 -> same_doc d d2 -> (List.length u <= List.length s2)%nat.
Proof.
  intros HS Hs Hd HI HR H2 D2 R2 SD. destruct (proj1 (proj1 (C65_exactly_one s2 d2 HS H2 D2)) R2) as (u2 & HR2).
  pose proof (proj2 (C65_same_iff_same_document s s2 d d2 u u2 HS Hs H2 Hd D2 HR HR2) SD) as <-.
  apply (reprinted_is _ _ HS Hs) in HR. destruct HR as (d' & j & Hd' & G & DO & R & O & ->). pose proof (JText_unique _ _ _ Hd Hd') as <-.
  apply (reprinted_is _ _ HS H2) in HR2. destruct HR2 as (d2' & j2 & D2' & G2 & DO2 & RR2 & O2 & EQ). pose proof (JText_unique _ _ _ D2 D2') as <-.
  assert (NF : no_floats j2 = true).
  { apply (same_doc_value d d2 j j2 G G2 R RR2) in SD. pose proof (integers_no_floats d j DO HI R) as NF. clear - SD NF. revert j2 SD NF.
    induction j as [|b|m|s|l IH|l IH] using jval_ind'; intros j2 SD NF; inversion SD as [| |? n' HN| |? l' HF|? l' HF]; subst; try reflexivity.
    - inversion HN as [? ? z X [-> | ->]|]; subst; try reflexivity. discriminate NF.
    - cbn [no_floats] in *. clear SD. revert NF. induction HF as [|x y l l' HX HF IHF]; intros NF; [reflexivity|]. inversion IH as [|? ? I1 I2]; subst. cbn [forallb] in *. apply andb_true_iff in NF. destruct NF as [N1 N2]. rewrite (I1 y HX N1), (IHF I2 N2). reflexivity.
    - cbn [no_floats] in *. clear SD. revert NF. induction HF as [|x y l l' [HE HX] HF IHF]; intros NF; [reflexivity|]. inversion IH as [|? ? I1 I2]; subst. cbn [forallb] in *. apply andb_true_iff in NF. destruct NF as [N1 N2]. rewrite (I1 (snd y) HX N1), (IHF I2 N2). reflexivity. }
  rewrite EQ. etransitivity; [apply (render_wlen ryu d2 j2 RR2 NF)|]. destruct D2 as (w1 & t & w2 & -> & _ & HV & _). apply (proj1 text_wlen) in HV. rewrite !app_length. lia.
Qed.
End Norm.

(** ** Examples: two texts that differ in whitespace, order, a superseded member, escapes and the
    spelling of zero. *)
Definition ex_norm_1 : bytes := bs " { ""b"" : 1.5 , ""a"" : [ true , -0 , ""\u0041\/"" ] , ""b"" : 2 } ".
Definition ex_norm_2 : bytes := bs "{""b"":2,""\u0061"":[true,0,""A/""]}".
Definition ex_norm : bytes := bs "{""a"":[true,0,""A/""],""b"":2}".
Example ex_C65_setting : setting [] id_order exact_print 1 TValue /\ text_ok ex_norm_1 /\ text_ok ex_norm_2.
Proof. split; [apply ex_setting_gen; try reflexivity; [apply ex_orders|cbn; lia]|]. split; ClaimsParse.text_ok. Qed.
Lemma ex_C65_by s j : from_str [] 1 true TValue s = Ok (VJson j) -> jval_ok j = true -> render itoa exact_print (jtree j) = ex_norm -> reprinted [] id_order exact_print 1 true s ex_norm.
Proof. intros R O P. exists j. split; [exact R|]. apply printed_is; [apply ex_C65_setting|exact O|symmetry; exact P]. Qed.
Example ex_C65 : reprinted [] id_order exact_print 1 true ex_norm_1 ex_norm /\ reprinted [] id_order exact_print 1 true ex_norm_2 ex_norm.
Proof. split; (eapply ex_C65_by; [vm_compute; reflexivity|vm_compute; reflexivity|vm_compute; reflexivity]). Qed.
Definition ex_lit z : numlit := mknum false [z] None None.
Definition ex_norm_doc (zero : numlit) (l : list (bytes * doc)) : doc := DObj (l ++ [(bs "a", DArr [DBool true; DNum zero; DStr (bs "A/")]); (bs "b", DNum (ex_lit 2))]).
Example ex_C65_same_doc :
  same_doc (ex_norm_doc (mknum true [0] None None) [(bs "b", DNum (mknum false [1] (Some [5]) None))]) (ex_norm_doc (ex_lit 0) []) /\
  integers_only (ex_norm_doc (ex_lit 0) []) /\
  ~ same_doc (DArr [DNum (ex_lit 0)]) (DArr [DNum (mknum false [0] (Some [0]) None)]).
Proof.
  assert (Z1 : same_doc (DNum (mknum true [0] None None)) (DNum (ex_lit 0))) by (constructor; apply sl_integer; [split; reflexivity|split; reflexivity|unfold i64_MIN, u64_MAX; vm_compute; split; discriminate|reflexivity]).
  assert (Z2 : same_doc (DNum (ex_lit 2)) (DNum (ex_lit 2))) by (constructor; apply sl_integer; [split; reflexivity|split; reflexivity|unfold i64_MIN, u64_MAX; vm_compute; split; discriminate|reflexivity]).
  assert (ZA : same_doc (DArr [DBool true; DNum (mknum true [0] None None); DStr (bs "A/")]) (DArr [DBool true; DNum (ex_lit 0); DStr (bs "A/")])) by (constructor; constructor; [constructor|constructor; [exact Z1|constructor; [constructor|constructor]]]).
  assert (LA : forall (l : list (bytes * doc)) a b, (forall kv, In kv l -> fst kv = bs "b") -> last_binding (l ++ [(bs "a", a); (bs "b", b)]) (bs "a") a /\ last_binding (l ++ [(bs "a", a); (bs "b", b)]) (bs "b") b /\
    forall kk d, last_binding (l ++ [(bs "a", a); (bs "b", b)]) kk d -> (kk = bs "a" /\ d = a) \/ (kk = bs "b" /\ d = b)).
  { intros l a b HL. assert (A1 : last_binding (l ++ [(bs "a", a); (bs "b", b)]) (bs "a") a) by (exists l, [(bs "b", b)]; split; [reflexivity|constructor; [discriminate|constructor]]).
    assert (B1 : last_binding (l ++ [(bs "a", a); (bs "b", b)]) (bs "b") b) by (exists (l ++ [(bs "a", a)]), []; split; [rewrite <- app_assoc; reflexivity|constructor]).
    split; [exact A1|]. split; [exact B1|]. intros kk d H. pose proof (MapFacts.last_binding_in _ _ _ H) as HI. apply in_app_iff in HI. destruct HI as [HI|[HI|[HI|[]]]].
    - apply HL in HI. cbn [fst] in HI. subst kk. right. split; [reflexivity|exact (MapFacts.last_binding_unique _ _ _ _ H B1)].
    - injection HI as <- <-. left. split; reflexivity.
    - injection HI as <- <-. right. split; reflexivity. }
  split; [|split].
  - unfold ex_norm_doc. set (a1 := DArr _) in *. set (l1 := [(bs "b", _)]). match goal with |- same_doc (DObj (l1 ++ [_; (_, ?b)])) (DObj ([] ++ [(_, ?a2); _])) =>
      destruct (LA l1 a1 b ltac:(intros kv [<-|[]]; reflexivity)) as (A1 & B1 & C1); destruct (LA [] a2 b ltac:(intros kv [])) as (A2 & B2 & C2) end.
    constructor.
    + intros kk d H. destruct (C1 kk d H) as [[-> ->]|[-> ->]]; [eexists; split; [exact A2|exact ZA]|eexists; split; [exact B2|exact Z2]].
    + intros kk d H. destruct (C2 kk d H) as [[-> ->]|[-> ->]]; [eexists; split; [exact A1|exact ZA]|eexists; split; [exact B1|exact Z2]].
  - unfold ex_norm_doc. cbn. unfold is_int_lit, i64_MIN, u64_MAX, lit_int, digits_val. cbn. intuition lia.
  - intros H. inversion H as [| | | |? ? HF|]; subst. inversion HF as [|? ? ? ? HX]; subst. inversion HX as [| | |? ? SL| |]; subst. destruct SL as [_ X _ _|f X _]; [destruct X; discriminate|]. vm_compute in X. discriminate.
Qed.
