(** Claims about serialization, continued: C18 and C22 (writing), C34, C36, C43. *)
From Coq Require Import String ZArith List Bool Lia Reals Lra Permutation Sorted Floats.SpecFloat.
From Flocq Require Import Core.Core IEEE754.BinarySingleNaN.
From Verif Require Import Base Utf8 Utf8Facts F64 Lexer Grammar LexSpec Types Impls Ser JsonValue HeapSeq Reading MapFacts ReadFacts FromStr Unambiguous VisitFacts NumValue DocSpec
  FloatOps FloatRead NumFacts ClaimsParse ClaimsNum TypedFacts ClaimsTypes SerSpec SerFacts RenderFacts WriteFacts FloatRT ExactPrint RenderRuns RoundTrip ClaimsSer RunFacts RunText.
Import ListNotations.
Open Scope Z_scope.

(** ** C18, C22: what enums, Option and Box are written as *)
Theorem C18_enum_writes_its_name E hm ryu k id ns i name :
  setting E hm ryu k (TNamed id) -> nth_error E id = Some (DEnum ns) -> nth_error ns i = Some name ->
  to_string_is E hm ryu k (TNamed id) (VEnum i) (quote name).
Proof.
  intros HS HE HI. assert (HT : has_type E (TNamed id) (VEnum i)) by (eapply ht_enum; [exact HE|apply nth_error_Some; congruence]).
  destruct (C27_typed E hm ryu k _ _ HS HT) as (t & A & _ & C). inversion A; subst. exists 1%nat.
  match goal with HX : nth_error E id = Some (DEnum ?a) |- _ => rewrite HX in HE; injection HE as -> end. match goal with HX : nth_error ns i = Some ?a |- _ => rewrite HX in HI; injection HI as -> end. exact C.
Qed.
Lemma begin_budget E hm T : forall v n k1 k2, (wraps T < k1)%nat -> (wraps T < k2)%nat -> ser_begin E hm k1 T v n = ser_begin E hm k2 T v n.
Proof.
  induction T as [| | |sg b| | |T IH|T IH|A IHA B IHB|T IH|T n0 IH|h K T IH| | | | |id]; intros v n k1 k2 H1 H2; (destruct k1 as [|k1]; [lia|]); (destruct k2 as [|k2]; [lia|]); try reflexivity; destruct v; try reflexivity.
  - cbn [ser_begin wraps] in *. apply IH; lia.
  - cbn [ser_begin wraps] in *. apply IH; lia.
Qed.
Lemma wraps_fit E T k : (wrap_depth E T < k)%nat -> (wraps T < k)%nat.
Proof. intros H. destruct (depth_fits E T k H) as (F & _). assert (F' : (maxw T < k)%nat) by exact F. pose proof (wraps_maxw T). lia. Qed.
Lemma same_begin E hm ryu k fuel T v T' v' : (forall n, ser_begin E hm k T v n = ser_begin E hm k T' v' n) ->
  to_string E hm ryu k fuel T v = to_string E hm ryu k fuel T' v'.
Proof.
  intros H. unfold to_string, to_string_impl. destruct fuel as [|fuel]; [reflexivity|]. cbn [ser_loop i_begin val_iface fst snd]. rewrite H. reflexivity.
Qed.
Theorem C22_option_writes E hm ryu k T v :
  (wrap_depth E (TOption T) < k)%nat ->
  to_string_is E hm ryu k (TOption T) VNone (bs "null") /\
  forall fuel, to_string E hm ryu k fuel (TOption T) (VSome v) = to_string E hm ryu k fuel T v.
Proof.
  intros Hk. apply wraps_fit in Hk. cbn [wraps] in Hk. destruct k as [|k]; [lia|]. split.
  - exists 1%nat. intros [|fuel] H; [lia|]. reflexivity.
  - intros fuel. apply same_begin. intros n. change (ser_begin E hm k T v n = ser_begin E hm (S k) T v n). apply begin_budget; lia.
Qed.
Theorem C22_box_writes E hm ryu k T v :
  (wrap_depth E (TBox T) < k)%nat ->
  forall fuel, to_string E hm ryu k fuel (TBox T) (VBox v) = to_string E hm ryu k fuel T v.
Proof.
  intros Hk. apply wraps_fit in Hk. cbn [wraps] in Hk. destruct k as [|k]; [lia|]. intros fuel. apply same_begin. intros n. change (ser_begin E hm k T v n = ser_begin E hm (S k) T v n). apply begin_budget; lia.
Qed.

(** ** C34: json::Value *)
Theorem C34_value_round_trip E hm ryu k oc j s :
  setting E hm ryu k TValue -> jval_ok j = true -> jfloats_ok j ->
  to_string_is E hm ryu k TValue (VJson j) s ->
  exists j', from_str E k oc TValue s = Ok (VJson j') /\ JBack j j'.
Proof.
  intros HS Hv HF Hs. pose proof (ht_value E _ Hv) as Hty. pose proof (written_runs _ _ _ _ _ _ _ HS Hty Hs) as HL. pose proof (text_of_ok _ _ _ _ _ _ _ HS Hty Hs) as Hu. destruct (written_tree _ _ _ _ _ _ _ HS Hty Hs) as (t & d & A & B & _ & C & HD).
  destruct HS as (HT & HE & _ & _ & _ & Hk). inversion A; subst. destruct (json_back j d) as (j' & R & BK); auto; [eapply text_dlits; eassumption|].
  exists j'. split; [|exact BK]. apply from_str_reads; auto using limit_i32. exists d. split; [exact HD|constructor; exact R].
Qed.
Lemma nff_floats j : no_finite_floats j = true -> jfloats_ok j.
Proof.
  induction j as [|b|m|s|l IH|l IH] using jval_ind'; intros HP; try exact Logic.I.
  - destruct m; try exact Logic.I. cbn [no_finite_floats jfloats_ok] in *. intros H. rewrite H in HP. discriminate.
  - apply jfloats_arr. cbn [no_finite_floats] in HP. rewrite forallb_forall in HP. rewrite Forall_forall in *. auto.
  - apply jfloats_obj. cbn [no_finite_floats] in HP. rewrite forallb_forall in HP. rewrite Forall_forall in *. auto.
Qed.
Lemma nff_back j : forall j', no_finite_floats j = true -> JBack j j' -> j' = jnorm j.
Proof.
  induction j as [|b|m|s|l IH|l IH] using jval_ind'; intros j' HP HB; inversion HB; subst; cbn [no_finite_floats jnorm] in *; try reflexivity.
  - match goal with HX : _ < 0 |- _ => apply Z.ltb_lt in HX; rewrite HX end. reflexivity.
  - match goal with HX : 0 <= _ |- _ => apply Z.ltb_ge in HX; rewrite HX end. reflexivity.
  - match goal with HX : f_is_finite f = true |- _ => rewrite HX in HP end. discriminate.
  - match goal with HX : f_is_finite f = false |- _ => rewrite HX end. reflexivity.
  - f_equal. match goal with HX : Forall2 JBack l ?b |- _ => revert HX; clear HB; revert b end. induction IH as [|j l Hj IH IHl]; intros l' HX; inversion HX; subst; [reflexivity|].
    cbn [forallb map] in *. apply andb_true_iff in HP. destruct HP. f_equal; auto.
  - f_equal. match goal with HX : Forall2 _ l ?b |- _ => revert HX; clear HB; revert b end. induction IH as [|[k j] l Hj IH IHl]; intros l' HX; inversion HX as [|? [k' j'] ? ? [? ?]]; subst; [reflexivity|].
    cbn [forallb map fst snd] in *. apply andb_true_iff in HP. destruct HP. subst. f_equal; auto. f_equal. auto.
Qed.
Lemma nff_render ryu j : no_finite_floats j = true -> render itoa ryu (jtree (jnorm j)) = render itoa ryu (jtree j).
Proof.
  induction j as [|b|m|s|l IH|l IH] using jval_ind'; intros HP; cbn [jnorm no_finite_floats jtree] in *; try reflexivity.
  - destruct m as [n|n|f]; [reflexivity| |].
    + destruct (n <? 0); reflexivity.
    + apply negb_true_iff in HP. rewrite HP. cbn [jtree render]. rewrite HP. reflexivity.
  - cbn [render]. do 3 f_equal. rewrite !map_map. apply map_ext_in. intros x Hx. rewrite Forall_forall in IH. rewrite forallb_forall in HP. auto.
  - cbn [render]. do 3 f_equal. rewrite !map_map. apply map_ext_in. intros x Hx. rewrite Forall_forall in IH. rewrite forallb_forall in HP. cbn [fst snd]. do 2 f_equal. auto.
Qed.
(** Without finite floats: the value comes back in normal form, and is written again as
    the same text. *)
Theorem C34_without_floats E hm ryu k oc j s :
  setting E hm ryu k TValue -> jval_ok j = true -> no_finite_floats j = true ->
  to_string_is E hm ryu k TValue (VJson j) s ->
  from_str E k oc TValue s = Ok (VJson (jnorm j)) /\ to_string_is E hm ryu k TValue (VJson (jnorm j)) s.
Proof.
  intros HS Hj HF Hs. destruct (C34_value_round_trip E hm ryu k oc j s HS Hj (nff_floats _ HF) Hs) as (j' & R & B).
  pose proof (nff_back j j' HF B) as ->. split; [exact R|].
  assert (Hty : has_type E TValue (VJson (jnorm j))).
  { pose proof HS as (_ & HE & _ & _ & _ & Hk). eapply C16_result_is_well_typed; [| | | |exact R]; auto.
    pose proof (ht_value E _ Hj) as HT0. apply limit_i32; [eapply text_of_ok|eapply written_runs]; eassumption. }
  destruct (C27_typed E hm ryu k TValue _ HS Hty) as (t & A & _ & C). inversion A; subst.
  destruct (written_tree _ _ _ _ _ _ _ HS (ht_value E _ Hj) Hs) as (t & d & A' & _ & -> & _). inversion A'; subst.
  rewrite <- (nff_render ryu j HF). eexists. exact C.
Qed.
(** Values without floats and without I64(n >= 0) come back unchanged, at any depth. *)
Theorem C34_plain_unchanged E hm ryu k oc j s :
  setting E hm ryu k TValue -> jval_ok j = true -> jplain j = true ->
  to_string_is E hm ryu k TValue (VJson j) s ->
  from_str E k oc TValue s = Ok (VJson j).
Proof.
  intros HS Hj HF Hs. destruct (C34_value_round_trip E hm ryu k oc j s HS Hj (jplain_floats _ HF) Hs) as (j' & R & B).
  rewrite R. do 2 f_equal. apply jplain_back; assumption.
Qed.

(** ** C36: order of the members *)
Lemma bytes_cmp_lex a b : bytes_cmp a b = Lt -> lex_lt a b.
Proof.
  revert b. induction a as [|x a IH]; intros [|y b] H; cbn [bytes_cmp] in H; try discriminate.
  - left. exists y, b. reflexivity.
  - destruct (x ?= y) eqn:E; try discriminate.
    + apply Z.compare_eq in E. subst. destruct (IH b H) as [(c & r & ->)|(p & u & v & a' & b' & -> & -> & L)].
      * left. exists c, r. reflexivity.
      * right. exists (y :: p), u, v, a', b'. auto.
    + apply Z.compare_lt_iff in E. right. exists [], x, y, a, b. auto.
Qed.
Lemma sorted_strong {K A} (cmp : K -> K -> comparison) (P : K -> Prop) (Ht : forall a b c, P a -> P b -> P c -> cmp a b = Lt -> cmp b c = Lt -> cmp a c = Lt) (m : list (K * A)) :
  Forall (fun kv => P (fst kv)) m -> sorted_keys cmp m = true -> StronglySorted (fun a b => cmp a b = Lt) (map fst m).
Proof.
  induction m as [|[k v] m IH]; intros HP HS; [constructor|].
  apply (sorted_cons cmp P) in HS; [|assumption|exact HP]. destruct HS as [HB HS]. inversion HP; subst. cbn [map fst]. constructor; [apply IH; assumption|].
  apply Forall_map. exact HB.
Qed.
Lemma strong_impl {A} (R1 R2 : A -> A -> Prop) l : (forall a b, R1 a b -> R2 a b) -> StronglySorted R1 l -> StronglySorted R2 l.
Proof. intros H S. induction S; constructor; auto. eapply Forall_impl; [|eassumption]. auto. Qed.
Lemma sorted_lex {A} (m : list (bytes * A)) : sorted_keys bytes_cmp m = true -> StronglySorted lex_lt (map fst m).
Proof.
  intros H. eapply strong_impl; [apply bytes_cmp_lex|]. apply (sorted_strong bytes_cmp (fun _ => True)); auto.
  - intros a b c _ _ _. apply bytes_cmp_trans.
  - apply Forall_forall. auto.
Qed.
Lemma keys_eq (l : list (bytes * stree)) (ds : list (bytes * doc)) : Forall2 (fun kt kd => fst kt = fst kd /\ Denotes (snd kt) (snd kd)) l ds -> map fst ds = map fst l.
Proof. induction 1 as [|x y l ds [H _] HF IH]; cbn [map]; congruence. Qed.
Lemma json_sorted j : forall d, jval_ok j = true -> Denotes (jtree j) d -> doc_sorted d.
Proof.
  induction j as [|b|m|s|l IH|l IH] using jval_ind'; intros d HO HD; cbn [jtree] in HD.
  - inversion HD; exact Logic.I.
  - inversion HD; exact Logic.I.
  - destruct m; inversion HD; exact Logic.I.
  - inversion HD; exact Logic.I.
  - inversion HD as [| | | | | | |? ds HDs|]; subst. cbn [doc_sorted jval_ok] in *. clear HD. revert ds HDs. induction IH as [|j l Hj IH IHl]; intros ds HDs; cbn [map] in HDs; inversion HDs; subst; [exact Logic.I|].
    cbn [forallb] in HO. apply andb_true_iff in HO. destruct HO. split; [auto|]. apply IHl; assumption.
  - inversion HD as [| | | | | | | |? ds HDs]; subst. cbn [doc_sorted jval_ok] in *. apply andb_true_iff in HO. destruct HO as [HS HO]. split.
    + rewrite (keys_eq _ _ HDs), map_map. cbn [fst]. apply sorted_lex, HS.
    + clear HD HS. revert ds HDs. induction IH as [|[k j] l Hj IH IHl]; intros ds HDs; cbn [map] in HDs; inversion HDs as [|? ? ? ? [Hk Hd]]; subst; [exact Logic.I|].
      cbn [forallb fst snd] in *. apply andb_true_iff in HO. destruct HO as [HO1 HO2]. apply andb_true_iff in HO1. destruct HO1. split; [auto|]. apply IHl; assumption.
Qed.
(** All objects inside a written json::Value, at any depth, have strictly increasing keys. *)
Theorem C36_value_keys_sorted E hm ryu k j s :
  setting E hm ryu k TValue -> jval_ok j = true -> to_string_is E hm ryu k TValue (VJson j) s ->
  exists d, JText d s /\ doc_sorted d.
Proof.
  intros HS Hj Hs. destruct (written_tree _ _ _ _ _ _ _ HS (ht_value E _ Hj) Hs) as (t & d & A & _ & _ & C & HD). inversion A; subst.
  exists d. split; [exact HD|]. eapply json_sorted; eassumption.
Qed.
Theorem C36_object_keys_sorted E hm ryu k l s :
  setting E hm ryu k TObject -> jval_ok (JvObj l) = true -> to_string_is E hm ryu k TObject (VJObj l) s ->
  exists ms, JText (DObj ms) s /\ map fst ms = map fst l /\ StronglySorted lex_lt (map fst ms) /\ doc_sorted (DObj ms).
Proof.
  intros HS Hj Hs. destruct (written_tree _ _ _ _ _ _ _ HS (ht_object E _ Hj) Hs) as (t & d & A & _ & _ & C & HD). inversion A; subst.
  pose proof (json_sorted (JvObj l) d Hj C) as HX. inversion C as [| | | | | | | |? ds HDs]; subst. exists ds. split; [exact HD|].
  split; [rewrite (keys_eq _ _ HDs), map_map; reflexivity|]. split; [apply HX|exact HX].
Qed.
(** A BTreeMap is written in key order: byte order for strings, numeric order for
    integers. *)
Lemma map_keys E K T l ts ds : Forall2 (fun kv kt => fst kt = key_to_string (fst kv) /\ Writes E T (snd kv) (snd kt)) l ts ->
  Forall2 (fun kt kd => fst kt = fst kd /\ Denotes (snd kt) (snd kd)) ts ds -> Forall (fun kv => key_ok K (fst kv) = true) l -> map fst ds = map (fun kv => key_to_string (fst kv)) l.
Proof.
  intros HW HD _. rewrite (keys_eq _ _ HD). clear HD. induction HW as [|x y l ts [H _] HW IH]; cbn [map]; congruence.
Qed.
Theorem C36_btreemap_string_keys E hm ryu k T m s :
  setting E hm ryu k (TMap false KString T) -> has_type E (TMap false KString T) (VMap m) ->
  to_string_is E hm ryu k (TMap false KString T) (VMap m) s ->
  exists ms, JText (DObj ms) s /\ map (fun kv => VStr (fst kv)) ms = map fst m /\ StronglySorted lex_lt (map fst ms).
Proof.
  intros HS Hv Hs. destruct (written_tree _ _ _ _ _ _ _ HS Hv Hs) as (t & d & A & _ & _ & C & HD). inversion A; subst. inversion C as [| | | | | | | |? ds HDs]; subst.
  inversion Hv as [| | | | | | | | | | | |? ? ? ? HSo HK _| | | | | |]; subst.
  match goal with HX : Forall2 _ _ ts |- _ => pose proof (map_keys E KString T _ _ _ HX HDs HK) as EK end. exists ds. split; [exact HD|].
  assert (E1 : map (fun kv => VStr (fst kv)) ds = map fst l).
  { transitivity (map VStr (map fst ds)); [rewrite map_map; reflexivity|]. rewrite EK, map_map. apply map_ext_in. intros [a b] Hx. rewrite Forall_forall in HK. specialize (HK _ Hx).
    cbn [fst] in *. destruct a; try discriminate. reflexivity. }
  split; [exact E1|]. assert (SS := sorted_strong key_cmp (key_kind KString) (key_cmp_trans KString) l).
  specialize (SS ltac:(eapply Forall_impl; [|exact HK]; intros kv; apply key_ok_kind) HSo). rewrite <- E1 in SS.
  rewrite <- map_map in SS. clear -SS. remember (map VStr (map fst ds)) as L eqn:EL. revert EL. generalize (map fst ds). induction SS as [|a L SS IH HF]; intros l EL; destruct l as [|x l]; try discriminate; [constructor|].
  cbn [map] in EL. injection EL as -> ->. constructor; [apply IH; reflexivity|]. apply Forall_map in HF. eapply Forall_impl; [|exact HF]. intros y Hy. apply bytes_cmp_lex. exact Hy.
Qed.
Theorem C36_btreemap_int_keys E hm ryu k sg b T m s :
  setting E hm ryu k (TMap false (KInt sg b) T) -> has_type E (TMap false (KInt sg b) T) (VMap m) ->
  to_string_is E hm ryu k (TMap false (KInt sg b) T) (VMap m) s ->
  exists ms zs, JText (DObj ms) s /\ map fst m = map VInt zs /\ Forall2 int_text zs (map fst ms) /\ StronglySorted Z.lt zs.
Proof.
  intros HS Hv Hs. destruct (written_tree _ _ _ _ _ _ _ HS Hv Hs) as (t & d & A & _ & _ & C & HD). inversion A; subst. inversion C as [| | | | | | | |? ds HDs]; subst.
  inversion Hv as [| | | | | | | | | | | |? ? ? ? HSo HK _| | | | | |]; subst.
  match goal with HX : Forall2 _ _ ts |- _ => pose proof (map_keys E (KInt sg b) T _ _ _ HX HDs HK) as EK end.
  assert (exists zs, map fst l = map VInt zs) as [zs EZ].
  { clear -HK. induction HK as [|[a c] l Ha HK [zs IH]]; [exists []; reflexivity|]. cbn [fst] in Ha. destruct a; try discriminate. exists (z :: zs). cbn [map fst]. congruence. }
  exists ds, zs. split; [exact HD|]. split; [exact EZ|]. rewrite EK. split.
  - rewrite <- (map_map fst key_to_string), EZ, map_map. cbn [key_to_string]. clear. induction zs; constructor; [apply itoa_spec|assumption].
  - assert (SS := sorted_strong key_cmp (key_kind (KInt sg b)) (key_cmp_trans (KInt sg b)) l).
    specialize (SS ltac:(eapply Forall_impl; [|exact HK]; intros kv; apply key_ok_kind) HSo). rewrite EZ in SS.
    clear -SS. remember (map VInt zs) as L eqn:EL. revert zs EL. induction SS as [|a L SS IH HF]; intros l EL; destruct l as [|x l]; try discriminate; [constructor|].
    cbn [map] in EL. injection EL as -> ->. constructor; [apply IH; reflexivity|]. apply Forall_map in HF. eapply Forall_impl; [|exact HF]. intros y Hy. apply Z.compare_lt_iff. exact Hy.
Qed.
(** A struct is written as an object with all its fields, in declaration order. *)
Theorem C36_struct_declaration_order E hm ryu k id fs vs s :
  setting E hm ryu k (TNamed id) -> nth_error E id = Some (DStruct fs) -> has_type E (TNamed id) (VStruct vs) ->
  to_string_is E hm ryu k (TNamed id) (VStruct vs) s ->
  exists ms, JText (DObj ms) s /\ map fst ms = map fst fs.
Proof.
  intros HS HE Hv Hs. destruct (written_tree _ _ _ _ _ _ _ HS Hv Hs) as (t & d & A & _ & _ & C & HD). inversion A; subst. inversion C as [| | | | | | | |? ds HDs]; subst.
  match goal with HX : nth_error E id = Some (DStruct ?a) |- _ => rewrite HX in HE; injection HE as -> end. exists ds. split; [exact HD|]. rewrite (keys_eq _ _ HDs).
  match goal with HX : Forall2 _ (combine fs vs) ts, HY : List.length vs = _ |- _ => revert HX HY; clear; revert fs vs end.
  induction ts as [|x ts IH]; intros fs vs HX HL; inversion HX as [HN|? ? ? ? [H _] HF HN]; subst.
  - destruct fs, vs; try discriminate; reflexivity.
  - destruct fs as [|f fs], vs as [|v vs]; try discriminate. cbn [combine] in HN. injection HN as -> ->. cbn [map fst]. f_equal; [exact H|]. eapply IH; [exact HF|]. cbn in HL. lia.
Qed.

Theorem C36_btreemap_bool_keys E hm ryu k T m s :
  setting E hm ryu k (TMap false KBool T) -> has_type E (TMap false KBool T) (VMap m) ->
  to_string_is E hm ryu k (TMap false KBool T) (VMap m) s ->
  exists ms, JText (DObj ms) s /\ In (map fst ms) [[]; [bs "false"]; [bs "true"]; [bs "false"; bs "true"]].
Proof.
  intros HS Hv Hs. destruct (written_tree _ _ _ _ _ _ _ HS Hv Hs) as (t & d & A & _ & _ & C & HD). inversion A; subst. inversion C as [| | | | | | | |? ds HDs]; subst.
  inversion Hv as [| | | | | | | | | | | |? ? ? ? HSo HK _| | | | | |]; subst.
  match goal with HX : Forall2 _ _ ts |- _ => pose proof (map_keys E KBool T _ _ _ HX HDs HK) as EK end.
  exists ds. split; [exact HD|]. rewrite EK. rewrite <- (map_map fst key_to_string).
  assert (SS := sorted_strong key_cmp (key_kind KBool) (key_cmp_trans KBool) l).
  specialize (SS ltac:(eapply Forall_impl; [|exact HK]; intros kv; apply key_ok_kind) HSo).
  assert (HB : Forall (fun v => exists b, v = VBool b) (map fst l)).
  { apply Forall_map. eapply Forall_impl; [|exact HK]. intros [[] c]; cbn; try discriminate; eauto. }
  clear -SS HB. set (L := map fst l) in *. clearbody L.
  destruct L as [|a [|b [|c L]]]; [left; reflexivity| | |].
  - inversion HB as [|? ? [[] ->] _]; subst; cbn; auto.
  - inversion HB as [|? ? [x ->] HB1]; subst. inversion HB1 as [|? ? [y ->] _]; subst.
    inversion SS as [|? ? _ HF]; subst. inversion HF as [|? ? HC _]; subst. destruct x, y; try discriminate HC. cbn. auto.
  - exfalso. inversion HB as [|? ? [x ->] HB1]; subst. inversion HB1 as [|? ? [y ->] HB2]; subst. inversion HB2 as [|? ? [z ->] _]; subst.
    inversion SS as [|? ? SS2 HF]; subst. inversion HF as [|? ? HC _]; subst. inversion SS2 as [|? ? _ HF2]; subst. inversion HF2 as [|? ? HC2 _]; subst.
    destruct x, y, z; discriminate.
Qed.

(** ** C43: Display for Number *)
Theorem C43_display_agrees E hm ryu k n :
  setting E hm ryu k TNumber -> jnum_ok n = true ->
  (forall f, n = NF64 f -> f_is_finite f = true) -> to_string_is E hm ryu k TNumber (VNum n) (number_display ryu n).
Proof.
  intros HS Hn HF. destruct (C27_typed E hm ryu k TNumber _ HS (ht_number E _ Hn)) as (t & A & _ & C). inversion A; subst. exists 1%nat.
  destruct n as [z|z|f]; try exact C. cbn [ntree jtree render] in C. rewrite (HF f eq_refl) in C. destruct f; try (specialize (HF _ eq_refl); discriminate); exact C.
Qed.
(** Displaying an integer number and reading it back gives the same integer. *)
Definition jnum_int (n : jnum) : option Z := match n with NU64 z | NI64 z => Some z | NF64 _ => None end.
Theorem C43_integer_display_reads_back E ryu k oc n z :
  env_ok E = true -> (wrap_depth E TNumber < k)%nat -> jnum_ok n = true -> jnum_int n = Some z ->
  int_text z (number_display ryu n) /\
  exists n', from_str E k oc TNumber (number_display ryu n) = Ok (VNum n') /\ jnum_int n' = Some z.
Proof.
  intros HE Hk Hn HZ. assert (number_display ryu n = itoa z) as ->. { destruct n; cbn [jnum_int number_display] in *; congruence. }
  destruct (itoa_spec z) as (l & A & B1 & B2 & B3 & B4). split; [exists l; auto|].
  assert (HB : i64_MIN <= z <= u64_MAX).
  { destruct n; cbn [jnum_int jnum_ok] in *; try discriminate; injection HZ as ->; apply andb_true_iff in Hn; rewrite !Z.leb_le in Hn; unfold i64_MIN, i64_MAX, u64_MAX in *; lia. }
  assert (HJ : JText (DNum l) (itoa z)). { exists [], (itoa z), []. rewrite app_nil_r. split; [reflexivity|]. split; [constructor|]. split; [constructor; exact A|constructor]. }
  assert (Hs : text_ok (itoa z)).
  { split; [apply str_ok_spec, (ascii_printable (itoa z)), (NumText_ascii _ _ A)|].
    apply runs_of_length. pose proof (itoa_len z ltac:(unfold i64_MIN, u64_MAX in HB; lia)). unfold i32_MAX. lia. }
  destruct (Z_lt_le_dec z 0) as [HZ0|HZ0].
  - exists (NI64 z). split; [|reflexivity]. apply from_str_reads; auto. exists (DNum l). split; [exact HJ|]. constructor. apply i64_back; auto; [split; assumption|lia].
  - exists (NU64 z). split; [|reflexivity]. apply from_str_reads; auto. exists (DNum l). split; [exact HJ|]. constructor. apply u64_back; auto; [split; assumption|lia].
Qed.
(** For NaN and the infinities Display and to_string differ. *)
Theorem C43_display_of_nonfinite E hm ryu k f :
  setting E hm ryu k TNumber -> f64_ok f = true -> f_is_finite f = false ->
  to_string_is E hm ryu k TNumber (VNum (NF64 f)) (bs "null") /\ 
  number_display ryu (NF64 f) =
    bs (match f with S754_nan => "NaN" | S754_infinity true => "-inf" | _ => "inf" end).
Proof.
  intros HS Hf F. destruct (C27_typed E hm ryu k TNumber _ HS (ht_number E (NF64 f) Hf)) as (t & A & _ & C). inversion A; subst. cbn [ntree jtree render] in C. rewrite F in C.
  split; [exists 1%nat; exact C|]. destruct f as [| [] | |]; try discriminate; reflexivity.
Qed.

(** ** Concrete cases *)
Definition id_order (n : nat) (l : list (val * val)) : list (val * val) := l.
Definition rev_order (n : nat) (l : list (val * val)) : list (val * val) := rev l.
Example ex_orders : orders id_order /\ orders rev_order.
Proof. split; intros n l; [apply Permutation_refl|apply Permutation_rev]. Qed.
Lemma ex_setting_gen E hm k T : ty_ok T = true -> env_ok E = true -> names_ok E = true -> orders hm -> (wrap_depth E T < k)%nat -> setting E hm exact_print k T.
Proof. intros. unfold setting. auto 10 using exact_print_ok. Qed.
Example ex_setting : setting ex_env rev_order exact_print 4 (TNamed 0) /\ distinct_names ex_env.
Proof.
  split.
  - apply ex_setting_gen; try reflexivity; [apply ex_orders|cbn; lia].
  - repeat constructor; cbn; intuition discriminate.
Qed.
Example ex_node_typed : has_type ex_env (TNamed 0) ex_node_val /\ plain ex_node_val = true.
Proof.
  split; [|reflexivity]. eapply ht_struct; [reflexivity|]. constructor; [constructor; reflexivity|]. constructor; [constructor|]. constructor; [|constructor].
  constructor. constructor. eapply ht_struct; [reflexivity|]. constructor; [constructor; reflexivity|]. constructor; [constructor; constructor; reflexivity|]. constructor; [constructor|constructor].
Qed.
Definition ex_node_text : bytes := bs "{""a"":3,""b"":null,""next"":{""a"":2,""b"":""x"",""next"":null}}".
Example ex_C27 : to_string ex_env rev_order exact_print 4 100 (TNamed 0) ex_node_val = Ok ex_node_text.
Proof. vm_compute. reflexivity. Qed.
Example ex_C35 : from_str ex_env 4 true (TNamed 0) ex_node_text = Ok ex_node_val.
Proof.
  destruct (C27_typed ex_env rev_order exact_print 4 (TNamed 0) ex_node_val (proj1 ex_setting) (proj1 ex_node_typed)) as (t & A & B & C).
  apply (C35_plain_values_unchanged ex_env rev_order exact_print 4 true); try apply ex_setting; try apply ex_node_typed.
  - exists (nodes t + 100)%nat. intros fuel HF. rewrite C by lia. rewrite <- (C (nodes t + 100)%nat) by lia. clear.
    assert (M : forall n, to_string ex_env rev_order exact_print 4 (n + 100) (TNamed 0) ex_node_val = Ok ex_node_text).
    { intros n. rewrite Nat.add_comm. vm_compute. reflexivity. }
    apply M.
Qed.
(** Floats, maps with a permuted order, json::Value. *)
Definition ex_json : jval :=
  JvObj [(bs "a", JvArr [JvNum (NI64 5); JvNum (NI64 (-5)); JvNull; JvNum (NF64 (S754_infinity false))]);
         (bs "b", JvStr [34; 10; 1; 195; 169]); (bs "c", JvNum (NF64 (S754_finite true 4503599627370496 (-53))))].
Example ex_C34_ok : jval_ok ex_json = true /\ jfloats_ok ex_json.
Proof.
  split; [vm_compute; reflexivity|]. cbn -[f64_inner]. repeat split; try discriminate. unfold freal, SF2R, F2R. cbn [Fnum Fexp cond_Zopp]. rewrite Rabs_mult, <- abs_IZR. cbn [Z.abs].
  rewrite (Rabs_pos_eq (bpow radix2 (-53))) by apply bpow_ge_0. assert (H0 : (4503599627370496 * bpow radix2 (-53) = / 2)%R) by (cbn; lra).
  match goal with |- (?a <= _)%R => replace a with (/ 2)%R by (rewrite <- H0; reflexivity) end.
  assert (bpow radix2 (-49) <= / 2)%R by (cbn; lra).
  assert (2 <= f64_MAX)%R. { unfold f64_MAX. assert (HB : (bpow radix2 0 <= bpow radix2 971)%R) by (apply bpow_le; lia). change (bpow radix2 0) with 1%R in HB. change (2 ^ 53 - 1) with 9007199254740991. lra. }
  assert ((1 - / 2) * 2 <= (1 - bpow radix2 (-49)) * f64_MAX)%R by (apply Rmult_le_compat; lra). lra.
Qed.
(** The printer: -0.5 is printed as the text "-0.5". *)
Definition ex_print : f64 -> bytes := override (S754_finite true 4503599627370496 (-53)) (bs "-0.5") exact_print.
Example ex_C34 :
  to_string [] id_order ex_print 4 100 TValue (VJson ex_json) = Ok (bs "{""a"":[5,-5,null,null],""b"":""\""\n\u0001" ++ [195; 169] ++ bs """,""c"":-0.5}") /\
  from_str [] 4 true TValue (bs "{""a"":[5,-5,null,null],""b"":""\""\n\u0001" ++ [195; 169] ++ bs """,""c"":-0.5}") =
  Ok (VJson (JvObj [(bs "a", JvArr [JvNum (NU64 5); JvNum (NI64 (-5)); JvNull; JvNull]);
         (bs "b", JvStr [34; 10; 1; 195; 169]); (bs "c", JvNum (NF64 (S754_finite true 4503599627370496 (-53))))])).
Proof. vm_compute. split; reflexivity. Qed.
Example ex_C36 :
  to_string [] rev_order exact_print 4 100 (TMap false (KInt true 8) TBool) (VMap [(VInt (-1), VBool true); (VInt 2, VBool false); (VInt 10, VBool true)]) =
  Ok (bs "{""-1"":true,""2"":false,""10"":true}") /\
  to_string [] rev_order exact_print 4 100 (TMap true (KInt true 8) TBool) (VMap [(VInt (-1), VBool true); (VInt 2, VBool false); (VInt 10, VBool true)]) =
  Ok (bs "{""10"":true,""2"":false,""-1"":true}").
Proof. vm_compute. split; reflexivity. Qed.
Example ex_C22 :
  to_string [] id_order exact_print 4 9 (TOption (TBox (TOption TBool))) (VSome (VBox (VSome (VBool true)))) = Ok (bs "true") /\
  to_string [] id_order exact_print 4 9 (TOption (TBox (TOption TBool))) (VSome (VBox VNone)) = Ok (bs "null").
Proof. vm_compute. split; reflexivity. Qed.
Example ex_C43 : number_display exact_print (NI64 (-12)) = bs "-12" /\ number_display exact_print (NF64 S754_nan) = bs "NaN".
Proof. vm_compute. split; reflexivity. Qed.
