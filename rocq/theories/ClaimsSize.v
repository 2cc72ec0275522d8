(** C61: no amplification. The builders alive at any moment of from_str are at most as many as
    brackets are open in the text; the value it returns is no larger than the text; the text
    to_string returns is linear in what the value describes. *)
From Coq Require Import String ZArith List Bool Lia Floats.SpecFloat.
From Verif Require Import Base Utf8 Utf8Facts F64 Lexer Driver Grammar LexSpec RunFacts Types Tree TreeFacts GrammarFacts Impls Reading FromStr ParseSpec MapFacts WriteFacts ClaimsParse ClaimsTypes
  Ser SerSpec SerFacts RenderFacts ClaimsSer ExactPrint ClaimsWrite SizeSpec SizeFacts.
Import ListNotations.
Open Scope Z_scope.

(** ** Builders *)
(** For every visitor, every text (JSON or not) and every moment: the builders handed out and
    not yet dropped are at most as many as the brackets nested in the text. *)
Theorem C61_open_builders {St V SH MH} (I : iface St V SH MH) oc s v st n p q : text_ok s -> nested_within n s ->
  snd (snd (from_str_impl (logged I) oc s v (st, []))) = p ++ q -> alive p <= n.
Proof.
  intros Hs HN. revert p q. apply peak_prefix. apply nest_within in HN. etransitivity; [apply run_peak, Hs|]. etransitivity; [apply pv_nest|exact HN].
  apply str_ok_spec, Hs.
Qed.
(** For a JSON text the nesting of its brackets is the nesting of the document. *)
Theorem C61_nesting_of_json d s n : JText d s -> (nested_within n s <-> Z.of_nat (dheight d) <= n).
Proof. intros H. rewrite <- nest_within, (text_nest _ _ H). reflexivity. Qed.
Theorem C61_open_builders_of_json {St V SH MH} (I : iface St V SH MH) oc s v st d p q : text_ok s -> JText d s ->
  snd (snd (from_str_impl (logged I) oc s v (st, []))) = p ++ q -> alive p <= Z.of_nat (dheight d).
Proof. intros Hs HD. apply (C61_open_builders I oc s v st (Z.of_nat (dheight d)) p q Hs). apply (C61_nesting_of_json d s _ HD). lia. Qed.

(** ** Values *)
Theorem C61_value_no_larger_than_text E k oc T s v :
  text_ok s -> ty_ok T = true -> env_ok E = true -> (wrap_depth E T < k)%nat ->
  from_str E k oc T s = Ok v -> (vsize v <= List.length s)%nat.
Proof.
  intros Hs HT HE Hk H. apply from_str_reads in H; auto. destruct H as (d & Hd & HR). etransitivity; [exact (reads_size E d T v HR)|apply jtext_len, Hd].
Qed.

(** ** Texts *)
Lemma quote_len s : (List.length (quote s) <= 6 * List.length s + 2)%nat.
Proof.
  unfold quote. cbn [List.length]. rewrite app_length. cbn [List.length]. enough (List.length (flat_map quote_char s) <= 6 * List.length s)%nat by lia.
  induction s as [|c s IH]; [cbn; lia|]. cbn [flat_map List.length]. rewrite app_length. enough (List.length (quote_char c) <= 6)%nat by lia.
  unfold quote_char. repeat match goal with |- context [if ?b then _ else _] => destruct b end; cbn; lia.
Qed.
Lemma digits_big l : Forall digit l -> forall d, 1 <= d -> 10 ^ Z.of_nat (List.length l) <= digits_val (d :: l).
Proof.
  induction l as [|x l IH] using rev_ind; intros HF d Hd; [unfold digits_val; cbn; lia|].
  apply Forall_app in HF. destruct HF as [HF HX]. inversion HX as [|? ? HX1 _]; subst. unfold digit in HX1.
  change (d :: l ++ [x]) with ((d :: l) ++ [x]). rewrite digits_val_snoc, app_length. cbn [List.length]. rewrite Nat2Z.inj_add, Z.pow_add_r by lia. specialize (IH HF d Hd). change (10 ^ Z.of_nat 1) with 10. lia.
Qed.
Lemma int_digits_len ds N : IntDigits ds -> (1 <= N)%nat -> digits_val ds < 10 ^ Z.of_nat N -> (List.length ds <= N)%nat.
Proof.
  intros [|d l H1 H2]; intros HN HL; [cbn; lia|]. pose proof (digits_big l H2 d ltac:(lia)) as HB. cbn [List.length].
  destruct (le_lt_dec N (List.length l)) as [HX|]; [|lia]. exfalso. assert (10 ^ Z.of_nat N <= 10 ^ Z.of_nat (List.length l)) by (apply Z.pow_le_mono_r; lia). lia.
Qed.
Lemma itoa_short z : i64_MIN <= z <= u64_MAX -> (List.length (itoa z) <= 20)%nat.
Proof.
  unfold i64_MIN, u64_MAX, itoa. intros H. destruct (z <? 0) eqn:E.
  - apply Z.ltb_lt in E. destruct (dec_digits_eq (- z)) as (ds & A & B & C); [lia|]. rewrite A. cbn [List.length]. unfold dtext. rewrite map_length.
    apply le_n_S. apply int_digits_len; [exact B|lia|]. rewrite C. change (10 ^ Z.of_nat 19) with 10000000000000000000. lia.
  - apply Z.ltb_ge in E. destruct (dec_digits_eq z) as (ds & A & B & C); [lia|]. rewrite A. unfold dtext. rewrite map_length.
    apply int_digits_len; [exact B|lia|]. rewrite C. change (10 ^ Z.of_nat 20) with 100000000000000000000. lia.
Qed.
Lemma commas_len l : (List.length (commas l) <= list_sum (map (fun x => S (List.length x)) l))%nat.
Proof.
  induction l as [|x [|y l] IH]; [cbn; lia|cbn; lia|]. change (commas (x :: y :: l)) with (x ++ 44 :: commas (y :: l)). rewrite app_length. cbn [List.length].
  cbn [map list_sum fold_right] in *. unfold list_sum in *. cbn [map fold_right] in *. lia.
Qed.
Lemma sum_le {A} (f g : A -> nat) l : Forall (fun a => (f a <= g a)%nat) l -> (list_sum (map f l) <= list_sum (map g l))%nat.
Proof. induction 1 as [|a l H _ IH]; [cbn; lia|]. cbn [map list_sum fold_right]. unfold list_sum in *. lia. Qed.
Lemma sum_lin {A} (f g : A -> nat) a b l : list_sum (map (fun x => (a * f x + b * g x)%nat) l) = (a * list_sum (map f l) + b * list_sum (map g l))%nat.
Proof. induction l as [|x l IH]; [cbn; lia|]. cbn [map list_sum fold_right]. unfold list_sum in *. lia. Qed.

Section Texts.
Variable ryu : f64 -> bytes.
(** The longest text of a float (24 for ryu). *)
Variable F : nat.
Definition short_floats : Prop := (20 <= F)%nat /\ forall f, f64_ok f = true -> f_is_finite f = true -> (List.length (ryu f) <= F)%nat.

Lemma render_len t : short_floats -> stree_ok t = true -> (List.length (render itoa ryu t) + 4 <= 6 * strbytes t + (F + 4) * nodes t)%nat.
Proof.
  intros [HF1 HF2]. induction t as [|b|s|n|n|f|l IH|l IH] using stree_ind'; intros HO; cbn [stree_ok strbytes nodes] in *.
  - cbn [render]. change (List.length (bs "null")) with 4%nat. lia.
  - destruct b; cbn [render]; [change (List.length (bs "true")) with 4%nat|change (List.length (bs "false")) with 5%nat]; lia.
  - cbn [render]. pose proof (quote_len s). lia.
  - cbn [render]. apply andb_true_iff in HO. rewrite !Z.leb_le in HO. pose proof (itoa_short n ltac:(unfold i64_MIN; lia)). lia.
  - cbn [render]. apply andb_true_iff in HO. rewrite !Z.leb_le in HO. pose proof (itoa_short n ltac:(unfold i64_MAX, u64_MAX in *; lia)). lia.
  - cbn [render]. destruct (f_is_finite f) eqn:EF; [pose proof (HF2 f HO EF); lia|]. change (List.length (bs "null")) with 4%nat. lia.
  - change (render itoa ryu (STSeq l)) with (91 :: commas (map (render itoa ryu) l) ++ [93]). cbn [List.length]. rewrite app_length. cbn [List.length].
    pose proof (commas_len (map (render itoa ryu) l)) as HC. rewrite map_map in HC.
    assert (HS : (list_sum (map (fun x => S (List.length (render itoa ryu x))) l) <= list_sum (map (fun x => 6 * strbytes x + (F + 4) * nodes x) l))%nat).
    { apply sum_le. rewrite forallb_forall in HO. rewrite Forall_forall in *. intros x Hx. specialize (IH x Hx (HO x Hx)). lia. }
    rewrite sum_lin in HS. lia.
  - change (render itoa ryu (STMap l)) with (123 :: commas (map (fun kt => quote (fst kt) ++ 58 :: render itoa ryu (snd kt)) l) ++ [125]). cbn [List.length]. rewrite app_length. cbn [List.length].
    pose proof (commas_len (map (fun kt => quote (fst kt) ++ 58 :: render itoa ryu (snd kt)) l)) as HC. rewrite map_map in HC.
    assert (HS : (list_sum (map (fun kt => S (List.length (quote (fst kt) ++ 58%Z :: render itoa ryu (snd kt)))) l) <=
      list_sum (map (fun kt => 6 * (List.length (fst kt) + strbytes (snd kt)) + (F + 4) * nodes (snd kt)) l))%nat).
    { apply sum_le. rewrite forallb_forall in HO. rewrite Forall_forall in *. intros x Hx. specialize (HO x Hx). apply andb_true_iff in HO. specialize (IH x Hx (proj2 HO)).
      rewrite app_length. cbn [List.length]. pose proof (quote_len (fst x)). lia. }
    rewrite (sum_lin (fun kt => List.length (fst kt) + strbytes (snd kt))%nat (fun kt => nodes (snd kt))) in HS. lia.
Qed.

(** Whatever to_string returns for an object of any type is linear in what the object
    described: at most 6 bytes for every byte of a string, and F + 4 for every node. *)
Theorem C61_text_is_linear {St D SQ MP} (I : siface St D SQ MP) d st o st' fuel : short_floats ->
  strs_valid I -> to_string_impl I ryu fuel d st = (Ok o, st') ->
  exists t, Describes I d st t st' /\ (stree_ok t = true -> (List.length o <= 6 * strbytes t + (F + 4) * nodes t)%nat).
Proof.
  intros HF HV H. destruct (C27_only_what_was_described I ryu d st o st' fuel HV H) as (t & HD & _ & ->). exists t. split; [exact HD|].
  intros HO. pose proof (render_len t HF HO). lia.
Qed.

(** A json::Value is printed with at most F + 4 bytes per unit of its size. *)
Lemma jtree_size j : (strbytes (jtree j) + nodes (jtree j) = jsize j)%nat.
Proof.
  induction j as [|b|n|s|l IH|l IH] using jval_ind'; cbn [jtree]; try reflexivity.
  - destruct n; reflexivity.
  - cbn [strbytes nodes jsize]. lia.
  - cbn [strbytes nodes jsize]. rewrite !map_map. enough (list_sum (map (fun x => strbytes (jtree x)) l) + list_sum (map (fun x => nodes (jtree x)) l) = list_sum (map jsize l))%nat by lia.
    induction IH as [|j l H _ IHl]; [reflexivity|]. cbn [map list_sum fold_right]. unfold list_sum in *. lia.
  - cbn [strbytes nodes jsize]. rewrite !map_map. cbn [fst snd].
    enough (list_sum (map (fun x => List.length (fst x) + strbytes (jtree (snd x))) l) + list_sum (map (fun x => nodes (jtree (snd x))) l) = list_sum (map (fun kj => List.length (fst kj) + jsize (snd kj)) l))%nat by lia.
    induction IH as [|j l H _ IHl]; [reflexivity|]. cbn [map list_sum fold_right]. unfold list_sum in *. lia.
Qed.
Theorem C61_text_of_a_value E hm k j s : short_floats -> setting E hm ryu k TValue -> has_type E TValue (VJson j) ->
  to_string_is E hm ryu k TValue (VJson j) s -> (List.length s <= (F + 4) * jsize j)%nat.
Proof.
  intros HF HS Hv H. destruct (C27_typed E hm ryu k TValue (VJson j) HS Hv) as (t & HW & HO & HT).
  assert (s = render itoa ryu t) as -> by (eapply to_string_fun; [exact H|exists (nodes t); exact HT]).
  inversion HW; subst. pose proof (render_len (jtree j) HF HO). pose proof (jtree_size j). destruct HF as [HF1 _]. nia.
Qed.
(** Reading a text as a json::Value and printing the result grows it by at most the factor F + 4. *)
Theorem C61_read_and_print E hm k oc s j s' : short_floats -> setting E hm ryu k TValue -> text_ok s ->
  from_str E k oc TValue s = Ok (VJson j) -> to_string_is E hm ryu k TValue (VJson j) s' ->
  (List.length s' <= (F + 4) * List.length s)%nat.
Proof.
  intros HF HS Hs H H'. pose proof HS as (HT & HE & _ & _ & _ & Hk).
  pose proof (C16_result_is_well_typed E k oc TValue s _ Hs HT HE Hk H) as Hv.
  pose proof (C61_text_of_a_value E hm k j s' HF HS Hv H') as HL. pose proof (C61_value_no_larger_than_text E k oc TValue s _ Hs HT HE Hk H) as HV. cbn [vsize] in HV. nia.
Qed.
End Texts.

(** ** The hypotheses are met *)
Example ex_C61_nested : nested_within 3 (bs "[{""a[[[["":[1,2]},[]]") /\ ~ nested_within 2 (bs "[{""a[[[["":[1,2]},[]]").
Proof. rewrite <- !nest_within. vm_compute. split; [discriminate|intros H; apply H; reflexivity]. Qed.
(** The bound is reached, and it holds of a text that is not JSON and of a parse that fails. *)
Definition ex_log (s : bytes) := snd (snd (from_str_impl (logged sum_iface) true s tt ((0, 0), []))).
Example ex_C61_reached : exists p q, ex_log (bs "[{""a"":[1]},2]") = p ++ q /\ alive p = 3.
Proof. exists (firstn 5 (ex_log (bs "[{""a"":[1]},2]"))), (skipn 5 (ex_log (bs "[{""a"":[1]},2]"))). split; [symmetry; apply firstn_skipn|vm_compute; reflexivity]. Qed.
Example ex_C61_broken p q : from_str [] 1 true TValue (bs "[[1,]]]]") = Err /\ (ex_log (bs "[[1,]]]]") = p ++ q -> alive p <= 2).
Proof.
  split; [vm_compute; reflexivity|]. apply (C61_open_builders sum_iface true _ tt (0, 0)); [text_ok|]. rewrite <- nest_within. vm_compute. discriminate.
Qed.
Example ex_C61_value : exists j, from_str [] 1 true TValue ex_text = Ok (VJson j) /\ (jsize j <= List.length ex_text)%nat.
Proof. eexists. split; [vm_compute; reflexivity|vm_compute; repeat constructor]. Qed.
(** An exact printer meets the hypothesis on floats (ryu does with F = 24). *)
Example ex_C61_short : short_floats exact_print 4000.
Proof. split; [lia|]. intros f H1 H2. destruct (exact_print_ok f H1 H2) as [_ H]. lia. Qed.
(** Factor 6 is reached by control characters. *)
Example ex_C61_six n : List.length (quote (repeat 1 n)) = (6 * n + 2)%nat.
Proof.
  unfold quote. cbn [List.length]. rewrite app_length. cbn [List.length]. enough (List.length (flat_map quote_char (repeat 1%Z n)) = 6 * n)%nat by lia.
  induction n as [|n IH]; [reflexivity|]. cbn [repeat flat_map]. rewrite app_length, IH. change (List.length (quote_char 1)) with 6%nat. lia.
Qed.
Example ex_C61_again hm k oc s j s' : orders hm -> (1 <= k)%nat -> text_ok s -> from_str [] k oc TValue s = Ok (VJson j) ->
  to_string_is [] hm exact_print k TValue (VJson j) s' -> (List.length s' <= 4004 * List.length s)%nat.
Proof.
  intros HO Hk Hs H1 H2. apply (C61_read_and_print exact_print 4000 [] hm k oc s j s'); try assumption; [exact ex_C61_short|].
  apply ex_setting_gen; try reflexivity; try assumption. 
Qed.
