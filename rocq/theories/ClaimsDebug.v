(** C64: `{:?}` and `{:#?}` of json::Value. *)
From Coq Require Import String ZArith List Bool Lia Permutation Floats.SpecFloat.
From Verif Require Import Base F64 Utf8 Utf8Facts Types Impls Ser JsonValue Grammar LexSpec Reading FromStr SerSpec RenderFacts WriteFacts ExactPrint ClaimsParse ClaimsTypes ClaimsSer ClaimsWrite ClaimsJson DebugFmt DebugSpec DebugFacts DebugInj RunFacts RunText.
Import ListNotations.
Open Scope Z_scope.

(** Whatever it is written to, a value is formatted by handing the writer the pieces of one
    text, in order, until the writer fails; its failure is the result. *)
Theorem C64_any_writer sa ryu k alt v : ryu_ok ryu -> jval_ok v = true -> (jdepth v < k)%nat ->
  exists pieces, concat pieces = shown sa ryu alt 0 v /\
    forall W (wr : writer W) w, debug_value sa ryu k alt wr v w = feed wr pieces w.
Proof.
  intros HR HO Hk. destruct (value_pieces sa ryu HR alt v HO k Hk) as (ps & F & T). exists ps. split; [exact T|]. exact F.
Qed.

(** Writers that accept everything. *)
Definition total {W} (wr : writer W) : Prop := forall s w, exists w', wr s w = (Ok tt, w').
Lemma total_pad W (wr : writer W) : total wr -> total (pad_writer wr).
Proof.
  intros H s [on w]. unfold pad_writer. revert on w. induction (split_inclusive s) as [|l ls IH]; intros on w; [exists (on, w); reflexivity|]. cbn [pad_lines fst snd].
  destruct on; [destruct (H (bs "    ") w) as [w1 ->]|]; [destruct (H l w1) as [w2 ->]|destruct (H l w) as [w2 ->]]; apply IH.
Qed.
Definition ends {W} (a : action W) (r : res unit) : Prop := forall w, fst (a w) = r.
Lemma ends_then {W} (a b : action W) r : (forall w, exists w', a w = (Ok tt, w')) -> ends b r -> ends (a >> b) r.
Proof. intros H HB w. unfold andthen. destruct (H w) as [w' ->]. apply HB. Qed.
Lemma ends_fault {W} (a b : action W) f : ends a (Fault f) -> ends (a >> b) (Fault f).
Proof. intros H w. unfold andthen. specialize (H w). destruct (a w) as [r w1]. cbn in H. subst r. reflexivity. Qed.
Lemma ends_ok {W} (a : action W) : ends a (Ok tt) -> forall w, exists w', a w = (Ok tt, w').
Proof. intros H w. specialize (H w). destruct (a w) as [r w']. cbn in H. subst r. eauto. Qed.
Lemma write_all_total W (wr : writer W) l : total wr -> ends (write_all wr l) (Ok tt).
Proof. intros H. induction l as [|c l IH]; [intros w; reflexivity|]. cbn [write_all]. apply ends_then; [intros w; apply H|exact IH]. Qed.
Lemma ends_one W (wr : writer W) s : total wr -> ends (wr s) (Ok tt).
Proof. intros H w. destruct (H s w) as [w' ->]. reflexivity. Qed.
Lemma str_total sa W (wr : writer W) s : total wr -> ends (debug_str sa wr s) (Ok tt).
Proof. intros H. unfold debug_str. apply ends_then; [intros w; apply H|]. apply ends_then; [apply ends_ok, write_all_total, H|apply ends_one, H]. Qed.

Definition outcome (n k : nat) : res unit := if (n <? k)%nat then Ok tt else Fault FDeep.
Lemma ends_entry alt has (b : body) r W (wr : writer W) : total wr -> (forall W (wr : writer W), total wr -> ends (b W wr) r) -> r = Ok tt \/ r = Fault FDeep -> ends (entry_of alt has b W wr) r.
Proof.
  intros HW HB HR. unfold entry_of. destruct alt.
  - unfold pretty_entry. apply ends_then; [intros w; destruct has; [eexists; reflexivity|apply HW]|]. intros w.
    assert (E : ends (b (bool * W)%type (pad_writer wr) >> pad_writer wr (bs ",
")) r).
    { destruct HR as [-> | ->].
      - apply ends_then; [apply ends_ok, HB, total_pad, HW|apply ends_one, total_pad, HW].
      - apply ends_fault, HB, total_pad, HW. }
    specialize (E (true, w)). destruct ((b (bool * W)%type (pad_writer wr) >> _) (true, w)) as [r' [on w1]]. exact E.
  - unfold flat_entry. apply ends_then; [intros w; destruct has; [apply HW|eexists; reflexivity]|]. apply HB, HW.
Qed.
Lemma ends_entries alt close k W (wr : writer W) : total wr -> forall (l : list (body * nat)) has,
  Forall (fun bn => forall W (wr : writer W), total wr -> ends (fst bn W wr) (outcome (snd bn) k)) l ->
  ends (entries_of alt close has (map fst l) W wr) (outcome (list_max (map (fun bn => S (snd bn)) l)) (S k)).
Proof.
  intros HW l. induction l as [|[b n] l IH]; intros has HF; [apply ends_one, HW|]. inversion HF as [|? ? HB HL]; subst. cbn [map entries_of fst snd] in *.
  assert (E : ends (entry_of alt has b W wr) (outcome n k)). { apply ends_entry; [exact HW|exact HB|]. unfold outcome. destruct (n <? k)%nat; auto. }
  change (list_max (S n :: map (fun bn : body * nat => S (snd bn)) l)) with (Nat.max (S n) (list_max (map (fun bn : body * nat => S (snd bn)) l))).
  set (m := list_max _) in *. unfold outcome in *. destruct (Nat.ltb_spec n k) as [HL1|HL1].
  - replace (Nat.max (S n) m <? S k)%nat with (m <? S k)%nat; [apply ends_then; [apply ends_ok, E|apply IH, HL]|].
    destruct (Nat.ltb_spec m (S k)), (Nat.ltb_spec (Nat.max (S n) m) (S k)); try reflexivity; lia.
  - rewrite (proj2 (Nat.ltb_ge (Nat.max (S n) m) (S k))) by lia. apply ends_fault, E.
Qed.
Lemma value_ends sa ryu alt v : forall k W (wr : writer W), total wr -> ends (debug_value sa ryu k alt wr v) (outcome (jdepth v) k).
Proof.
  induction v as [|b|n|s|l IH|l IH] using jval_ind'; intros k W wr HW; (destruct k as [|k]; [intros w; unfold outcome; cbn; reflexivity|]).
  - apply ends_one, HW.
  - cbn [debug_value jdepth]. apply ends_then; [intros w; apply HW|]. apply ends_then; [intros w; apply HW|apply ends_one, HW].
  - cbn [debug_value jdepth]. apply ends_then; [intros w; apply HW|]. apply ends_then; [intros w; apply HW|apply ends_one, HW].
  - cbn [debug_value jdepth]. apply ends_then; [intros w; apply HW|]. apply ends_then; [apply ends_ok, str_total, HW|apply ends_one, HW].
  - intros w. rewrite arr_unfold. revert w. apply ends_then; [intros w; apply HW|]. apply ends_then; [intros w; apply HW|]. cbn [jdepth].
    pose proof (ends_entries alt (bs "]") k W wr HW (map (fun e => (value_body sa ryu k alt e, jdepth e)) l) false) as E. rewrite !map_map in E. apply E. apply Forall_forall. intros x Hx. apply in_map_iff in Hx. destruct Hx as (e & <- & He). rewrite Forall_forall in IH. intros W' wr' HW'. apply (IH e He k W' wr' HW').
  - intros w. rewrite obj_unfold. revert w. apply ends_then; [intros w; apply HW|]. apply ends_then; [intros w; apply HW|]. cbn [jdepth].
    pose proof (ends_entries alt (bs "}") k W wr HW (map (fun e => (member_body sa ryu k alt e, jdepth (snd e))) l) false) as E. rewrite !map_map in E. apply E. apply Forall_forall. intros x Hx. apply in_map_iff in Hx. destruct Hx as (e & <- & He). rewrite Forall_forall in IH. intros W' wr' HW'. cbn [fst snd]. unfold member_body.
    apply ends_then; [apply ends_ok, str_total, HW'|]. apply ends_then; [intros w; apply HW'|]. apply (IH e He k W' wr' HW').
Qed.

Lemma feed_string ps out : feed string_writer ps out = (Ok tt, out ++ concat ps).
Proof. revert out. induction ps as [|p ps IH]; intros out; [cbn; rewrite app_nil_r; reflexivity|]. cbn [feed string_writer concat]. rewrite IH, <- app_assoc. reflexivity. Qed.
(** format! returns that text if the native stack has more frames than the value is deep, and
    overflows the stack otherwise. *)
Theorem C64_format sa ryu k alt v : ryu_ok ryu -> jval_ok v = true ->
  ((jdepth v < k)%nat -> format_debug sa ryu k alt v = Ok (shown sa ryu alt 0 v)) /\
  ((k <= jdepth v)%nat -> format_debug sa ryu k alt v = Fault FDeep).
Proof.
  intros HR HO. split; intros Hk; unfold format_debug.
  - destruct (C64_any_writer sa ryu k alt v HR HO Hk) as (ps & T & F). rewrite F, feed_string, <- T. reflexivity.
  - assert (HT : total string_writer) by (intros s w; eexists; reflexivity). pose proof (value_ends sa ryu alt v k bytes string_writer HT []) as E. unfold outcome in E. rewrite (proj2 (Nat.ltb_ge _ _)) in E by exact Hk.
    destruct (debug_value sa ryu k alt string_writer v []) as [r out]. cbn in E. subst r. reflexivity.
Qed.

(** Two values print the same text exactly if they are the same, up to the type that holds an
    integer; with and without `#`. *)
Theorem C64_debug_is_faithful sa ryu alt k k' v v' : ryu_ok ryu -> jval_ok v = true -> jval_ok v' = true -> (jdepth v < k)%nat -> (jdepth v' < k')%nat ->
  (format_debug sa ryu k alt v = format_debug sa ryu k' alt v' <-> same_value v v').
Proof.
  intros HR HO HO' Hk Hk'. rewrite (proj1 (C64_format sa ryu k alt v HR HO) Hk), (proj1 (C64_format sa ryu k' alt v' HR HO') Hk'). split; intros H.
  - injection H as H. apply (shown_prefix sa ryu HR alt v HO v' 0%nat [] [] HO'). rewrite !app_nil_r. exact H.
  - rewrite (same_shown sa ryu v v' H). reflexivity.
Qed.
(** No text is the beginning of another one: where a value ends can be seen from the text. *)
Theorem C64_where_it_ends sa ryu alt v v' rest rest' : ryu_ok ryu -> jval_ok v = true -> jval_ok v' = true ->
  shown sa ryu alt 0 v ++ rest = shown sa ryu alt 0 v' ++ rest' -> same_value v v' /\ rest = rest'.
Proof. intros HR HO HO'. apply shown_prefix; assumption. Qed.
(** Values that print the same text are written as the same JSON. *)
Lemma same_render ryu v : forall v', same_value v v' -> render itoa ryu (jtree v) = render itoa ryu (jtree v').
Proof.
  induction v as [|b|n|s|l IH|l IH] using jval_ind'; intros v' H; inversion H as [| |? n' HN| |? l' HF|? l' HF]; subst; try reflexivity.
  - destruct HN as [m m' z [-> | ->] [-> | ->]|f]; reflexivity.
  - cbn [jtree render]. rewrite !map_map. assert (E : map (fun x => render itoa ryu (jtree x)) l = map (fun x => render itoa ryu (jtree x)) l'); [|rewrite E; reflexivity].
    clear H. induction HF as [|x x' l l' HX HF IHF]; [reflexivity|]. inversion IH as [|? ? I1 I2]; subst. cbn [map]. rewrite (I1 x' HX), IHF by exact I2. reflexivity.
  - cbn [jtree render]. rewrite !map_map. cbn [fst snd]. match goal with |- _ :: commas ?a ++ _ = _ :: commas ?b ++ _ => assert (E : a = b); [|rewrite E; reflexivity] end.
    clear H. induction HF as [|x x' l l' [HX1 HX2] HF IHF]; [reflexivity|]. inversion IH as [|? ? I1 I2]; subst. cbn [map]. rewrite (I1 (snd x') HX2), IHF, HX1 by exact I2. reflexivity.
Qed.
Theorem C64_debug_determines_json E hm sa ryu ks alt k k' v v' t s : setting E hm ryu ks TValue -> jval_ok v = true -> jval_ok v' = true ->
  format_debug sa ryu k alt v = Ok t -> format_debug sa ryu k' alt v' = Ok t ->
  to_string_is E hm ryu ks TValue (VJson v) s -> to_string_is E hm ryu ks TValue (VJson v') s.
Proof.
  intros HS HO HO' HF HF' HT. assert (HR : ryu_ok ryu) by apply HS.
  assert (D : forall k v, jval_ok v = true -> format_debug sa ryu k alt v = Ok t -> (jdepth v < k)%nat).
  { intros k0 v0 HO0 HF0. destruct (Nat.lt_ge_cases (jdepth v0) k0) as [L|L]; [exact L|]. rewrite (proj2 (C64_format sa ryu k0 alt v0 HR HO0) L) in HF0. discriminate HF0. }
  assert (HV : same_value v v') by (apply (C64_debug_is_faithful sa ryu alt k k' v v'); eauto; congruence).
  destruct (C27_typed E hm ryu ks TValue _ HS (ht_value E _ HO)) as (t1 & A1 & _ & C1). destruct (C27_typed E hm ryu ks TValue _ HS (ht_value E _ HO')) as (t2 & A2 & _ & C2).
  inversion A1; subst. inversion A2; subst. rewrite <- (same_render ryu v v' HV) in C2.
  assert (s = render itoa ryu (jtree v)) as -> by (eapply to_string_fun; [exact HT|eexists; exact C1]). eexists. exact C2.
Qed.

(** The text is valid UTF-8 without control characters: on one line, or, with `#`, with no other
    control character than the line breaks between the items. *)
Definition clean (breaks : bool) (t : bytes) : Prop :=
  exists cs, forallb is_scalar cs = true /\ t = encode_all cs /\ Forall (fun c => ~ control c \/ (breaks = true /\ c = 10)) cs.
Lemma clean_app br a b : clean br a -> clean br b -> clean br (a ++ b).
Proof.
  intros (cs & A1 & -> & A3) (ds & B1 & -> & B3). exists (cs ++ ds). split; [rewrite forallb_app, A1, B1; reflexivity|]. split; [unfold encode_all; rewrite map_app, concat_app; reflexivity|apply Forall_app; auto].
Qed.
Lemma clean_ascii br t : Forall (fun b => 32 <= b < 127) t -> clean br t.
Proof.
  intros H. exists t. split; [apply forallb_forall; intros c Hc; rewrite Forall_forall in H; specialize (H c Hc); apply is_scalar_spec; lia|]. split.
  - unfold encode_all. induction H as [|c t HC H IH]; [reflexivity|]. cbn [map concat]. rewrite <- IH. unfold utf8_enc. rewrite (proj2 (Z.ltb_lt c 128)) by lia. reflexivity.
  - eapply Forall_impl; [|exact H]. cbv beta. intros c HC. left. unfold control. lia.
Qed.
Lemma clean_break : clean true [10].
Proof. exists [10]. split; [reflexivity|]. split; [reflexivity|]. constructor; [right; split; reflexivity|constructor]. Qed.
Lemma clean_concat br l : Forall (clean br) l -> clean br (concat l).
Proof. induction 1 as [|t l HT H IH]; [apply clean_ascii; constructor|apply clean_app; assumption]. Qed.
Local Ltac asc := apply clean_ascii; repeat (constructor; [cbn; lia|]); constructor.
Lemma clean_spaces br n : clean br (spaces n).
Proof. apply clean_ascii. apply Forall_forall. intros c Hc. apply repeat_spec in Hc. subst c. lia. Qed.
Lemma clean_layout br alt ind items : (alt = true -> br = true) -> Forall (clean br) items -> clean br (laid_out alt ind items).
Proof.
  intros HB H. destruct alt; cbn [laid_out].
  - rewrite (HB eq_refl) in *. destruct items as [|s items]; [asc|]. apply clean_app; [apply clean_break|]. apply clean_app; [|apply clean_spaces]. apply clean_concat. apply Forall_map. eapply Forall_impl; [|exact H]. cbv beta. intros t HT.
    apply clean_app; [apply clean_spaces|]. apply clean_app; [exact HT|]. apply clean_app; [asc|apply clean_break].
  - induction H as [|s items HS H IH]; [asc|]. destruct items as [|s' items]; [exact HS|]. change (separated (s :: s' :: items)) with (s ++ bs ", " ++ separated (s' :: items)). apply clean_app; [exact HS|]. apply clean_app; [asc|exact IH].
Qed.
Lemma clean_quoted sa br cs : unicode_like sa -> forallb is_scalar cs = true -> clean br (quoted sa cs).
Proof.
  intros HU H. unfold quoted. apply clean_app; [asc|]. apply clean_app; [|asc]. apply clean_concat, Forall_map, Forall_forall. intros c Hc. rewrite forallb_forall in H. specialize (H c Hc). unfold escape_debug.
  repeat (match goal with |- clean _ (if ?b =? ?n then _ else _) => destruct (Z.eqb_spec b n) end; [asc|]).
  destruct (sa c) eqn:SA.
  - exists [c]. split; [cbn; rewrite H; reflexivity|]. split; [unfold encode_all; cbn [map concat]; rewrite app_nil_r; reflexivity|]. constructor; [|constructor]. left. unfold control. intros HX. rewrite (proj2 (HU c)) in SA by lia. discriminate SA.
  - apply clean_app; [asc|]. apply clean_app; [|asc]. apply clean_ascii. apply is_scalar_spec in H. eapply Forall_impl; [|apply hex_visible; [lia|constructor]]. cbv beta. intros. lia.
Qed.
Lemma numtext_range n t : NumText n t -> Forall (fun b => 32 <= b < 127) t.
Proof.
  intros [neg i f ft e et H1 H2 H3]. assert (DT : forall ds, Forall digit ds -> Forall (fun b => 32 <= b < 127) (dtext ds)).
  { intros ds HF. unfold dtext. apply Forall_map. eapply Forall_impl; [|exact HF]. cbv beta. unfold digit. intros. lia. }
  assert (HI : Forall digit i). { destruct H1; [repeat constructor; unfold digit; lia|constructor; [unfold digit; lia|assumption]]. }
  apply Forall_app. split; [destruct neg; repeat constructor; lia|]. apply Forall_app. split; [apply DT, HI|]. apply Forall_app. split.
  - destruct H2 as [|d ds HD]; [constructor|]. constructor; [lia|exact (DT _ HD)].
  - destruct H3 as [|e0 sg st d ds He HS HD]; [constructor|]. constructor; [destruct He; lia|]. apply Forall_app. split; [destruct HS; repeat constructor; lia|exact (DT _ HD)].
Qed.
Lemma clean_display ryu br n : ryu_ok ryu -> jnum_ok n = true -> clean br (number_display ryu n).
Proof.
  intros HR H. destruct (display_cases ryu HR n H) as [(z & l & _ & A & _)|[(f & l & _ & _ & _ & A & _)|(f & _ & A)]]; try (apply clean_ascii; eapply numtext_range, A). destruct A; asc.
Qed.
Theorem C64_no_control_characters sa ryu alt k v t : unicode_like sa -> ryu_ok ryu -> jval_ok v = true ->
  format_debug sa ryu k alt v = Ok t -> clean alt t.
Proof.
  intros HU HR HO HF. destruct (Nat.lt_ge_cases (jdepth v) k) as [L|L]; [|rewrite (proj2 (C64_format sa ryu k alt v HR HO) L) in HF; discriminate HF].
  rewrite (proj1 (C64_format sa ryu k alt v HR HO) L) in HF. injection HF as <-. clear L. generalize 0%nat as ind. revert HO.
  induction v as [|b|n|s|l IH|l IH] using jval_ind'; intros HO ind; cbn [shown jval_ok] in *.
  - asc.
  - destruct b; asc.
  - apply clean_app; [asc|]. apply clean_app; [apply clean_display; assumption|asc].
  - apply clean_app; [asc|]. apply clean_app; [apply clean_quoted; [exact HU|apply chars_spec, HO]|asc].
  - apply clean_app; [asc|]. apply clean_app; [|asc]. apply clean_layout; [auto|]. apply Forall_map. rewrite forallb_forall in HO. rewrite Forall_forall in *. intros x Hx. apply IH; auto.
  - apply andb_true_iff in HO. destruct HO as [_ HO]. apply clean_app; [asc|]. apply clean_app; [|asc]. apply clean_layout; [auto|]. apply Forall_map. rewrite forallb_forall in HO. rewrite Forall_forall in *. intros x Hx. specialize (HO x Hx). apply andb_true_iff in HO. destruct HO as [H1 H2].
    apply clean_app; [apply clean_quoted; [exact HU|apply chars_spec, H1]|]. apply clean_app; [asc|]. apply IH; auto.
Qed.

(** Like cloning, and unlike dropping and writing, formatting overflows the stack on values that
    from_str returns. *)
Theorem C64_debug_overflows_on_parsed_values sa ryu k alt : ryu_ok ryu ->
  exists t j, text_ok t /\ from_str [] 1 true TValue t = Ok (VJson j) /\ format_debug sa ryu k alt j = Fault FDeep.
Proof.
  intros HR. exists (nest k), (nested k).
  assert (Ht : text_ok (nest k)).
  { split; [apply nest_utf8|]. apply runs_words; [|unfold i32_MAX; lia]. clear. unfold non_digit.
    set (P := fun c : Z => c <> 34 /\ ~ 48 <= c <= 57). assert (P 91 /\ P 93) as [P1 P2] by (unfold P; lia).
    induction k as [|k IH]; [constructor; [exact P1|constructor; [exact P2|constructor]]|]. cbn [nest]. apply Forall_app. split; [constructor; [exact P1|constructor]|].
    apply Forall_app. split; [exact IH|constructor; [exact P2|constructor]]. }
  split; [exact Ht|]. split.
  - apply C16_from_str_denotation; [exact Ht|reflexivity|reflexivity|cbn; lia|]. exists (nest_doc k). split; [apply nest_text|]. constructor. apply nest_reads.
  - apply (C64_format sa ryu k alt (nested k) HR); [clear; induction k as [|k IH]; [reflexivity|cbn [nested jval_ok forallb]; rewrite IH; reflexivity]|]. rewrite nested_depth. lia.
Qed.

(** ** Examples *)
Definition ascii_table (c : Z) : bool := (32 <=? c) && (c <? 127) || (160 <=? c).
Example ex_unicode_like : unicode_like ascii_table.
Proof.
  intros c. unfold ascii_table. split; intros H.
  - rewrite (proj2 (Z.leb_le 32 c)), (proj2 (Z.ltb_lt c 127)) by lia. reflexivity.
  - rewrite (proj2 (Z.leb_gt 160 c)), orb_false_r by lia. destruct (Z.leb_spec 32 c); [|reflexivity]. apply Z.ltb_ge. lia.
Qed.
(** tests/test_value.rs, test_debug. *)
Definition ex_debug_input : bytes :=
  bs "{""Null"": null, ""Bool"": true, ""Number"": 1, ""String"": ""..."", ""Array"": [true], ""EmptyArray"": [], ""EmptyObject"": {}}".
Definition ex_debug_value : jval :=
  JvObj [(bs "Array", JvArr [JvBool true]); (bs "Bool", JvBool true); (bs "EmptyArray", JvArr []); (bs "EmptyObject", JvObj []); (bs "Null", JvNull); (bs "Number", JvNum (NU64 1)); (bs "String", JvStr (bs "..."))].
Example ex_C64_test_debug :
  from_str [] 1 true TValue ex_debug_input = Ok (VJson ex_debug_value) /\
  format_debug ascii_table exact_print 3 true ex_debug_value = Ok (bs
"Object {
    ""Array"": Array [
        Bool(true),
    ],
    ""Bool"": Bool(true),
    ""EmptyArray"": Array [],
    ""EmptyObject"": Object {},
    ""Null"": Null,
    ""Number"": Number(1),
    ""String"": String(""...""),
}") /\
  format_debug ascii_table exact_print 3 false ex_debug_value = Ok (bs
"Object {""Array"": Array [Bool(true)], ""Bool"": Bool(true), ""EmptyArray"": Array [], ""EmptyObject"": Object {}, ""Null"": Null, ""Number"": Number(1), ""String"": String(""..."")}") /\
  jval_ok ex_debug_value = true /\ jdepth ex_debug_value = 2%nat.
Proof. split; [vm_compute; reflexivity|]. split; [vm_compute; reflexivity|]. split; [vm_compute; reflexivity|]. split; vm_compute; reflexivity. Qed.
(** Nesting, escapes, and a string that imitates structure. *)
Example ex_C64_nested :
  format_debug ascii_table exact_print 3 true (JvArr [JvArr [JvStr [10; 34; 92; 1; 195; 169]]; JvNull]) = Ok (bs
"Array [
    Array [
        String(""\n\""\\\u{1}" ++ [195; 169] ++ bs """),
    ],
    Null,
]") /\
  format_debug ascii_table exact_print 3 false (JvArr [JvStr (bs "a""), Null]")]) = Ok (bs "Array [String(""a\""), Null]"")]").
Proof. vm_compute. split; reflexivity. Qed.
Example ex_C64_same : same_value (JvArr [JvNum (NU64 5)]) (JvArr [JvNum (NI64 5)]) /\ ~ same_value (JvNum (NU64 5)) (JvNum (NF64 (S754_finite false 5629499534213120 (-50)))).
Proof.
  split; [repeat constructor; apply (sn_int _ _ 5); auto|]. intros H. inversion H as [| |? ? HN| | |]; subst. inversion HN as [? ? z _ [E|E]|]; discriminate E.
Qed.
(** A writer that takes twelve bytes only: the rest is not written and the error comes back. *)
Definition short_writer : writer bytes := fun s out => if (List.length out + List.length s <=? 12)%nat then (Ok tt, out ++ s) else (Err, out).
Example ex_C64_writer : debug_value ascii_table exact_print 2 true short_writer (JvArr [JvNull]) [] = (Err, bs "Array [" ++ [10; 32; 32; 32; 32]).
Proof. vm_compute. reflexivity. Qed.
