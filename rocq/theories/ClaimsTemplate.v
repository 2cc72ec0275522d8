(** C70: printed values can be spliced into texts. *)
From Coq Require Import String ZArith List Bool Lia Reals Permutation Floats.SpecFloat.
From Verif Require Import Base Utf8 F64 Lexer Grammar LexSpec Types Impls Ser JsonValue HeapSeq FromStr Reading NumValue DocSpec SerSpec SerFacts RenderFacts WriteFacts ExactPrint Unambiguous ClaimsParse ClaimsSer ClaimsWrite ClaimsOrder TemplateSpec TemplateFacts.
Import ListNotations.
Open Scope Z_scope.

(** If [""] can stand between p and q in a JSON text, then every JSON text can, and it becomes
    that one part of the document: nothing else of the document depends on it. *)
Theorem C70_template d p q : JText d (p ++ probe ++ q) ->
  exists C, d = fill C (DArr [DStr []]) /\
    forall d' t, JText d' t -> JText (fill C d') (p ++ t ++ q) /\ forall d'', JText d'' (p ++ t ++ q) -> d'' = fill C d'.
Proof.
  intros H. destruct (probe_hole d p q H) as (C & E & HF). exists C. split; [exact E|]. intros d' t Ht. split; [auto|].
  intros d'' H''. eapply JText_unique; [exact H''|auto].
Qed.

(** In terms of the API: a template is tried out with [""]; whatever to_string prints, for any value
    of any type, can then be put there, and every reader finds the document with that value in it. *)
Theorem C70_written_value E k oc p q j0 :
  env_ok E = true -> (wrap_depth E TValue < k)%nat -> text_ok (p ++ probe ++ q) -> from_str E k oc TValue (p ++ probe ++ q) = Ok j0 ->
  exists C, JText (fill C (DArr [DStr []])) (p ++ probe ++ q) /\
    forall E' hm ryu k' T v s, setting E' hm ryu k' T -> has_type E' T v -> to_string_is E' hm ryu k' T v s ->
    exists d t, Writes E' T v t /\ Denotes t d /\ JText d s /\ JText (fill C d) (p ++ s ++ q) /\
      forall E2 k2 T2 w, env_ok E2 = true -> ty_ok T2 = true -> (wrap_depth E2 T2 < k2)%nat -> text_ok (p ++ s ++ q) ->
        (from_str E2 k2 oc T2 (p ++ s ++ q) = Ok w <-> Reads E2 T2 (fill C d) w).
Proof.
  intros HE Hk Ht H0. apply from_str_reads in H0; auto. destruct H0 as (d0 & HJ & _).
  destruct (C70_template d0 p q HJ) as (C & -> & HF). exists C. split; [exact HJ|].
  intros E' hm ryu k' T v s HS Hv Hs. destruct (written_tree _ _ _ _ _ _ _ HS Hv Hs) as (t & d & W & _ & _ & D & J).
  exists d, t. destruct (HF d s J) as [J' U]. split; [exact W|]. split; [exact D|]. split; [exact J|]. split; [exact J'|].
  intros E2 k2 T2 w HE2 HT2 Hk2 Hx. split.
  - intros H. apply from_str_reads in H; auto. destruct H as (d2 & J2 & R). rewrite <- (U d2 J2). exact R.
  - intros R. apply from_str_reads; eauto.
Qed.

(** Every text that is accepted alone is accepted there (as json::Values: the place is not
    restricted to some type). *)
Lemma lits_fill C : forall d, exists a b, forall d', lits (fill C d') = a ++ lits d' ++ b /\ lits (fill C d) = a ++ lits d ++ b.
Proof.
  induction C as [|l1 C IH l2|l1 k C IH l2]; intros d.
  - exists [], []. intros d'. cbn [fill app]. rewrite !app_nil_r. auto.
  - destruct (IH d) as (a & b & H). exists (flat_map lits l1 ++ a), (b ++ flat_map lits l2). intros d'. destruct (H d') as [E1 E2].
    cbn [fill lits]. rewrite !flat_map_app. cbn [flat_map]. rewrite E1, E2, <- !app_assoc. auto.
  - destruct (IH d) as (a & b & H). exists (flat_map (fun kd => lits (snd kd)) l1 ++ a), (b ++ flat_map (fun kd => lits (snd kd)) l2). intros d'. destruct (H d') as [E1 E2].
    cbn [fill lits]. rewrite !flat_map_app. cbn [flat_map snd]. rewrite E1, E2, <- !app_assoc. auto.
Qed.
Theorem C70_accepted E k oc p q t j0 j :
  env_ok E = true -> (wrap_depth E TValue < k)%nat -> text_ok (p ++ probe ++ q) -> text_ok t -> text_ok (p ++ t ++ q) ->
  from_str E k oc TValue (p ++ probe ++ q) = Ok (VJson j0) -> from_str E k oc TValue t = Ok (VJson j) ->
  exists j', from_str E k oc TValue (p ++ t ++ q) = Ok (VJson j').
Proof.
  intros HE Hk H1 H2 H3 A B.
  destruct (proj1 (proj1 (C01_value_accepts_exactly_json E k oc _ H1 HE Hk)) (ex_intro _ j0 A)) as (d0 & J0 & L0).
  destruct (proj1 (proj1 (C01_value_accepts_exactly_json E k oc _ H2 HE Hk)) (ex_intro _ j B)) as (d & J & L).
  destruct (C70_template d0 p q J0) as (C & -> & HF). destruct (HF d t J) as [J' _].
  apply (proj1 (C01_value_accepts_exactly_json E k oc _ H3 HE Hk)). exists (fill C d). split; [exact J'|].
  destruct (lits_fill C (DArr [DStr []])) as (a & b & HL). destruct (HL d) as [E1 E2]. rewrite E2 in L0. rewrite E1.
  apply Forall_app in L0. destruct L0 as [La Lb]. apply Forall_app in Lb. destruct Lb as [_ Lb]. apply Forall_app. split; [exact La|]. apply Forall_app. auto.
Qed.

(** A place that accepts [], or a place that accepts the empty string, need not be a place
    for values: *)
Theorem C70_weaker_probes_refuted :
  from_str [] 4 true TValue (bs """" ++ bs "[]" ++ bs """") = Ok (VJson (JvStr (bs "[]"))) /\
  from_str [] 4 true TValue (bs """" ++ bs """x""" ++ bs """") = Err /\
  from_str [] 4 true TValue (bs "{" ++ bs """""" ++ bs ":1}") = Ok (VJson (JvObj [([], JvNum (NU64 1))])) /\
  from_str [] 4 true TValue (bs "{" ++ bs "2" ++ bs ":1}") = Err.
Proof. repeat split; vm_compute; reflexivity. Qed.
(** JSON is not HTML: a printed value must not be put into a script element as it is. *)
Theorem C70_script_refuted ryu :
  to_string [] id_order ryu 4 9 TString (VStr (bs "</script>")) = Ok (bs """</script>""").
Proof. reflexivity. Qed.

(** ** One value per line *)
Lemma lines_plain s r : Forall (fun c => c <> 10) s -> lines (s ++ 10 :: r) = s :: lines r.
Proof.
  assert (NE : forall r, exists l ls, lines r = l :: ls).
  { intros r0. induction r0 as [|c r0 (l & ls & E)]; [exists [], []; reflexivity|]. cbn [lines]. rewrite E. destruct (c =? 10); eauto. }
  induction 1 as [|c s H F IH]; cbn [app lines].
  - destruct (NE r) as (l & ls & ->). reflexivity.
  - rewrite IH. apply Z.eqb_neq in H. rewrite H. reflexivity.
Qed.
(** Printed texts contain no line breaks: written one per line they are found again. *)
Theorem C70_lines E ryu l :
  Forall (fun s => exists hm k T v, setting E hm ryu k T /\ has_type E T v /\ to_string_is E hm ryu k T v s) l ->
  lines (as_lines l) = l ++ [[]].
Proof.
  induction 1 as [|s l (hm & k & T & v & HS & Hv & Hs) F IH]; [reflexivity|]. cbn [as_lines flat_map]. rewrite <- app_assoc. cbn [app].
  destruct (C28_typed E hm ryu k T v HS Hv) as (s' & H' & _ & P). rewrite (to_string_fun _ _ _ _ _ _ _ _ Hs H').
  rewrite lines_plain; [f_equal; exact IH|]. eapply Forall_impl; [|exact P]. cbn. intros; lia.
Qed.

(** ** Concrete case *)
Example ex_C70 : text_ok (bs "{""id"": 7, ""payload"": " ++ probe ++ bs ", ""tags"": []}") /\
  from_str [] 4 true TValue (bs "{""id"": 7, ""payload"": " ++ probe ++ bs ", ""tags"": []}") =
    Ok (VJson (JvObj [(bs "id", JvNum (NU64 7)); (bs "payload", JvArr [JvStr []]); (bs "tags", JvArr [])])) /\
  to_string [] id_order exact_print 4 9 TString (VStr (bs """}, ""id"": 8, {""")) = Ok (bs """\""}, \""id\"": 8, {\""""") /\
  from_str [] 4 true TValue (bs "{""id"": 7, ""payload"": " ++ bs """\""}, \""id\"": 8, {\""""" ++ bs ", ""tags"": []}") =
    Ok (VJson (JvObj [(bs "id", JvNum (NU64 7)); (bs "payload", JvStr (bs """}, ""id"": 8, {""")); (bs "tags", JvArr [])])).
Proof. split; [text_ok|]. split; [vm_compute; reflexivity|]. split; vm_compute; reflexivity. Qed.
Example ex_C70_lines : lines (as_lines [bs "1"; bs """a\nb"""]) = [bs "1"; bs """a\nb"""; []].
Proof. reflexivity. Qed.
