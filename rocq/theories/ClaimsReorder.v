(** C73: the members of a JSON object are unordered. *)
From Coq Require Import String ZArith List Bool Lia Reals Permutation Floats.SpecFloat.
From Verif Require Import Base Utf8 F64 Lexer Grammar LexSpec Types Impls FromStr Reading MapFacts ReadFacts SizeFacts RoundTrip ThroughSpec ThroughFacts ReorderSpec ReorderFacts ShuffleFacts ClaimsParse ClaimsTypes.
Import ListNotations.
Open Scope Z_scope.

(** Two texts that differ in white space, in the spelling of strings and in the order of the members
    of their objects (at any depth, with any numbers, with or without duplicate names) have the same
    outcome for every type without integer-keyed maps, be it a value or an error. *)
Theorem C73_reordered E k oc T s1 s2 d1 d2 :
  text_ok s1 -> text_ok s2 -> JText d1 s1 -> JText d2 s2 -> Reordered d1 d2 ->
  ty_ok T = true -> env_ok E = true -> in_fields faithful_keys E = true -> faithful_keys T = true -> (wrap_depth E T < k)%nat ->
  from_str E k oc T s1 = from_str E k oc T s2.
Proof.
  intros H1 H2 D1 D2 RE HT HE KE KT Hk. eapply same_reads; [exact H1|exact H2|exact HT|exact HE|exact Hk|exact D1|exact D2|].
  intros v. split; apply reordered_reads; try assumption; try (split; assumption).
  - exact (JText_doc_ok _ _ D2). - exact (JText_doc_ok _ _ D1). - apply reordered_sym, RE.
Qed.

(** [Reordered] contains what one expects. Distinct names: any permutation. *)
Lemma members_distinct k l : NoDup (map fst l) -> (members k l = [] /\ forall c, ~ In (k, c) l) \/ exists c, In (k, c) l /\ members k l = [c].
Proof.
  intros N. destruct (members k l) as [|c r] eqn:EQ.
  - left. split; [reflexivity|]. intros c I. apply in_members in I. rewrite EQ in I. exact I.
  - right. assert (I : In (k, c) l) by (apply in_members; rewrite EQ; left; reflexivity). exists c. split; [exact I|].
    apply nodup_last in I; [|exact N]. destruct I as (l1 & l2 & -> & H2). rewrite map_app in N. cbn [map fst] in N. apply NoDup_remove_2 in N.
    rewrite members_app, (members_none k l1) in EQ.
    + change ((k, c) :: l2) with ([(k, c)] ++ l2) in EQ. rewrite members_app, (members_none k l2 H2), app_nil_r in EQ.
      unfold members in EQ. cbn [filter fst] in EQ. rewrite (proj2 (bytes_eqb_eq k k) eq_refl) in EQ. cbn in EQ. congruence.
    + apply Forall_forall. intros [k' c'] I EE. cbn in EE. subst k'. apply N, in_or_app. left. apply (in_map fst) in I. exact I.
Qed.
Theorem C73_permutation l l' : Permutation l l' -> NoDup (map fst l) -> Reordered (DObj l) (DObj l').
Proof.
  intros HP N. assert (N' : NoDup (map fst l')) by (eapply Permutation_NoDup; [apply Permutation_map, HP|exact N]). constructor. intros k.
  destruct (members_distinct k l N) as [[-> A]|(c & I & ->)], (members_distinct k l' N') as [[-> B]|(c' & I' & ->)].
  - constructor.
  - destruct (A c'). eapply Permutation_in; [apply Permutation_sym, HP|exact I'].
  - destruct (B c). eapply Permutation_in; [exact HP|exact I].
  - constructor; [|constructor]. apply (Permutation_in _ HP) in I. apply nodup_last in I, I'; try assumption. rewrite (last_binding_unique l' k c c' I I'). constructor.
Qed.
(** With duplicates: two neighbours with different names may change places. *)
Theorem C73_swap l1 l2 k1 k2 a b : k1 <> k2 -> Reordered (DObj (l1 ++ (k1, a) :: (k2, b) :: l2)) (DObj (l1 ++ (k2, b) :: (k1, a) :: l2)).
Proof.
  intros N. constructor. intros k. replace (members k (l1 ++ (k2, b) :: (k1, a) :: l2)) with (members k (l1 ++ (k1, a) :: (k2, b) :: l2)).
  - induction (members k _); constructor; [constructor|assumption].
  - rewrite !members_app. f_equal. unfold members. cbn [filter fst]. destruct (bytes_eqb k1 k) eqn:E1, (bytes_eqb k2 k) eqn:E2; try reflexivity.
    apply bytes_eqb_eq in E1, E2. congruence.
Qed.
(** It is an equivalence. *)
Lemma forall2_trans {A} (P : A -> A -> Prop) a b c : (forall x y z, In x a -> P x y -> P y z -> P x z) -> Forall2 P a b -> Forall2 P b c -> Forall2 P a c.
Proof.
  intros H F. revert c H. induction F as [|x y a b HX F IH]; intros c H G; inversion G; subst; constructor; [eapply H; [left; reflexivity|eassumption|assumption]|].
  apply IH; [|assumption]. intros u v w I. apply H. right. exact I.
Qed.
Theorem C73_equivalence : (forall d, Reordered d d) /\ (forall d d', Reordered d d' -> Reordered d' d) /\
  (forall d d' d'', Reordered d d' -> Reordered d' d'' -> Reordered d d'').
Proof.
  split; [constructor|]. split; [intros d d'; apply reordered_sym|].
  induction d as [d IH] using WideFacts.doc_child_ind. intros d' d'' H G. inversion H as [|l l' F|l l' F]; subst; [exact G| |]; inversion G as [|? l'' F'|? l'' F']; subst; try exact H; constructor.
  - eapply forall2_trans; [|exact F|exact F']. intros x y z I. apply IH, I.
  - intros k. eapply forall2_trans; [|exact (F k)|exact (F' k)]. intros x y z I. apply IH. exists k. apply in_members, I.
Qed.

(** Every type, maps with integer keys included: members whose names no key type confuses may
    change places, at any depth and any number of times. *)
Theorem C73_every_type E k oc T s1 s2 d1 d2 :
  text_ok s1 -> text_ok s2 -> JText d1 s1 -> JText d2 s2 -> Shuffled d1 d2 ->
  ty_ok T = true -> env_ok E = true -> (wrap_depth E T < k)%nat ->
  from_str E k oc T s1 = from_str E k oc T s2.
Proof.
  intros H1 H2 D1 D2 SH HT HE Hk. eapply same_reads; [exact H1|exact H2|exact HT|exact HE|exact Hk|exact D1|exact D2|].
  intros v. split; apply shuffled_reads; [exact SH|apply shuffled_sym, SH].
Qed.
(** A name that does not begin with a digit or a sign is confused with no other name. *)
Theorem C73_identifiers l1 l2 k1 k2 a b : k1 <> k2 ->
  (forall c r, k1 = c :: r -> ~ (48 <= c <= 57) /\ c <> 43 /\ c <> 45) ->
  Shuffled (DObj (l1 ++ (k1, a) :: (k2, b) :: l2)) (DObj (l1 ++ (k2, b) :: (k1, a) :: l2)).
Proof.
  intros N C. constructor. intros K v R1 R2. inversion R1 as [s|sg b0 sign neg d ds z KS HD HZ HR| |]; subst.
  - inversion R2; subst. apply N. reflexivity.
  - inversion HD as [|? ? Hd _]; subst. unfold digit in Hd. inversion KS; subst; cbn [app dtext map] in C.
    + destruct (C _ _ eq_refl) as [X _]. lia.
    + destruct (C _ _ eq_refl) as (_ & X & _). congruence.
    + destruct (C _ _ eq_refl) as (_ & _ & X). congruence.
  - inversion R2; subst; apply N; reflexivity.
  - inversion R2; subst; apply N; reflexivity.
Qed.
(** Names that mean different integers are not confused either. *)
Theorem C73_integer_names l1 l2 z1 z2 a b k1 k2 : KeyReads (KInt true 128) k1 (VInt z1) -> KeyReads (KInt true 128) k2 (VInt z2) -> z1 <> z2 ->
  Shuffled (DObj (l1 ++ (k1, a) :: (k2, b) :: l2)) (DObj (l1 ++ (k2, b) :: (k1, a) :: l2)).
Proof.
  intros K1 K2 N. constructor. intros K v R1 R2.
  assert (X : forall k z z' sg b0, KeyReads (KInt true 128) k (VInt z) -> KeyReads (KInt sg b0) k (VInt z') -> z = z').
  { assert (KI : forall sg b0 k z, KeyReads (KInt sg b0) k (VInt z) -> exists sign neg d ds, k = sign ++ dtext (d :: ds) /\ KeySign sg sign neg /\ Forall digit (d :: ds) /\
      z = (if neg then - digits_val (d :: ds) else digits_val (d :: ds))) by (intros ? ? ? ? Q; inversion Q; subst; do 4 eexists; eauto).
    intros k z z' sg b0 A B. destruct (KI _ _ _ _ A) as (sign & neg & d & ds & -> & KS & HD & ->). destruct (KI _ _ _ _ B) as (sign' & neg' & d' & ds' & EK & KS' & HD' & ->). clear A B KI R1 R2 K1 K2.
    pose proof (Forall_inv HD) as Hd. pose proof (Forall_inv HD') as Hd'. unfold digit in Hd, Hd'.
    assert (DI : forall u w, dtext u = dtext w -> u = w).
    { induction u as [|x u IH]; intros [|y w] E1; cbn [dtext map] in E1; try discriminate; [reflexivity|]. pose proof (f_equal (@tl Z) E1) as E2. pose proof (f_equal (hd 0) E1) as E3. cbn [tl hd] in E2, E3. rewrite (IH w E2). f_equal. lia. }
    assert (TL : forall (x : Z) u w, x :: dtext u = x :: dtext w -> u = w) by (intros x u w E1; apply DI; congruence).
    inversion KS; subst; inversion KS'; subst; cbn [app] in EK;
      first [discriminate EK
            |apply DI in EK; rewrite EK; reflexivity
            |apply TL in EK; rewrite EK; reflexivity
            |exfalso; apply (f_equal (hd 0)) in EK; cbn [dtext map hd] in EK; lia]. }
  inversion R1 as [s|sg b0 sign neg d ds z KS HD HZ HR| |]; subst.
  - inversion R2; subst. apply N. inversion K1; subst. inversion K2; subst. exact (X _ _ _ _ _ K1 K2).
  - apply N. rewrite (X _ _ _ _ _ K1 R1). symmetry. exact (X _ _ _ _ _ K2 R2).
  - inversion R2; subst. exact (N (X _ _ _ _ _ K1 K2)).
  - inversion R2; subst. exact (N (X _ _ _ _ _ K1 K2)).
Qed.

(** ** The limits *)

(** Members with equal names must keep their order; so must the keys of an integer-keyed map that
    mean the same number; and elements of an array are ordered. *)
Theorem C73_order_matters_refuted :
  from_str [] 4 true (TMap false KString TBool) (bs "{""a"":true,""a"":false}") <> from_str [] 4 true (TMap false KString TBool) (bs "{""a"":false,""a"":true}") /\
  (Reordered (DObj [(bs "1", DBool true); (bs "01", DBool false)]) (DObj [(bs "01", DBool false); (bs "1", DBool true)]) /\
   from_str [] 4 true (TMap false (KInt false 8) TBool) (bs "{""1"":true,""01"":false}") = Ok (VMap [(VInt 1, VBool false)]) /\
   from_str [] 4 true (TMap false (KInt false 8) TBool) (bs "{""01"":false,""1"":true}") = Ok (VMap [(VInt 1, VBool true)])) /\
  from_str [] 4 true (TVec TBool) (bs "[true,false]") <> from_str [] 4 true (TVec TBool) (bs "[false,true]").
Proof.
  split; [vm_compute; discriminate|]. split; [|vm_compute; discriminate].
  split; [apply (C73_swap [] []); discriminate|]. split; vm_compute; reflexivity.
Qed.

(** ** Concrete case: a struct with a map, duplicate members, an ignored member and floats *)
Definition ex_renv : env := [DStruct [(bs "id", TInt false 8); (bs "tags", TMap false KString TF64); (bs "v", TValue); (bs "next", TOption (TBox (TNamed 0)))]].
Definition ex_r1 : bytes := bs "{""id"":1,""tags"":{""b"":1.5,""a"":2.5e-1},""id"":7,""x"":[null],""v"":{""p"":1,""q"":[{""m"":-0,""n"":0.5}],""p"":3}}".
Definition ex_r2 : bytes := bs " { ""x"": [null], ""id"": 1, ""v"": {""q"": [{""n"":0.5, ""\u006d"":-0}], ""p"": 1, ""p"": 3}, ""id"": 7, ""tags"": {""a"":2.5e-1, ""b"":1.5} } ".
Definition ex_rval : val :=
  VStruct [VInt 7; VMap [(VStr (bs "a"), VF64 (f64_div (f64_of_Z 1) (f64_of_Z 4))); (VStr (bs "b"), VF64 (f64_div (f64_of_Z 3) (f64_of_Z 2)))];
    VJson (JvObj [(bs "p", JvNum (NU64 3)); (bs "q", JvArr [JvObj [(bs "m", JvNum (NI64 0)); (bs "n", JvNum (NF64 (f64_div (f64_of_Z 1) (f64_of_Z 2))))]])]); VNone].
Example ex_C73 : text_ok ex_r1 /\ text_ok ex_r2 /\ env_ok ex_renv = true /\ in_fields faithful_keys ex_renv = true /\ (wrap_depth ex_renv (TNamed 0) < 9)%nat /\
  from_str ex_renv 9 true (TNamed 0) ex_r1 = Ok ex_rval /\ from_str ex_renv 9 true (TNamed 0) ex_r2 = Ok ex_rval.
Proof.
  split; [text_ok|]. split; [text_ok|]. split; [reflexivity|]. split; [reflexivity|]. split; [vm_compute; lia|]. split; vm_compute; reflexivity.
Qed.

(** The hypotheses about documents are met: nested objects, duplicates, two texts. *)
Lemma ex_letter c : 97 <= c <= 122 -> StrText [34; c; 34] [c].
Proof. intros H. exists [c]. split; [reflexivity|]. constructor; [lia|lia|lia|constructor]. Qed.
Lemma ex_one c d t : 97 <= c <= 122 -> VText d t -> MText [([c], d)] (34 :: c :: 34 :: 58 :: t).
Proof.
  intros H V. pose proof (mt_one [c] d [] [34; c; 34] [] [] t [] (Forall_nil _) (ex_letter c H) (Forall_nil _) (Forall_nil _) V (Forall_nil _)) as M.
  cbn [app] in M. rewrite app_nil_r in M. exact M.
Qed.
Lemma ex_more c d t l ts : 97 <= c <= 122 -> VText d t -> MText l ts -> MText (([c], d) :: l) (34 :: c :: 34 :: 58 :: t ++ 44 :: ts).
Proof.
  intros H V R. exact (mt_cons [c] d [] [34; c; 34] [] [] t [] l ts (Forall_nil _) (ex_letter c H) (Forall_nil _) (Forall_nil _) V (Forall_nil _) R).
Qed.
Lemma ex_elt d t : VText d t -> VText (DArr [d]) (91 :: t ++ [93]).
Proof.
  intros V. apply vt_arr. pose proof (et_one d [] t [] (Forall_nil _) V (Forall_nil _)) as M. cbn [app] in M. rewrite app_nil_r in M. exact M.
Qed.
Definition ex_d1 : doc := DObj [(bs "a", DNull); (bs "b", DArr [DObj [(bs "p", DBool true); (bs "q", DBool false)]]); (bs "a", DBool true)].
Definition ex_d2 : doc := DObj [(bs "b", DArr [DObj [(bs "q", DBool false); (bs "p", DBool true)]]); (bs "a", DNull); (bs "a", DBool true)].
Example ex_C73_docs : JText ex_d1 (bs "{""a"":null,""b"":[{""p"":true,""q"":false}],""a"":true}") /\
  JText ex_d2 (bs "{""b"":[{""q"":false,""p"":true}],""a"":null,""a"":true}") /\ Reordered ex_d1 ex_d2 /\ ex_d1 <> ex_d2.
Proof.
  split; [|split; [|split; [|discriminate]]].
  - exists [], (bs "{""a"":null,""b"":[{""p"":true,""q"":false}],""a"":true}"), []. split; [reflexivity|]. split; [constructor|]. split; [|constructor].
    apply (vt_obj _ (bs """a"":null,""b"":[{""p"":true,""q"":false}],""a"":true")).
    apply (ex_more 97 _ (bs "null")); [split; vm_compute; discriminate|constructor|]. apply (ex_more 98 _ (bs "[{""p"":true,""q"":false}]")); [split; vm_compute; discriminate| |apply ex_one; [split; vm_compute; discriminate|constructor]].
    apply (ex_elt _ (bs "{""p"":true,""q"":false}")). apply (vt_obj _ (bs """p"":true,""q"":false")). apply (ex_more 112 _ (bs "true")); [split; vm_compute; discriminate|constructor|apply ex_one; [split; vm_compute; discriminate|constructor]].
  - exists [], (bs "{""b"":[{""q"":false,""p"":true}],""a"":null,""a"":true}"), []. split; [reflexivity|]. split; [constructor|]. split; [|constructor].
    apply (vt_obj _ (bs """b"":[{""q"":false,""p"":true}],""a"":null,""a"":true")).
    apply (ex_more 98 _ (bs "[{""q"":false,""p"":true}]")); [split; vm_compute; discriminate| |apply (ex_more 97 _ (bs "null")); [split; vm_compute; discriminate|constructor|apply ex_one; [split; vm_compute; discriminate|constructor]]].
    apply (ex_elt _ (bs "{""q"":false,""p"":true}")). apply (vt_obj _ (bs """q"":false,""p"":true")). apply (ex_more 113 _ (bs "false")); [split; vm_compute; discriminate|constructor|apply ex_one; [split; vm_compute; discriminate|constructor]].
  - eapply (proj2 (proj2 C73_equivalence)); [apply (C73_swap [] [(bs "a", DBool true)] (bs "a") (bs "b")); discriminate|].
    assert (X : Reordered (DObj [(bs "p", DBool true); (bs "q", DBool false)]) (DObj [(bs "q", DBool false); (bs "p", DBool true)])) by (apply (C73_swap [] [] (bs "p") (bs "q")); discriminate).
    constructor. intros k. unfold members. cbn [app filter map fst snd]. destruct (bytes_eqb (bs "b") k), (bytes_eqb (bs "a") k); cbn [map snd];
      repeat (apply Forall2_cons || apply Forall2_nil); try (apply re_same); apply re_arr; (apply Forall2_cons; [exact X|apply Forall2_nil]).
Qed.
Example ex_C73_int :
  Shuffled (DObj [(bs "10", DBool true); (bs "+9", DBool false)]) (DObj [(bs "+9", DBool false); (bs "10", DBool true)]) /\
  from_str [] 4 true (TMap true (KInt false 8) TBool) (bs "{""10"":true,""+9"":false}") = Ok (VMap [(VInt 9, VBool false); (VInt 10, VBool true)]) /\
  from_str [] 4 true (TMap true (KInt false 8) TBool) (bs "{""+9"":false,""10"":true}") = Ok (VMap [(VInt 9, VBool false); (VInt 10, VBool true)]).
Proof.
  split; [|split; vm_compute; reflexivity]. apply (C73_integer_names [] [] 10 9); [| |discriminate].
  - apply (kr_int true 128 [] false 1 [0] 10); [constructor|repeat constructor; unfold digit; lia|reflexivity|split; vm_compute; discriminate].
  - apply (kr_int true 128 [43] false 9 [] 9); [constructor|repeat constructor; unfold digit; lia|reflexivity|split; vm_compute; discriminate].
Qed.
