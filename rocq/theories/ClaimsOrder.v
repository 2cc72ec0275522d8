(** Claims C37 (HashMap order), C38 (the calls of the serializer), C45 (its native depth). *)
From Coq Require Import String ZArith List Bool Lia Permutation Floats.SpecFloat.
From Verif Require Import Base Utf8 Utf8Facts F64 Lexer Grammar LexSpec Types Impls Ser HeapSeq Reading ReadFacts FromStr Unambiguous NumValue DocSpec ClaimsParse ClaimsTypes
  SerSpec SerFacts RenderFacts WriteFacts ExactPrint RoundTrip ClaimsSer ClaimsWrite OrderFacts RunFacts RunText.
Import ListNotations.
Open Scope Z_scope.

(** ** C37 *)
Lemma two_docs E hm1 hm2 ryu k T v s1 s2 :
  setting E hm1 ryu k T -> setting E hm2 ryu k T -> has_type E T v ->
  to_string_is E hm1 ryu k T v s1 -> to_string_is E hm2 ryu k T v s2 ->
  exists t1 t2 d1 d2, Writes E T v t1 /\ Writes E T v t2 /\ stree_ok t1 = true /\ stree_ok t2 = true /\
    RDoc ryu t1 d1 /\ RDoc ryu t2 d2 /\ JText d1 s1 /\ JText d2 s2.
Proof.
  intros S1 S2 Hv H1 H2.
  destruct (C27_typed E hm1 ryu k T v S1 Hv) as (t1 & A1 & B1 & C1). destruct (C27_typed E hm2 ryu k T v S2 Hv) as (t2 & A2 & B2 & C2).
  assert (s1 = render itoa ryu t1) as -> by (eapply to_string_fun; [exact H1|exists (nodes t1); exact C1]).
  assert (s2 = render itoa ryu t2) as -> by (eapply to_string_fun; [exact H2|exists (nodes t2); exact C2]).
  assert (HR : ryu_ok ryu) by apply S1.
  destruct (rdoc_text ryu HR t1 B1) as (d1 & D1 & T1). destruct (rdoc_text ryu HR t2 B2) as (d2 & D2 & T2).
  assert (J : forall d t, VText d t -> JText d t). { intros d t H. exists [], t, []. rewrite app_nil_r. repeat split; try constructor. exact H. }
  exists t1, t2, d1, d2. auto 10.
Qed.
Lemma runs_i32 E hm ryu k T v s : setting E hm ryu k T -> has_type E T v -> to_string_is E hm ryu k T v s -> digit_runs i32_MAX s.
Proof. intros HS Hv Hs. eapply runs_mono; [|eapply written_runs; eassumption]. unfold digit_limit, i32_MAX. lia. Qed.
(** Whatever orders two HashMap iterations use, the two texts read back, at the type that
    was written, to the same result. *)
Theorem C37_hash_order_is_irrelevant E hm1 hm2 ryu k oc T v s1 s2 :
  setting E hm1 ryu k T -> setting E hm2 ryu k T -> distinct_names E -> has_type E T v ->
  to_string_is E hm1 ryu k T v s1 -> to_string_is E hm2 ryu k T v s2 ->
  from_str E k oc T s1 = from_str E k oc T s2.
Proof.
  intros S1 S2 HN Hv H1 H2. pose proof (runs_i32 _ _ _ _ _ _ _ S1 Hv H1) as L1. pose proof (runs_i32 _ _ _ _ _ _ _ S2 Hv H2) as L2. pose proof (text_of_ok _ _ _ _ _ _ _ S1 Hv H1) as U1. pose proof (text_of_ok _ _ _ _ _ _ _ S2 Hv H2) as U2.
  destruct (two_docs _ _ _ _ _ _ _ _ _ S1 S2 Hv H1 H2) as (t1 & t2 & d1 & d2 & W1 & W2 & O1 & O2 & R1 & R2 & J1 & J2).
  destruct S1 as (HT & HE & _ & _ & HR & Hk).
  eapply same_reads; [split; [exact U1|exact L1]|split; [exact U2|exact L2]|exact HT|exact HE|exact Hk|exact J1|exact J2|].
  intros w. split; intros HW; eapply (same_type_reads E ryu HN v); eassumption.
Qed.
(** The same at every other type (also in another environment), provided that it contains
    no maps keyed by integers, whose texts are not unique ("1" and "01" are the same key). *)
Theorem C37_any_target_type E hm1 hm2 ryu k T v s1 s2 E' k' oc T' :
  setting E hm1 ryu k T -> setting E hm2 ryu k T -> has_type E T v ->
  to_string_is E hm1 ryu k T v s1 -> to_string_is E hm2 ryu k T v s2 ->
  env_ok E' = true -> ty_ok T' = true -> (wrap_depth E' T' < k')%nat -> no_int_keys T' = true -> env_no_int_keys E' = true ->
  from_str E' k' oc T' s1 = from_str E' k' oc T' s2.
Proof.
  intros S1 S2 Hv H1 H2 HE' HT' Hk' N1 N2. pose proof (runs_i32 _ _ _ _ _ _ _ S1 Hv H1) as L1. pose proof (runs_i32 _ _ _ _ _ _ _ S2 Hv H2) as L2. pose proof (text_of_ok _ _ _ _ _ _ _ S1 Hv H1) as U1. pose proof (text_of_ok _ _ _ _ _ _ _ S2 Hv H2) as U2.
  destruct (two_docs _ _ _ _ _ _ _ _ _ S1 S2 Hv H1 H2) as (t1 & t2 & d1 & d2 & W1 & W2 & O1 & O2 & R1 & R2 & J1 & J2).
  eapply same_reads; [split; [exact U1|exact L1]|split; [exact U2|exact L2]|exact HT'|exact HE'|exact Hk'|exact J1|exact J2|].
  assert (Q1 : DEq d1 d2) by (eapply (teq_deq ryu t1 t2); [apply (same_value_teq E v T); assumption|assumption..]).
  assert (Q2 : DEq d2 d1) by (eapply (teq_deq ryu t2 t1); [apply (same_value_teq E v T); assumption|assumption..]).
  intros w. split; apply reads_deq; assumption.
Qed.
(** Without that proviso it is false: HashMap<String, bool> {"1": true, "01": false} read
    as HashMap<u8, bool> depends on the order. *)
Theorem C37_integer_keys_refuted :
  exists v s1 s2,
    has_type [] (TMap true KString TBool) v /\
    to_string_is [] id_order exact_print 4 (TMap true KString TBool) v s1 /\
    to_string_is [] rev_order exact_print 4 (TMap true KString TBool) v s2 /\
    from_str [] 4 true (TMap true (KInt false 8) TBool) s1 <> from_str [] 4 true (TMap true (KInt false 8) TBool) s2.
Proof.
  exists (VMap [(VStr (bs "01"), VBool false); (VStr (bs "1"), VBool true)]), (bs "{""01"":false,""1"":true}"), (bs "{""1"":true,""01"":false}").
  split; [constructor; repeat constructor|]. split; [|split].
  - exists 3%nat. intros fuel HF. replace fuel with (3 + (fuel - 3))%nat by lia. vm_compute. reflexivity.
  - exists 3%nat. intros fuel HF. replace fuel with (3 + (fuel - 3))%nat by lia. vm_compute. reflexivity.
  - vm_compute. discriminate.
Qed.

(** ** C38: the calls the serializer makes *)
Inductive scall :=
| SCBegin (container : bool)     (* begin(), and whether it returned a Seq or Map *)
| SCNext                         (* next() of a Seq or Map *)
| SCDrop.                        (* a Seq or Map is dropped *)
Definition is_container {SQ MP} (f : fragment SQ MP) : bool := match f with FSeq _ | FMap _ => true | _ => false end.
(** The same Serialize objects, keeping a list of the calls made on them. *)
Definition slogged {St D SQ MP} (I : siface St D SQ MP) : siface (St * list scall) D SQ MP := {|
  i_begin := fun d '(st, l) =>
    let '(r, st1) := i_begin I d st in
    (r, (st1, l ++ [SCBegin (match r with Ok f => is_container f | _ => false end)]));
  i_seq_next := fun q '(st, l) => let '(r, q', st1) := i_seq_next I q st in (r, q', (st1, l ++ [SCNext]));
  i_map_next := fun m '(st, l) => let '(r, m', st1) := i_map_next I m st in (r, m', (st1, l ++ [SCNext]));
  i_seq_drop := fun q '(st, l) => let '(r, st1) := i_seq_drop I q st in (r, (st1, l ++ [SCDrop]));
  i_map_drop := fun m '(st, l) => let '(r, st1) := i_map_drop I m st in (r, (st1, l ++ [SCDrop]))
|}.

(** The walk over a tree: begin() for every node; a container's iterator is asked once per
    child and once more, then dropped. *)
Fixpoint walk (t : stree) : list scall :=
  match t with
  | STSeq l => SCBegin true :: flat_map (fun c => SCNext :: walk c) l ++ [SCNext; SCDrop]
  | STMap l => SCBegin true :: flat_map (fun kc => SCNext :: walk (snd kc)) l ++ [SCNext; SCDrop]
  | _ => [SCBegin false]
  end.

Definition begins (l : list scall) : nat := List.length (filter (fun c => match c with SCBegin _ => true | _ => false end) l).
Definition nexts (l : list scall) : nat := List.length (filter (fun c => match c with SCNext => true | _ => false end) l).
Definition opened (l : list scall) : nat := List.length (filter (fun c => match c with SCBegin b => b | _ => false end) l).
Definition dropped (l : list scall) : nat := List.length (filter (fun c => match c with SCDrop => true | _ => false end) l).

Section Calls.
Context {St D SQ MP : Type}.
Variable I : siface St D SQ MP.
Scheme Describes_mind := Induction for Describes Sort Prop
with FragDescribes_mind := Induction for FragDescribes Sort Prop
with SeqDescribes_mind := Induction for SeqDescribes Sort Prop
with MapDescribes_mind := Induction for MapDescribes Sort Prop.
Combined Scheme describes_mutind from Describes_mind, FragDescribes_mind, SeqDescribes_mind, MapDescribes_mind.

Lemma logged_describes :
  (forall d st t st', Describes I d st t st' -> forall lg, Describes (slogged I) d (st, lg) t (st', lg ++ walk t)) /\
  (forall f st t st', FragDescribes I f st t st' -> forall lg, SCBegin (is_container f) :: tl (walk t) = walk t /\ FragDescribes (slogged I) f (st, lg) t (st', lg ++ tl (walk t))) /\
  (forall q st l st', SeqDescribes I q st l st' -> forall lg, SeqDescribes (slogged I) q (st, lg) l (st', lg ++ flat_map (fun c => SCNext :: walk c) l ++ [SCNext; SCDrop])) /\
  (forall m st l st', MapDescribes I m st l st' -> forall lg, MapDescribes (slogged I) m (st, lg) l (st', lg ++ flat_map (fun kc => SCNext :: walk (snd kc)) l ++ [SCNext; SCDrop])).
Proof.
  apply (describes_mutind St D SQ MP I
    (fun d st t st' _ => forall lg, Describes (slogged I) d (st, lg) t (st', lg ++ walk t))
    (fun f st t st' _ => forall lg, SCBegin (is_container f) :: tl (walk t) = walk t /\ FragDescribes (slogged I) f (st, lg) t (st', lg ++ tl (walk t)))
    (fun q st l st' _ => forall lg, SeqDescribes (slogged I) q (st, lg) l (st', lg ++ flat_map (fun c => SCNext :: walk c) l ++ [SCNext; SCDrop]))
    (fun m st l st' _ => forall lg, MapDescribes (slogged I) m (st, lg) l (st', lg ++ flat_map (fun kc => SCNext :: walk (snd kc)) l ++ [SCNext; SCDrop])));
    try (intros; cbn [walk tl]; rewrite app_nil_r; split; [reflexivity|constructor]; fail).
  - intros d st f st1 t st2 HB HF IH lg. destruct (IH (lg ++ [SCBegin (is_container f)])) as [HW HF']. econstructor; [cbn [i_begin slogged]; rewrite HB; reflexivity|].
    rewrite <- HW. rewrite <- app_assoc in HF'. exact HF'.
  - intros q st l st' H IH lg. cbn [walk tl is_container]. split; [reflexivity|]. constructor. apply IH.
  - intros m st l st' H IH lg. cbn [walk tl is_container]. split; [reflexivity|]. constructor. apply IH.
  - intros q st q' st1 r st2 H HX Hr lg. cbn [flat_map app].
    apply (qd_nil (slogged I) q (st, lg) q' (st1, lg ++ [SCNext]) r); [cbn [i_seq_next slogged]; rewrite H; reflexivity| |exact Hr].
    cbn [i_seq_drop slogged]. rewrite HX, <- app_assoc. reflexivity.
  - intros q st d q' st1 t st2 l st3 H HD IHD HS IHS lg. cbn [flat_map].
    eapply (qd_cons (slogged I) q (st, lg) d q' (st1, lg ++ [SCNext]) t (st2, (lg ++ [SCNext]) ++ walk t)); [cbn [i_seq_next slogged]; rewrite H; reflexivity|apply IHD|].
    pose proof (IHS ((lg ++ [SCNext]) ++ walk t)) as X. rewrite <- !app_assoc in X. cbn [app] in *. rewrite <- !app_assoc. cbn [app]. exact X.
  - intros q st q' st1 r st2 H HX Hr lg. cbn [flat_map app].
    apply (pd_nil (slogged I) q (st, lg) q' (st1, lg ++ [SCNext]) r); [cbn [i_map_next slogged]; rewrite H; reflexivity| |exact Hr].
    cbn [i_map_drop slogged]. rewrite HX, <- app_assoc. reflexivity.
  - intros q st k d q' st1 t st2 l st3 H HD IHD HS IHS lg. cbn [flat_map snd].
    eapply (pd_cons (slogged I) q (st, lg) k d q' (st1, lg ++ [SCNext]) t (st2, (lg ++ [SCNext]) ++ walk t)); [cbn [i_map_next slogged]; rewrite H; reflexivity|apply IHD|].
    pose proof (IHS ((lg ++ [SCNext]) ++ walk t)) as X. rewrite <- !app_assoc in X. cbn [app] in *. rewrite <- !app_assoc. cbn [app]. exact X.
Qed.
(** The calls made are exactly the walk over the tree, in that order. *)
Theorem C38_calls_are_the_walk ryu d st t st' fuel :
  Describes I d st t st' -> strs_ok t = true -> (nodes t <= fuel)%nat ->
  to_string_impl (slogged I) ryu fuel d (st, []) = (Ok (render itoa ryu t), (st', walk t)) /\
  to_string_impl I ryu fuel d st = (Ok (render itoa ryu t), st').
Proof.
  intros HD HV HF. split; apply described_written; auto.
  apply (proj1 logged_describes _ _ _ _ HD []).
Qed.
End Calls.

(** One begin() per node; one next() per child and one more per container; every iterator
    is dropped once. *)
Lemma filter_flat {A B} (p : B -> bool) (f : A -> list B) l : List.length (filter p (flat_map f l)) = list_sum (map (fun a => List.length (filter p (f a))) l).
Proof. induction l as [|a l IH]; [reflexivity|]. cbn [flat_map map list_sum fold_right]. rewrite filter_app, app_length, IH. reflexivity. Qed.
Lemma list_sum_ext {A} (f g : A -> nat) l : Forall (fun a => f a = g a) l -> list_sum (map f l) = list_sum (map g l).
Proof. induction 1 as [|a l H HF IH]; [reflexivity|]. cbn [map list_sum fold_right]. unfold list_sum in IH. rewrite H, IH. reflexivity. Qed.
Lemma sum_plus {A} (f g : A -> nat) l : list_sum (map (fun a => f a + g a)%nat l) = (list_sum (map f l) + list_sum (map g l))%nat.
Proof. induction l as [|a l IH]; [reflexivity|]. cbn [map list_sum fold_right] in *. unfold list_sum in *. rewrite IH. lia. Qed.
Theorem C38_call_counts t :
  begins (walk t) = nodes t /\ S (nexts (walk t)) = (nodes t + containers t)%nat /\
  opened (walk t) = containers t /\ dropped (walk t) = containers t.
Proof.
  unfold begins, nexts, opened, dropped. induction t as [|b|s|n|n|f|l IH|l IH] using stree_ind'; try (repeat split; reflexivity).
  - cbn [walk nodes containers filter List.length]. rewrite !filter_app, !app_length, !filter_flat. cbn [filter List.length].
    split; [|split; [|split]].
    + rewrite (list_sum_ext _ nodes); [lia|]. eapply Forall_impl; [|exact IH]. intros a Ha; cbn [filter List.length] in *; tauto.
    + rewrite (list_sum_ext _ (fun c => nodes c + containers c)%nat), sum_plus; [lia|]. eapply Forall_impl; [|exact IH]. intros a Ha; cbn [filter List.length] in *; tauto.
    + rewrite (list_sum_ext _ containers); [lia|]. eapply Forall_impl; [|exact IH]. intros a Ha; cbn [filter List.length] in *; tauto.
    + rewrite (list_sum_ext _ containers); [lia|]. eapply Forall_impl; [|exact IH]. intros a Ha; cbn [filter List.length] in *; tauto.
  - cbn [walk nodes containers filter List.length]. rewrite !filter_app, !app_length, !filter_flat. cbn [filter List.length].
    split; [|split; [|split]].
    + rewrite (list_sum_ext _ (fun kt => nodes (snd kt))); [lia|]. eapply Forall_impl; [|exact IH]. intros a Ha; cbn [filter List.length] in *; tauto.
    + rewrite (list_sum_ext _ (fun kt => nodes (snd kt) + containers (snd kt))%nat), sum_plus; [lia|]. eapply Forall_impl; [|exact IH]. intros a Ha; cbn [filter List.length] in *; tauto.
    + rewrite (list_sum_ext _ (fun kt => containers (snd kt))); [lia|]. eapply Forall_impl; [|exact IH]. intros a Ha; cbn [filter List.length] in *; tauto.
    + rewrite (list_sum_ext _ (fun kt => containers (snd kt))); [lia|]. eapply Forall_impl; [|exact IH]. intros a Ha; cbn [filter List.length] in *; tauto.
Qed.

(** At every moment the number of open iterators is at most the nesting of the value. *)
Definition open_after (p : list scall) : Z := Z.of_nat (opened p) - Z.of_nat (dropped p).
Lemma open_app p q : open_after (p ++ q) = open_after p + open_after q.
Proof. unfold open_after, opened, dropped. rewrite !filter_app, !app_length. lia. Qed.
Lemma open_walk t : open_after (walk t) = 0.
Proof. unfold open_after. destruct (C38_call_counts t) as (_ & _ & -> & ->). lia. Qed.
(** All prefixes of w stay within [0, h]. *)
Definition within (w : list scall) (h : Z) : Prop := forall p q, w = p ++ q -> 0 <= open_after p <= h.
Lemma app_split {A} (a b p q : list A) : a ++ b = p ++ q -> (exists r, a = p ++ r /\ q = r ++ b) \/ (exists r, p = a ++ r /\ b = r ++ q).
Proof.
  revert p. induction a as [|x a IH]; intros p H; cbn [app] in H.
  - right. exists p. auto.
  - destruct p as [|y p]; cbn [app] in H; [left; exists (x :: a); auto|]. injection H as <- H. destruct (IH p H) as [(r & -> & ->)|(r & -> & ->)]; [left|right]; exists r; auto.
Qed.
Lemma within_app a b h : within a h -> within b h -> open_after a = 0 -> within (a ++ b) h.
Proof.
  intros HA HB H0 p q H. apply app_split in H. destruct H as [(r & H1 & _)|(r & -> & H2)]; [eapply HA, H1|]. rewrite open_app, H0. apply HB in H2. lia.
Qed.
Lemma within_nil h : 0 <= h -> within [] h.
Proof. intros H p q E. symmetry in E. apply app_eq_nil in E. destruct E as [-> _]. unfold open_after. cbn. lia. Qed.
Lemma within_cons c w h : (match c with SCDrop | SCBegin true => False | _ => True end) -> within w h -> within (c :: w) h.
Proof.
  intros HC HW [|c' p] q H; cbn [app] in H.
  - pose proof (HW [] w eq_refl). exact H0.
  - injection H as <- H. apply HW in H. change (c :: p) with ([c] ++ p). rewrite open_app. destruct c as [[]| |]; try contradiction; unfold open_after at 1 3; cbn; exact H.
Qed.
Lemma flat_open {A} (f : A -> list scall) l : Forall (fun a => open_after (f a) = 0) l -> open_after (flat_map f l) = 0.
Proof. induction 1 as [|a l H HF IH]; [reflexivity|]. cbn [flat_map]. rewrite open_app, H, IH. reflexivity. Qed.
Lemma flat_within {A} (f : A -> list scall) l h : 0 <= h -> Forall (fun a => within (f a) h /\ open_after (f a) = 0) l -> within (flat_map f l) h.
Proof. intros Hh. induction 1 as [|a l [H H0] HF IH]; [apply within_nil, Hh|]. cbn [flat_map]. apply within_app; assumption. Qed.
Lemma within_open w h : within w h -> open_after w = 0 -> within (SCBegin true :: w ++ [SCNext; SCDrop]) (h + 1).
Proof.
  intros HW H0 [|c p] q H; cbn [app] in H.
  - pose proof (HW [] w eq_refl) as X. unfold open_after in *. cbn in *. lia.
  - injection H as <- H. change (SCBegin true :: p) with ([SCBegin true] ++ p). rewrite open_app. change (open_after [SCBegin true]) with 1.
    apply app_split in H. destruct H as [(r & H1 & _)|(r & -> & H2)].
    + apply HW in H1. lia.
    + rewrite open_app, H0. pose proof (HW [] w eq_refl) as X. change (open_after []) with 0 in X.
      destruct r as [|c1 r]; [change (open_after []) with 0; lia|]. injection H2 as <- H2. destruct r as [|c2 r]; [change (open_after [SCNext]) with 0; lia|]. injection H2 as <- H2.
      symmetry in H2. apply app_eq_nil in H2. destruct H2 as [-> _]. change (open_after [SCNext; SCDrop]) with (-1). lia.
Qed.
Lemma max_in l x : In x l -> (x <= list_max l)%nat.
Proof. induction l as [|y l IH]; cbn [In list_max fold_right]; [contradiction|]. intros [->|H]; [lia|]. apply IH in H. unfold list_max in H. lia. Qed.
Lemma within_mono w h h' : h <= h' -> within w h -> within w h'.
Proof. intros H HW p q E. apply HW in E. lia. Qed.
Theorem C38_pending_bounded_by_nesting t p q :
  walk t = p ++ q -> 0 <= open_after p <= Z.of_nat (height t).
Proof.
  revert p q. change (within (walk t) (Z.of_nat (height t))). induction t as [|b|s|n|n|f|l IH|l IH] using stree_ind'; try (apply within_cons; [exact I|apply within_nil; cbn; lia]).
  - cbn [walk height]. replace (Z.of_nat (S (list_max (map height l)))) with (Z.of_nat (list_max (map height l)) + 1) by lia.
    assert (HO : Forall (fun a => open_after (SCNext :: walk a) = 0) l) by (apply Forall_forall; intros a _; change (SCNext :: walk a) with ([SCNext] ++ walk a); rewrite open_app, open_walk; reflexivity).
    apply within_open; [|apply flat_open, HO]. apply flat_within; [lia|]. rewrite Forall_forall in *. intros a Ha. split; [|apply HO, Ha].
    apply within_cons; [exact I|]. eapply within_mono; [|apply IH, Ha]. apply (in_map height), max_in in Ha. lia.
  - cbn [walk height]. set (m := list_max _). replace (Z.of_nat (S m)) with (Z.of_nat m + 1) by lia.
    assert (HO : Forall (fun a : bytes * stree => open_after (SCNext :: walk (snd a)) = 0) l) by (apply Forall_forall; intros a _; change (SCNext :: walk (snd a)) with ([SCNext] ++ walk (snd a)); rewrite open_app, open_walk; reflexivity).
    apply within_open; [|apply flat_open, HO]. apply flat_within; [lia|]. rewrite Forall_forall in *. intros a Ha. split; [|apply HO, Ha].
    apply within_cons; [exact I|]. eapply within_mono; [|apply IH, Ha]. apply (in_map (fun kt => height (snd kt))), max_in in Ha. fold m in Ha. lia.
Qed.

(** ** C45: the native recursion of to_string depends on the type only *)
Section Depth.
Variable E : env.
Variable hm : nat -> list (val * val) -> list (val * val).
Variable ryu : f64 -> bytes.
Variable k1 k2 : nat.
Definition tfit (T : ty) : Prop := (maxw T < k1)%nat /\ (maxw T < k2)%nat.
Hypothesis HF : forall id fs, nth_error E id = Some (DStruct fs) -> Forall (fun f => tfit (snd f)) fs.
Hypothesis H0 : tfit TValue.
Definition qfit (q : sqh) : Prop := match q with QTuple a b _ => tfit (fst a) /\ tfit (fst b) | QSlice t _ => tfit t | QJson _ => True end.
Definition mfit (m : mph) : Prop := match m with PMap t _ => tfit t | PObject _ => True | PStruct fs _ _ => Forall (fun f => tfit (snd f)) fs end.
Definition lfit (l : slayer) : Prop := match l with SLSeq q => qfit q | SLMap m => mfit m end.
Definition ffit (f : fragment sqh mph) : Prop := match f with FSeq q => qfit q | FMap m => mfit m | _ => True end.

Lemma fit_begin k : forall T v n f n', tfit T -> ser_begin E hm k T v n = (Ok f, n') -> ffit f.
Proof.
  assert (SUB : forall T T', tfit T -> (maxw T' <= maxw T)%nat -> tfit T') by (unfold tfit; intros; lia).
  induction k as [|k IH]; intros T v n f n' HT H; [discriminate|].
  assert (JB : forall j, ffit (value_begin j)) by (intros [| |[]| | |]; exact Logic.I).
  assert (NB : forall m, ffit (number_begin m)) by (intros []; exact Logic.I).
  destruct T as [| | |sg b| | |T|T|A B|T|T m|h K T| | | | |id], v; cbn [ser_begin] in H; try discriminate;
    try (match type of H with (Ok ?x, _) = _ => assert (x = f) as <- by congruence end; first [exact Logic.I|apply JB|apply NB|cbn [ffit qfit fst];
      first [split; (eapply SUB; [exact HT|cbn [maxw wraps]; lia])|eapply SUB; [exact HT|cbn [maxw wraps]; lia]]]; fail).
  all: try (destruct sg; try discriminate; match type of H with (Ok ?x, _) = _ => assert (x = f) as <- by congruence end; exact Logic.I).
  all: try (destruct h; discriminate).
  all: try (eapply IH; [|exact H]; eapply SUB; [exact HT|cbn [maxw wraps]; lia]).
  { assert (HT' : tfit T) by (eapply SUB; [exact HT|cbn [maxw wraps]; lia]). destruct h; match type of H with (Ok ?x, _) = _ => assert (x = f) as <- by congruence end; exact HT'. }
  - destruct (nth_error E id) as [[fs|]|] eqn:EN; try discriminate. match type of H with (Ok ?x, _) = _ => assert (x = f) as <- by congruence end. cbn [ffit mfit]. eapply HF, EN.
  - destruct (nth_error E id) as [[fs|ns]|] eqn:EN; try discriminate. destruct (nth_error ns i); try discriminate. match type of H with (Ok ?x, _) = _ => assert (x = f) as <- by congruence end. exact Logic.I.
Qed.
Lemma fit_seq_next q d q' : qfit q -> seq_next q = (Some d, q') -> tfit (fst d) /\ qfit q'.
Proof.
  destruct q as [a b s|t [|v r]|[|j r]]; cbn [seq_next qfit]; intros HQ H; try discriminate.
  - destruct s as [|[|s]]; try discriminate; injection H as <- <-; cbn [qfit]; tauto.
  - injection H as <- <-. cbn [fst qfit]. auto.
  - injection H as <- <-. cbn [fst qfit]. auto.
Qed.
Lemma fit_map_next m key d m' : mfit m -> map_next m = (Some (key, d), m') -> tfit (fst d) /\ mfit m'.
Proof.
  destruct m as [t [|[k v] r]|[|[k j] r]|fs vs s]; cbn [map_next mfit]; intros HQ H; try discriminate.
  - injection H as _ <- <-. cbn [fst mfit]. auto.
  - injection H as _ <- <-. cbn [fst mfit]. auto.
  - destruct (nth_error fs s) as [[n T]|] eqn:EF; [|discriminate]. destruct (nth_error vs s); [|discriminate]. injection H as _ <- <-. cbn [fst mfit]. split; [|exact HQ].
    apply nth_error_In in EF. rewrite Forall_forall in HQ. exact (HQ _ EF).
Qed.
Notation I1 := (val_iface E hm k1).
Notation I2 := (val_iface E hm k2).
Definition sfit (r : res (@sstep dyn sqh mph) * nat) : Prop := match fst r with Ok (SBegin d stack _) => tfit (fst d) /\ Forall lfit stack | _ => True end.
Lemma fit_sunwind {A} ls : forall n, @sunwind _ _ _ _ I1 A ls n = sunwind I2 ls n /\ forall a, fst (@sunwind _ _ _ _ I1 A ls n) <> Ok a.
Proof. induction ls as [|[q|m] ls IH]; intros n; cbn [sunwind sdrop i_seq_drop i_map_drop val_iface]; [split; [reflexivity|discriminate]|apply IH|apply IH]. Qed.
Lemma fit_fault f ls n : son_fault I1 (A := @sstep dyn sqh mph) f ls n = son_fault I2 f ls n /\ sfit (son_fault I1 f ls n).
Proof.
  destruct f; cbn [son_fault]; try (split; [reflexivity|exact Logic.I]). destruct (@fit_sunwind (@sstep dyn sqh mph) ls n) as [E1 E2]. split; [exact E1|].
  unfold sfit. destruct (fst (sunwind I1 ls n)) as [a| |]; try exact Logic.I. destruct (E2 a eq_refl).
Qed.
Lemma fit_pop stack : forall out n, Forall lfit stack -> ser_pop I1 stack out n = ser_pop I2 stack out n /\ sfit (ser_pop I1 stack out n).
Proof.
  induction stack as [|[q|m] stack IH]; intros out n HS; cbn [ser_pop]; [split; reflexivity| |]; inversion HS as [|? ? HL HS']; subst; cbn [lfit i_seq_next i_map_next i_seq_drop i_map_drop val_iface] in *.
  - destruct (seq_next q) as [[d|] q'] eqn:EQ; cbn [fst snd]; [|apply IH, HS']. split; [reflexivity|]. destruct (fit_seq_next _ _ _ HL EQ). cbn. split; [assumption|constructor; assumption].
  - destruct (map_next m) as [[[key d]|] m'] eqn:EQ; cbn [fst snd]; [|apply IH, HS']. destruct (fit_map_next _ _ _ _ HL EQ).
    destruct (escape_str key (out ++ [44])); [|split; [reflexivity|exact Logic.I]|apply fit_fault]. split; [reflexivity|]. cbn. auto.
Qed.
Lemma fit_turn f stack out n : ffit f -> Forall lfit stack -> ser_turn I1 ryu f stack out n = ser_turn I2 ryu f stack out n /\ sfit (ser_turn I1 ryu f stack out n).
Proof.
  intros Hf HS. assert (SC : forall s, ser_scalar I1 s stack n = ser_scalar I2 s stack n /\ sfit (ser_scalar I1 s stack n)).
  { intros [o| |e]; cbn [ser_scalar]; [apply fit_pop, HS|split; [reflexivity|exact Logic.I]|apply fit_fault]. }
  destruct f as [|b|s|z|z|f|q|m]; cbn [ser_turn ffit] in *; try apply SC; cbn [i_seq_next i_map_next i_seq_drop i_map_drop val_iface].
  - destruct (seq_next q) as [[d|] q'] eqn:EQ; cbn [fst snd]; [|apply fit_pop, HS]. split; [reflexivity|]. destruct (fit_seq_next _ _ _ Hf EQ). cbn. split; [assumption|constructor; assumption].
  - destruct (map_next m) as [[[key d]|] m'] eqn:EQ; cbn [fst snd]; [|apply fit_pop, HS]. destruct (fit_map_next _ _ _ _ Hf EQ).
    destruct (escape_str key (out ++ [123])); [|split; [reflexivity|exact Logic.I]|apply fit_fault]. split; [reflexivity|]. cbn. auto.
Qed.
Lemma fit_loop fuel : forall d stack out n, tfit (fst d) -> Forall lfit stack -> ser_loop I1 ryu fuel d stack out n = ser_loop I2 ryu fuel d stack out n.
Proof.
  induction fuel as [|fuel IH]; intros d stack out n Hd HS; [reflexivity|]. cbn [ser_loop i_begin val_iface].
  assert (EB : ser_begin E hm k1 (fst d) (snd d) n = ser_begin E hm k2 (fst d) (snd d) n) by (pose proof (wraps_maxw (fst d)); destruct Hd; apply begin_budget; lia). rewrite <- EB.
  destruct (ser_begin E hm k1 (fst d) (snd d) n) as [[f| |e] n1] eqn:EF; [|reflexivity|destruct e; cbn [son_fault]; try reflexivity; apply fit_sunwind]. pose proof (fit_begin k1 _ _ _ _ _ Hd EF) as Hf.
  destruct (fit_turn f stack out n1 Hf HS) as [ET ST]. rewrite <- ET. destruct (ser_turn I1 ryu f stack out n1) as [[[o|d' stack' o]| |e] n2]; try reflexivity. cbn in ST. apply IH; apply ST.
Qed.
End Depth.
(** The native recursion budget needed by to_string depends on the type alone: not on the
    value, nor on how deeply it nests. *)
Theorem C45_depth_bounded_by_the_type E hm ryu T :
  exists bound, forall k fuel v, (bound <= k)%nat -> to_string E hm ryu k fuel T v = to_string E hm ryu bound fuel T v.
Proof.
  exists (S (wrap_depth E T)). intros k fuel v Hk. unfold to_string, to_string_impl. f_equal.
  destruct (depth_fits E T k ltac:(lia)) as (A1 & A2 & A3). destruct (depth_fits E T (S (wrap_depth E T)) ltac:(lia)) as (B1 & B2 & B3).
  apply fit_loop; [| |split; [exact A1|exact B1]|constructor].
  - intros id fs EN. specialize (A2 _ _ EN). specialize (B2 _ _ EN). rewrite Forall_forall in *. intros f Hf. split; [apply A2, Hf|apply B2, Hf].
  - split; cbn; lia.
Qed.
Theorem C45_deep_values_are_written E hm ryu k T v :
  setting E hm ryu k T -> has_type E T v -> forall k', (wrap_depth E T < k')%nat -> exists s, to_string_is E hm ryu k T v s /\ to_string_is E hm ryu k' T v s.
Proof.
  intros HS Hv k' Hk'. destruct (C27_typed E hm ryu k T v HS Hv) as (t & _ & _ & C). exists (render itoa ryu t). split; [exists (nodes t); exact C|].
  exists (nodes t). intros fuel HF. rewrite <- (C fuel HF). destruct HS as (_ & _ & _ & _ & _ & Hk).
  assert (X : forall x, (wrap_depth E T < x)%nat -> to_string E hm ryu x fuel T v = to_string E hm ryu (S (wrap_depth E T)) fuel T v).
  { intros x Hx. unfold to_string, to_string_impl. f_equal.
    destruct (depth_fits E T x Hx) as (A1 & A2 & A3). destruct (depth_fits E T (S (wrap_depth E T)) ltac:(lia)) as (B1 & B2 & B3).
    apply fit_loop; [| |split; [exact A1|exact B1]|constructor].
    - intros id fs EN. specialize (A2 _ _ EN). specialize (B2 _ _ EN). rewrite Forall_forall in *. intros f Hf. split; [apply A2, Hf|apply B2, Hf].
    - split; cbn; lia. }
  rewrite (X k Hk), (X k' Hk'). reflexivity.
Qed.

(** ** Concrete cases *)
Definition ex_hv : val := VMap [(VStr (bs "a"), VMap [(VInt 1, VBool true); (VInt 2, VBool false)]); (VStr (bs "b"), VMap [])].
Definition ex_ht : ty := TMap true KString (TMap true (KInt false 8) TBool).
Example ex_C37_typed : has_type [] ex_ht ex_hv.
Proof. repeat constructor. Qed.
Example ex_C37_texts :
  to_string [] id_order exact_print 4 9 ex_ht ex_hv = Ok (bs "{""a"":{""1"":true,""2"":false},""b"":{}}") /\
  to_string [] rev_order exact_print 4 9 ex_ht ex_hv = Ok (bs "{""b"":{},""a"":{""2"":false,""1"":true}}") /\
  from_str [] 4 true ex_ht (bs "{""b"":{},""a"":{""2"":false,""1"":true}}") = Ok ex_hv.
Proof. vm_compute. auto. Qed.
Example ex_C37_setting : setting [] id_order exact_print 4 ex_ht /\ setting [] rev_order exact_print 4 ex_ht /\ distinct_names [].
Proof. split; [|split; [|constructor]]; apply ex_setting_gen; try reflexivity; try apply ex_orders; cbn; lia. Qed.
Example ex_C38 :
  to_string_impl (slogged (val_iface [] rev_order 4)) exact_print 9 (ex_ht, ex_hv) (0%nat, []) =
  (Ok (bs "{""b"":{},""a"":{""2"":false,""1"":true}}"),
   (3%nat, [SCBegin true; SCNext; SCBegin true; SCNext; SCDrop; SCNext; SCBegin true; SCNext; SCBegin false; SCNext; SCBegin false; SCNext; SCDrop; SCNext; SCDrop])).
Proof. vm_compute. reflexivity. Qed.
