(** C71: texts of arrays, objects and strings can be assembled from, and split into, pieces. *)
From Coq Require Import String ZArith List Bool Lia Reals Permutation Floats.SpecFloat.
From Verif Require Import Base Utf8 Utf8Facts F64 Lexer Grammar LexSpec Types Impls Ser JsonValue HeapSeq FromStr Reading NumValue DocSpec SerSpec SerFacts RenderFacts WriteFacts ExactPrint Unambiguous MapFacts SizeFacts UserText ClaimsParse ClaimsTypes ClaimsSer ClaimsOpenClosed ChunkFacts.
Import ListNotations.
Open Scope Z_scope.

(** ** Reading *)

(** An array text cut at commas between its elements: each piece, put into brackets, is read on
    its own, and the whole reads as the results in a row -- or not at all if a piece cannot be read. *)
Theorem C71_arrays E k oc T pieces dss :
  ty_ok (TVec T) = true -> env_ok E = true -> (wrap_depth E (TVec T) < k)%nat ->
  pieces <> [] -> Forall2 (fun ds p => ds <> [] /\ JText (DArr ds) (91 :: p ++ [93])) dss pieces ->
  Forall (fun p => text_ok (91 :: p ++ [93])) pieces -> text_ok (91 :: with_commas pieces ++ [93]) ->
  forall v, from_str E k oc (TVec T) (91 :: with_commas pieces ++ [93]) = Ok v <->
    exists vss, v = VSeq (concat vss) /\ Forall2 (fun p vs => from_str E k oc (TVec T) (91 :: p ++ [93]) = Ok (VSeq vs)) pieces vss.
Proof.
  intros HT HE Hk NE HD HP HX v.
  assert (HJ : JText (DArr (concat dss)) (91 :: with_commas pieces ++ [93])).
  { assert (NE' : dss <> []) by (intros ->; inversion HD; subst; congruence).
    apply arr_piece.
    - destruct HD as [|ds p dss pieces [Hds _] _]; [congruence|]. destruct ds; [congruence|]. discriminate.
    - apply etext_concat; [exact NE'|]. clear - HD. induction HD as [|ds p dss pieces [N H] HD IH]; constructor; [apply arr_piece; assumption|exact IH]. }
  rewrite from_str_reads by auto. split.
  - intros (d & Hd & HR). rewrite (JText_unique _ _ _ Hd HJ) in HR. inversion HR as [| | | | | | | | | | | |T' l vs HF| | | | | | | | | |]; subst. clear HR Hd HJ HX NE d.
    revert vs HF. induction HD as [|ds p dss pieces [N H] HD IH]; intros vs HF.
    + cbn in HF. inversion HF; subst. exists []. split; [reflexivity|constructor].
    + cbn [concat] in HF. apply Forall2_app_inv_l in HF. destruct HF as (v1 & v2 & F1 & F2 & ->). inversion HP as [|? ? P1 P2]; subst.
      destruct (IH P2 _ F2) as (vss & E2 & F). injection E2 as ->. exists (v1 :: vss). split; [reflexivity|]. constructor; [|exact F].
      apply from_str_reads; auto. exists (DArr ds). split; [exact H|constructor; exact F1].
  - intros (vss & -> & F). exists (DArr (concat dss)). split; [exact HJ|]. constructor. clear HJ HX NE. revert vss F.
    induction HD as [|ds p dss pieces [N H] HD IH]; intros vss F; inversion F as [|? vs ? vss' F1 F2]; subst; [constructor|].
    inversion HP as [|? ? P1 P2]; subst. cbn [concat]. apply Forall2_app; [|apply IH; assumption].
    apply from_str_reads in F1; auto. destruct F1 as (d & Hd & HR). rewrite (JText_unique _ _ _ Hd H) in HR. inversion HR; subst. assumption.
Qed.
(** Two pieces, without documents in the statement. *)
Theorem C71_two_arrays E k oc T a b va vb :
  ty_ok (TVec T) = true -> env_ok E = true -> (wrap_depth E (TVec T) < k)%nat ->
  text_ok (91 :: a ++ [93]) -> text_ok (91 :: b ++ [93]) -> text_ok (91 :: (a ++ 44 :: b) ++ [93]) ->
  from_str E k oc (TVec T) (91 :: a ++ [93]) = Ok (VSeq va) -> from_str E k oc (TVec T) (91 :: b ++ [93]) = Ok (VSeq vb) ->
  va <> [] -> vb <> [] ->
  from_str E k oc (TVec T) (91 :: (a ++ 44 :: b) ++ [93]) = Ok (VSeq (va ++ vb)).
Proof.
  intros HT HE Hk Ha Hb Hx A B NA NB.
  assert (D : forall s vs, text_ok (91 :: s ++ [93]) -> vs <> [] -> from_str E k oc (TVec T) (91 :: s ++ [93]) = Ok (VSeq vs) -> exists ds, ds <> [] /\ JText (DArr ds) (91 :: s ++ [93])).
  { intros s vs Hs NV H. apply from_str_reads in H; auto. destruct H as (d & Hd & HR). inversion HR as [| | | | | | | | | | | |T' l vs' HF| | | | | | | | | |]; subst. exists l. split; [|exact Hd]. intros ->. inversion HF; subst. congruence. }
  destruct (D _ _ Ha NA A) as (da & N1 & J1). destruct (D _ _ Hb NB B) as (db & N2 & J2).
  apply (C71_arrays E k oc T [a; b] [da; db]); auto.
  - discriminate.
  - exists [va; vb]. split; [cbn [concat]; rewrite app_nil_r; reflexivity|]. auto.
Qed.

(** An object text cut at commas between its members, as a map or a json::Object: the entries of
    the second piece win over those of the first. *)
Definition overlaid {K A} (ma mb m : list (K * A)) : Prop :=
  forall key w, In (key, w) m <-> In (key, w) mb \/ (In (key, w) ma /\ forall w', ~ In (key, w') mb).
Lemma overlaid_bindings {K A} (ka kb ma mb m : list (K * A)) :
  (forall key, Forall (fun kv => fst kv = key \/ fst kv <> key) (ka ++ kb)) ->
  (forall key w, In (key, w) ma <-> last_binding ka key w) -> (forall key w, In (key, w) mb <-> last_binding kb key w) ->
  (forall key w, In (key, w) m <-> last_binding (ka ++ kb) key w) -> overlaid ma mb m.
Proof.
  intros D HA HB HM key w. rewrite HM, last_binding_app by apply D. rewrite <- HA, <- HB. split; (intros [H|[H N]]; [auto|right; split; [exact H|intros w' H'; apply (N w'), HB, H']]).
Qed.
Lemma bound_nonempty {K A B} (kvs m : list (K * A)) (l : list B) (P : B -> K * A -> Prop) :
  (forall key w, In (key, w) m <-> last_binding kvs key w) -> Forall2 P l kvs -> m <> [] -> l <> [].
Proof.
  intros L F NE ->. inversion F; subst. destruct m as [|[key w] m]; [congruence|]. destruct (proj1 (L key w) (or_introl eq_refl)) as (x & y & E0 & _). destruct x; discriminate.
Qed.
Lemma obj_two la a lb b : la <> [] -> lb <> [] -> JText (DObj la) (123 :: a ++ [125]) -> JText (DObj lb) (123 :: b ++ [125]) ->
  JText (DObj (la ++ lb)) (123 :: (a ++ 44 :: b) ++ [125]).
Proof.
  intros NA NB HA HB. apply obj_piece; [intros E0; apply app_eq_nil in E0; tauto|]. apply mtext_app; apply obj_piece; assumption.
Qed.
Theorem C71_maps E k oc h K T a b ma mb :
  ty_ok (TMap h K T) = true -> env_ok E = true -> (wrap_depth E (TMap h K T) < k)%nat ->
  text_ok (123 :: a ++ [125]) -> text_ok (123 :: b ++ [125]) -> text_ok (123 :: (a ++ 44 :: b) ++ [125]) ->
  from_str E k oc (TMap h K T) (123 :: a ++ [125]) = Ok (VMap ma) -> from_str E k oc (TMap h K T) (123 :: b ++ [125]) = Ok (VMap mb) ->
  ma <> [] -> mb <> [] ->
  exists m, from_str E k oc (TMap h K T) (123 :: (a ++ 44 :: b) ++ [125]) = Ok (VMap m) /\ sorted_keys key_cmp m = true /\ overlaid ma mb m.
Proof.
  intros HT HE Hk Ha Hb Hx A B NA NB. apply C21_maps_keep_the_last in A; auto. apply C21_maps_keep_the_last in B; auto.
  destruct A as (la & ka & ma' & Ja & Ea & Fa & _ & La). injection Ea as <-. destruct B as (lb & kb & mb' & Jb & Eb & Fb & _ & Lb). injection Eb as <-.
  assert (KK : Forall (fun kv : val * val => key_kind K (fst kv)) (ka ++ kb)).
  { apply Forall_app. split; [clear - Fa; induction Fa as [|? ? ? ? [HK _]]; constructor; auto; exact (proj1 (key_reads _ _ _ HK))|clear - Fb; induction Fb as [|? ? ? ? [HK _]]; constructor; auto; exact (proj1 (key_reads _ _ _ HK))]. }
  assert (DEC : forall key, Forall (fun kv : val * val => fst kv = key \/ fst kv <> key) (ka ++ kb)).
  { intros key. eapply Forall_impl; [|exact KK]. intros [k1 w] HK. cbn [fst] in *. destruct K, k1; cbn in HK; try contradiction; destruct key; try (right; discriminate).
    - destruct (list_eq_dec Z.eq_dec s s0) as [->|NQ]; [auto|right; congruence].
    - destruct (Z.eq_dec z z0) as [->|NQ]; [auto|right; congruence].
    - destruct (Bool.bool_dec b0 b1) as [->|NQ]; [auto|right; congruence]. }
  destruct (proj2 (MapOf_key K _ _ KK) eq_refl) as [HS HM]. eexists. split; [|split; [exact HS|exact (overlaid_bindings _ _ _ _ _ DEC La Lb HM)]].
  apply C21_maps_keep_the_last; auto. exists (la ++ lb), (ka ++ kb). eexists. split; [|split; [reflexivity|split; [apply Forall2_app; assumption|split; assumption]]].
  apply obj_two; auto; [exact (bound_nonempty _ _ _ _ La Fa NA)|exact (bound_nonempty _ _ _ _ Lb Fb NB)].
Qed.
Theorem C71_objects E k oc a b ma mb :
  env_ok E = true -> (wrap_depth E TObject < k)%nat ->
  text_ok (123 :: a ++ [125]) -> text_ok (123 :: b ++ [125]) -> text_ok (123 :: (a ++ 44 :: b) ++ [125]) ->
  from_str E k oc TObject (123 :: a ++ [125]) = Ok (VJObj ma) -> from_str E k oc TObject (123 :: b ++ [125]) = Ok (VJObj mb) ->
  ma <> [] -> mb <> [] ->
  exists m, from_str E k oc TObject (123 :: (a ++ 44 :: b) ++ [125]) = Ok (VJObj m) /\ sorted_keys bytes_cmp m = true /\ overlaid ma mb m.
Proof.
  intros HE Hk Ha Hb Hx A B NA NB. apply C21_object_keeps_the_last in A; auto. apply C21_object_keeps_the_last in B; auto.
  destruct A as (la & ka & ma' & Ja & Ea & Fa & _ & La). injection Ea as <-. destruct B as (lb & kb & mb' & Jb & Eb & Fb & _ & Lb). injection Eb as <-.
  assert (DEC : forall key, Forall (fun kv : bytes * jval => fst kv = key \/ fst kv <> key) (ka ++ kb)).
  { intros key. apply Forall_forall. intros [k1 w] _. cbn [fst]. destruct (list_eq_dec Z.eq_dec k1 key); auto. }
  destruct (proj2 (MapOf_bytes (ka ++ kb) _) eq_refl) as [HS HM]. eexists. split; [|split; [exact HS|exact (overlaid_bindings _ _ _ _ _ DEC La Lb HM)]].
  apply C21_object_keeps_the_last; auto. exists (la ++ lb), (ka ++ kb). eexists. split; [|split; [reflexivity|split; [apply Forall2_app; assumption|split; assumption]]].
  apply obj_two; auto; [exact (bound_nonempty _ _ _ _ La Fa NA)|exact (bound_nonempty _ _ _ _ Lb Fb NB)].
Qed.

(** Overlaying settings: the members of a patch, a struct with the same fields made optional, are
    appended to the text of a struct. Fields that the patch mentions get their values from it,
    the others keep theirs. *)
Definition patch_of (fs : list (bytes * ty)) : list (bytes * ty) := map (fun f => (fst f, TOption (snd f))) fs.
Definition patched (va vb : list val) : list val :=
  map (fun p => match snd p with VSome w => w | _ => fst p end) (combine va vb).
Lemma fieldat_nodup fs n i T : NoDup (map fst fs) -> nth_error fs i = Some (n, T) -> FieldAt fs n i T.
Proof.
  intros ND H. split; [exact H|]. intros j T' Hj H'. rewrite NoDup_nth_error in ND.
  assert (i = j); [|lia]. apply ND; [rewrite map_length; apply nth_error_Some; congruence|]. rewrite !nth_error_map, H, H'. reflexivity.
Qed.
Lemma patch_nth fs i : nth_error (patch_of fs) i = option_map (fun f => (fst f, TOption (snd f))) (nth_error fs i).
Proof. apply nth_error_map. Qed.
Lemma fieldat_patch fs n i T : FieldAt fs n i T -> FieldAt (patch_of fs) n i (TOption T).
Proof.
  intros [H L]. split; [rewrite patch_nth, H; reflexivity|]. intros j T' Hj. rewrite patch_nth. destruct (nth_error fs j) as [[n' T2]|] eqn:E; [|discriminate].
  cbn. intros Q. injection Q as -> _. exact (L j T2 Hj E).
Qed.
Lemma combine_nth {A B} (la : list A) (lb : list B) i p : nth_error (combine la lb) i = Some p -> nth_error la i = Some (fst p) /\ nth_error lb i = Some (snd p).
Proof.
  revert lb i. induction la as [|a la IH]; intros [|b lb] [|i] H; cbn in *; try discriminate; [injection H as <-; auto|apply IH, H].
Qed.
Theorem C71_patch E k oc id id' fs a b lb va vb :
  nth_error E id = Some (DStruct fs) -> nth_error E id' = Some (DStruct (patch_of fs)) -> NoDup (map fst fs) ->
  env_ok E = true -> (wrap_depth E (TNamed id) < k)%nat -> (wrap_depth E (TNamed id') < k)%nat ->
  text_ok (123 :: a ++ [125]) -> text_ok (123 :: b ++ [125]) -> text_ok (123 :: (a ++ 44 :: b) ++ [125]) ->
  from_str E k oc (TNamed id) (123 :: a ++ [125]) = Ok (VStruct va) -> ~ JText (DObj []) (123 :: a ++ [125]) ->
  from_str E k oc (TNamed id') (123 :: b ++ [125]) = Ok (VStruct vb) ->
  JText (DObj lb) (123 :: b ++ [125]) -> lb <> [] -> Forall (fun kd => snd kd <> DNull) lb ->
  from_str E k oc (TNamed id) (123 :: (a ++ 44 :: b) ++ [125]) = Ok (VStruct (patched va vb)).
Proof.
  intros HF HF' ND HE Hk Hk' Ha Hb Hx A NA B JB NB NN.
  apply from_str_reads in A; auto. destruct A as (da & Ja & Ra). inversion Ra as [| | | | | | | | | | | | | | | | | | | | |id0 fs0 la va0 HF0 RA MA LA FA|]; subst.
  rewrite HF in HF0. injection HF0 as <-.
  apply from_str_reads in B; auto. destruct B as (db & Jb & Rb). rewrite (JText_unique _ _ _ Jb JB) in Rb. inversion Rb as [| | | | | | | | | | | | | | | | | | | | |id0 fs0 lb0 vb0 HF0 RB MB LB FB|]; subst.
  rewrite HF' in HF0. injection HF0 as <-. assert (LB' : List.length vb = List.length fs) by (rewrite LB; apply map_length).
  assert (NLa : la <> []) by (intros ->; exact (NA Ja)).
  apply from_str_reads; auto. exists (DObj (la ++ lb)). split; [apply obj_two; auto|].
  assert (UN : forall T d v, d <> DNull -> Reads E (TOption T) d v -> exists w, v = VSome w /\ Reads E T d w).
  { intros T d v ND' R. inversion R; subst; [congruence|eauto]. }
  rewrite Forall_forall in NN. eapply rd_struct; [exact HF| | | |].
  - apply Forall_app; auto.
  - intros n d i T HI Hn. apply in_app_or in HI. destruct HI as [HI|HI]; [exact (MA n d i T HI Hn)|].
    destruct (MB n d i _ HI (fieldat_patch _ _ _ _ Hn)) as (v & R). destruct (UN _ _ _ (NN _ HI) R) as (w & _ & R'). eauto.
  - unfold patched. rewrite map_length, combine_length. lia.
  - intros i n T v Hi Hv. unfold patched in Hv. rewrite nth_error_map in Hv. destruct (nth_error (combine va vb) i) as [[x y]|] eqn:EC; [|discriminate].
    cbn in Hv. injection Hv as <-. apply combine_nth in EC. cbn [fst snd] in EC. destruct EC as [Ex Ey].
    pose proof (fieldat_nodup _ _ _ _ ND Hi) as FI. assert (Hi' : nth_error (patch_of fs) i = Some (n, TOption T)) by (rewrite patch_nth, Hi; reflexivity).
    destruct (FB i n _ y Hi' Ey) as [(FI' & d & LBn & R)|([NF|NIN] & _ & ->)].
    + assert (HI : In (n, d) lb) by (destruct LBn as (l1 & l2 & -> & _); apply in_or_app; right; left; reflexivity).
      destruct (UN _ _ _ (NN _ HI) R) as (w & -> & R'). left. split; [exact FI|]. exists d. split; [|exact R'].
      destruct LBn as (l1 & l2 & -> & FL). exists (la ++ l1), l2. rewrite <- app_assoc. auto.
    + destruct (NF (fieldat_patch _ _ _ _ FI)).
    + destruct (FA i n T x Hi Ex) as [(_ & d & (l1 & l2 & -> & FL) & R)|(NX & HT & ->)].
      * left. split; [exact FI|]. exists d. split; [|exact R]. exists l1, (l2 ++ lb). rewrite <- app_assoc. split; [reflexivity|]. apply Forall_app. split; [exact FL|].
        apply Forall_forall. intros [n' d'] HI E0. cbn in E0. subst n'. exact (NIN d' HI).
      * right. split; [|auto]. destruct NX as [NX|NX]; [auto|]. right. intros d HI. apply in_app_or in HI. destruct HI as [HI|HI]; [exact (NX d HI)|exact (NIN d HI)].
Qed.

(** String literals: the contents of two literals in a row are the two strings in a row. *)
Theorem C71_strings E k oc p q s t :
  env_ok E = true -> (wrap_depth E TString < k)%nat ->
  text_ok (34 :: p ++ [34]) -> text_ok (34 :: q ++ [34]) -> text_ok (34 :: (p ++ q) ++ [34]) ->
  from_str E k oc TString (34 :: p ++ [34]) = Ok (VStr s) -> from_str E k oc TString (34 :: q ++ [34]) = Ok (VStr t) ->
  from_str E k oc TString (34 :: (p ++ q) ++ [34]) = Ok (VStr (s ++ t)).
Proof.
  intros HE Hk Hp Hq Hx A B.
  assert (BODY : forall p s, text_ok (34 :: p ++ [34]) -> from_str E k oc TString (34 :: p ++ [34]) = Ok (VStr s) -> StrBody p s).
  { intros p0 s0 Hp0 H. apply from_str_reads in H; auto. destruct H as (d & Hd & HR). inversion HR; subst. apply outer in Hd; [|lia..].
    inversion Hd as [| | |s' y (b & E0 & Hb) E1 E2| | | | |]; subst. injection E0 as E0. apply app_inj_tail in E0. destruct E0 as [-> _]. exact Hb. }
  pose proof (body_app _ _ _ _ (BODY _ _ Hp A) (BODY _ _ Hq B)) as H. apply C06_string_decoding; auto.
  exists [], (p ++ q), []. split; [reflexivity|]. repeat split; try constructor. exact H.
Qed.

(** ** Writing *)
Lemma render_two ryu ta tb : ta <> [] -> tb <> [] -> exists a b,
  render itoa ryu (STSeq ta) = 91 :: a ++ [93] /\ render itoa ryu (STSeq tb) = 91 :: b ++ [93] /\ render itoa ryu (STSeq (ta ++ tb)) = 91 :: (a ++ 44 :: b) ++ [93].
Proof.
  intros NA NB. exists (commas (map (render itoa ryu) ta)), (commas (map (render itoa ryu) tb)). cbn [render]. split; [reflexivity|]. split; [reflexivity|].
  destruct ta as [|x ta]; [congruence|]. destruct tb as [|y tb]; [congruence|].
  change ((x :: ta) ++ y :: tb) with (x :: (ta ++ y :: tb)). rewrite !commas_tail, flat_map_app, <- !app_assoc. reflexivity.
Qed.
(** The text of a Vec is the texts of its pieces with a comma between; a HashMap inside makes the text depend on the order of iteration. *)
Theorem C71_written_vec E hm ryu k T va vb sa sb s :
  setting E hm ryu k (TVec T) -> env_no_hash E -> no_hash T = true ->
  has_type E (TVec T) (VSeq va) -> has_type E (TVec T) (VSeq vb) -> va <> [] -> vb <> [] ->
  to_string_is E hm ryu k (TVec T) (VSeq va) sa -> to_string_is E hm ryu k (TVec T) (VSeq vb) sb ->
  to_string_is E hm ryu k (TVec T) (VSeq (va ++ vb)) s ->
  exists a b, sa = 91 :: a ++ [93] /\ sb = 91 :: b ++ [93] /\ s = 91 :: (a ++ 44 :: b) ++ [93].
Proof.
  intros HS NH NT Ta Tb NA NB Sa Sb Ss.
  assert (Tx : has_type E (TVec T) (VSeq (va ++ vb))) by (inversion Ta; subst; inversion Tb; subst; constructor; apply Forall_app; auto).
  destruct (written_tree _ _ _ _ _ _ _ HS Ta Sa) as (ta & _ & Wa & _ & -> & _).
  destruct (written_tree _ _ _ _ _ _ _ HS Tb Sb) as (tb & _ & Wb & _ & -> & _).
  destruct (written_tree _ _ _ _ _ _ _ HS Tx Ss) as (t & _ & W & _ & -> & _).
  inversion Wa as [| | | | | | | | | | | T1 l1 tsa Fa| | | | | | | |]; subst. inversion Wb as [| | | | | | | | | | |T2 l2 tsb Fb| | | | | | | |]; subst.
  assert (W' : Writes E (TVec T) (VSeq (va ++ vb)) (STSeq (tsa ++ tsb))) by (constructor; apply Forall2_app; assumption).
  rewrite (writes_unique E _ NH (TVec T) _ _ NT W W').
  apply render_two; [intros ->; inversion Fa; congruence|intros ->; inversion Fb; congruence].
Qed.
(** Escaping is done character by character: what is printed between the quotes for s ++ t is what is
    printed for s followed by what is printed for t. *)
Theorem C71_written_string E hm ryu k s t p q :
  setting E hm ryu k TString -> str_ok s = true -> str_ok t = true ->
  to_string_is E hm ryu k TString (VStr s) (34 :: p ++ [34]) -> to_string_is E hm ryu k TString (VStr t) (34 :: q ++ [34]) ->
  to_string_is E hm ryu k TString (VStr (s ++ t)) (34 :: (p ++ q) ++ [34]).
Proof.
  intros HS Hs Ht A B.
  assert (Q : forall s p, str_ok s = true -> to_string_is E hm ryu k TString (VStr s) (34 :: p ++ [34]) -> p = flat_map quote_char s).
  { intros s0 p0 H0 H. pose proof (to_string_fun _ _ _ _ _ _ _ _ H (proj1 (C30_strings_round_trip E hm ryu k true s0 HS H0))) as E0.
    unfold quote in E0. injection E0 as E0. apply app_inj_tail in E0. tauto. }
  rewrite (Q s p Hs A), (Q t q Ht B), <- flat_map_app.
  assert (H : str_ok (s ++ t) = true) by (apply str_ok_spec, utf8_app; apply str_ok_spec; assumption).
  exact (proj1 (C30_strings_round_trip E hm ryu k true _ HS H)).
Qed.

(** Without the conditions this is false: an empty piece leaves a comma too many, and the cut must be
    between elements. *)
Theorem C71_empty_pieces_refuted :
  from_str [] 3 true (TVec TBool) (bs "[]") = Ok (VSeq []) /\ from_str [] 3 true (TVec TBool) (bs "[true]") = Ok (VSeq [VBool true]) /\
  from_str [] 3 true (TVec TBool) (bs "[,true]") = Err /\ from_str [] 3 true (TVec TBool) (bs "[true,]") = Err.
Proof. repeat split; vm_compute; reflexivity. Qed.
Theorem C71_cuts_elsewhere_refuted :
  from_str [] 3 true (TVec TString) (bs "["",""]") = Ok (VSeq [VStr (bs ",")]) /\ from_str [] 3 true (TVec TString) (bs "[""]") = Err /\
  from_str [] 3 true TString (bs """\ud83d\ude00""") = Ok (VStr [240; 159; 152; 128]) /\ from_str [] 3 true TString (bs """\ud83d""") = Err.
Proof. repeat split; vm_compute; reflexivity. Qed.
(** In a patch null is not the absence of a member. *)
Definition ex_settings : list (bytes * ty) := [(bs "host", TString); (bs "port", TInt false 16); (bs "proxy", TOption TString)].
Definition ex_senv : env := [DStruct ex_settings; DStruct (patch_of ex_settings)].
Theorem C71_patch_null_refuted :
  from_str ex_senv 5 true (TNamed 1) (bs "{""port"":null}") = Ok (VStruct [VNone; VNone; VNone]) /\
  from_str ex_senv 5 true (TNamed 0) (bs "{""host"":""a"",""port"":1}") = Ok (VStruct [VStr (bs "a"); VInt 1; VNone]) /\
  from_str ex_senv 5 true (TNamed 0) (bs "{""host"":""a"",""port"":1,""port"":null}") = Err.
Proof. repeat split; vm_compute; reflexivity. Qed.

(** ** Concrete cases *)
Example ex_C71_arrays : let T := TPair (TInt false 8) TBool in
  ty_ok (TVec T) = true /\ (wrap_depth [] (TVec T) < 4)%nat /\ text_ok (bs "[" ++ with_commas [bs " [1,true]"; bs "[2, false] ,[3,true]"] ++ bs "]") /\
  from_str [] 4 true (TVec T) (bs "[ [1,true]]") = Ok (VSeq [VPair (VInt 1) (VBool true)]) /\
  from_str [] 4 true (TVec T) (bs "[[2, false] ,[3,true]]") = Ok (VSeq [VPair (VInt 2) (VBool false); VPair (VInt 3) (VBool true)]) /\
  from_str [] 4 true (TVec T) (bs "[ [1,true],[2, false] ,[3,true]]") = Ok (VSeq [VPair (VInt 1) (VBool true); VPair (VInt 2) (VBool false); VPair (VInt 3) (VBool true)]).
Proof. split; [reflexivity|]. split; [vm_compute; lia|]. split; [text_ok|]. split; [vm_compute; reflexivity|]. split; vm_compute; reflexivity. Qed.
Example ex_C71_maps : let T := TMap false (KInt false 8) TBool in
  from_str [] 4 true T (bs "{""1"":true,""2"":true}") = Ok (VMap [(VInt 1, VBool true); (VInt 2, VBool true)]) /\
  from_str [] 4 true T (bs "{""02"":false,""3"":true}") = Ok (VMap [(VInt 2, VBool false); (VInt 3, VBool true)]) /\
  from_str [] 4 true T (bs "{""1"":true,""2"":true,""02"":false,""3"":true}") = Ok (VMap [(VInt 1, VBool true); (VInt 2, VBool false); (VInt 3, VBool true)]).
Proof. split; [vm_compute; reflexivity|]. split; vm_compute; reflexivity. Qed.
Example ex_C71_patch : NoDup (map fst ex_settings) /\
  text_ok (bs "{" ++ (bs """host"":""a"",""port"":1" ++ 44 :: bs """port"": 80, ""x"": {}") ++ bs "}") /\
  from_str ex_senv 5 true (TNamed 1) (bs "{""port"": 80, ""x"": {}}") = Ok (VStruct [VNone; VSome (VInt 80); VNone]) /\
  patched [VStr (bs "a"); VInt 1; VNone] [VNone; VSome (VInt 80); VNone] = [VStr (bs "a"); VInt 80; VNone] /\
  from_str ex_senv 5 true (TNamed 0) (bs "{""host"":""a"",""port"":1,""port"": 80, ""x"": {}}") = Ok (VStruct [VStr (bs "a"); VInt 80; VNone]).
Proof.
  split; [repeat constructor; cbn; intuition discriminate|]. split; [text_ok|]. split; [vm_compute; reflexivity|]. split; vm_compute; reflexivity.
Qed.
Example ex_C71_strings : from_str [] 3 true TString (bs """a\u00e9""") = Ok (VStr [97; 195; 169]) /\ from_str [] 3 true TString (bs """\n""") = Ok (VStr [10]) /\
  from_str [] 3 true TString (bs """a\u00e9\n""") = Ok (VStr [97; 195; 169; 10]).
Proof. split; [vm_compute; reflexivity|]. split; vm_compute; reflexivity. Qed.
