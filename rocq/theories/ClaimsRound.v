(** C58: round trips lift through containers and derived structs, whatever the user-defined
    types at the leaves do. *)
From Coq Require Import String ZArith List Bool Lia Permutation Floats.SpecFloat.
From Verif Require Import Base Utf8 Utf8Facts F64 Lexer Driver Grammar LexSpec DocSpec Reading Types Impls Ser SerSpec RenderFacts RenderRuns TypedFacts Tree TreeFacts ReadFacts RunText RunText FromStr UserTypes UserSpec UserText ExactPrint FloatRT ClaimsWrite ClaimsNum ClaimsSer ClaimsUser ClaimsClosed OpenSer OpenSerSpec ClaimsOpenSer Unambiguous RoundSpec.
Import ListNotations.
Open Scope nat_scope.

Section Round.
Context {G St X K SQ MP : Type}.
Variable U : user St X K SQ MP.
Variable ryu : f64 -> bytes.
Variable oc : bool.
Hypothesis HU : rust_like U.
Notation writes := (writes U ryu).
Notation comes_back T c a := (comes_back (G := G) U ryu oc T c a).
Notation val := (cval X K).

Lemma commas_joined ss : commas ss = joined ss.
Proof. induction ss as [|s [|s' ss] IH]; reflexivity. Qed.
Lemma array_good ss : Forall good ss -> text_ok (array_text ss) /\ json_text (array_text ss).
Proof.
  intros HG. split; [apply array_ok, HG|]. apply json_text_tree. destruct (goods ss HG) as (ds & ts & H1 & _ & H3).
  exists (DArr ds), (PSeq ts true). split; [apply array_jtext, H1|]. rewrite tree_of_arr, H3. reflexivity.
Qed.
Lemma members_good ms : Forall good_member ms -> text_ok (members_text ms) /\ json_text (members_text ms).
Proof.
  intros HG. split; [apply members_ok, HG|]. apply json_text_tree. destruct (good_members ms HG) as (ds & ts & D1 & D2 & _).
  exists (DObj ds), (PMap ts true). split; [apply members_json, D1|]. rewrite tree_of_obj, D2. reflexivity.
Qed.
Lemma quote_key k : str_ok k = true -> text_ok (quote k) /\ key_text (quote k) k.
Proof.
  intros Hk. assert (J : JText (DStr k) (quote k)). { exists [], (quote k), []. rewrite app_nil_r. split; [reflexivity|]. split; [constructor|]. split; [|constructor]. constructor. apply quote_text_ok, Hk. }
  split; [|exact J]. split; [|apply quote_runs; [exact Hk|unfold i32_MAX; lia]].
  apply str_ok_spec, (quote_printable k Hk).
Qed.

(** The elements, one after the other. *)
Lemma each_back {A} (T : utype G A) : forall cs l, Forall2 (fun c a => comes_back T c a) cs l -> forall st g,
  exists ss st' g', each U ryu cs st (Ok ss) st' /\ Forall good ss /\ from_str_each T oc ss g = (Ok l, g') /\ List.length ss = List.length l.
Proof.
  intros cs l H. induction H as [|c a cs l HC H IH]; intros st g.
  - exists [], st, g. split; [constructor|]. split; [constructor|]. split; reflexivity.
  - destruct (HC st g) as (s & st1 & g1 & W & O & J & R). destruct (IH st1 g1) as (ss & st2 & g2 & E & F & FE & L).
    exists (s :: ss), st2, g2. split; [apply (ea_cons U ryu c cs st s st1 (Ok ss) st2 W E)|]. split; [constructor; [split; assumption|exact F]|].
    split; [cbn [from_str_each]; rewrite R, FE; reflexivity|cbn; rewrite L; reflexivity].
Qed.

Theorem C58_vec {A} (T : utype G A) cs l : quiet T -> fills T ->
  Forall2 (fun c a => comes_back T c a) cs l -> comes_back (uvec T) (CSlice cs) l.
Proof.
  intros HQ HF H st g. destruct (each_back T cs l H st g) as (ss & st' & g' & E & F & FE & _). exists (array_text ss), st', g'. destruct (array_good ss F) as [O J].
  split; [apply (C57_slice U ryu HU); exists (Ok ss); split; [exact E|cbn [in_brackets]; rewrite commas_joined; reflexivity]|].
  split; [exact O|]. split; [exact J|]. rewrite C56_vec_text by assumption. exact FE.
Qed.
Theorem C58_array {A} (T : utype G A) cs l : quiet T -> fills T ->
  Forall2 (fun c a => comes_back T c a) cs l -> comes_back (uarr T (List.length l)) (CSlice cs) l.
Proof.
  intros HQ HF H st g. destruct (each_back T cs l H st g) as (ss & st' & g' & E & F & FE & L). exists (array_text ss), st', g'. destruct (array_good ss F) as [O J].
  split; [apply (C57_slice U ryu HU); exists (Ok ss); split; [exact E|cbn [in_brackets]; rewrite commas_joined; reflexivity]|].
  split; [exact O|]. split; [exact J|]. rewrite C56_array_text by assumption. cbv zeta. rewrite firstn_all2 by lia. rewrite FE. cbn [fst snd]. rewrite L, Nat.eqb_refl. reflexivity.
Qed.
Theorem C58_pair {A B} (TA : utype G A) (TB : utype G B) ca cb a b : quiet TA -> fills TA -> quiet TB -> fills TB ->
  comes_back TA ca a -> comes_back TB cb b -> comes_back (upair TA TB) (CPair ca cb) (a, b).
Proof.
  intros QA FA QB FB HA HB st g. destruct (HA st g) as (s1 & st1 & g1 & W1 & O1 & J1 & R1). destruct (HB st1 g1) as (s2 & st2 & g2 & W2 & O2 & J2 & R2).
  assert (F : Forall good [s1; s2]) by (constructor; [split; assumption|constructor; [split; assumption|constructor]]).
  exists (array_text [s1; s2]), st2, g2. destruct (array_good _ F) as [O J].
  split; [apply (C57_pair U ryu HU); exists (Ok [s1; s2]); split; [|cbn [in_brackets]; rewrite commas_joined; reflexivity]|].
  { apply (ea_cons U ryu ca _ st s1 st1 (Ok [s2]) st2 W1). apply (ea_cons U ryu cb [] st1 s2 st2 (Ok []) st2 W2). constructor. }
  split; [exact O|]. split; [exact J|]. rewrite C56_pair_text by (assumption || (split; assumption)). rewrite R1, R2. reflexivity.
Qed.
Theorem C58_box {A} (T : utype G A) c a : quiet T -> fills T -> comes_back T c a -> comes_back (ubox T) (CRef c) a.
Proof.
  intros HQ HF H st g. destruct (H st g) as (s & st' & g' & W & O & J & R). exists s, st', g'. split; [apply (C57_reference U ryu), W|]. split; [exact O|]. split; [exact J|].
  rewrite C56_box_text by (assumption || (split; assumption)). exact R.
Qed.
(** None; and Some(t), if t is not written as null. *)
Theorem C58_none {A} (T : utype G A) : quiet T -> fills T -> comes_back (uopt T) (COption None) None.
Proof.
  intros HQ HF st g. exists (bs "null"), st, g. split; [apply (C57_option U ryu None); split; reflexivity|].
  assert (J : JText DNull (bs "null")). { exists [], (bs "null"), []. split; [reflexivity|]. split; [constructor|]. split; constructor. }
  assert (O : text_ok (bs "null")) by ClaimsParse.text_ok.
  assert (JT : json_text (bs "null")) by (exists DNull; split; [exact J|constructor]).
  split; [exact O|]. split; [exact JT|]. rewrite (C56_option_text G A T oc DNull) by (assumption || (split; assumption)). reflexivity.
Qed.
Theorem C58_some {A} (T : utype G A) c a : quiet T -> fills T -> not_null U ryu c -> comes_back T c a ->
  comes_back (uopt T) (COption (Some c)) (Some a).
Proof.
  intros HQ HF HN H st g. destruct (H st g) as (s & st' & g' & W & O & J & R). exists s, st', g'. split; [apply (C57_option U ryu (Some c)), W|]. split; [exact O|]. split; [exact J|].
  destruct J as (d & Hd & HL). rewrite (C56_option_text G A T oc d) by (assumption || (split; [assumption|exists d; split; assumption])).
  rewrite R. destruct d; try reflexivity. destruct (HN _ _ _ W Hd).
Qed.
(** Maps: the entries are inserted in the order in which they were written. *)
Theorem C58_map {Key M A} parse (empty : M) (insert : Key -> A -> M -> M) (T : utype G A) entries kvs : quiet T -> fills T ->
  Forall2 (fun e kv => key_comes_back U parse (fst e) (fst kv) /\ comes_back T (snd e) (snd kv)) entries kvs ->
  comes_back (umap parse empty insert T) (CMap entries) (fold_left (fun m kv => insert (fst kv) (snd kv) m) kvs empty).
Proof.
  intros HQ HF H st g.
  assert (E : forall m, exists ms st' g', each_entry U ryu entries st (Ok (map (fun m => fst (fst m) ++ 58%Z :: snd m) ms)) st' /\ Forall good_member ms /\
    from_str_entries T oc parse insert (members_of ms) g m = (Ok (fold_left (fun m kv => insert (fst kv) (snd kv) m) kvs m), g')).
  { revert st g. induction H as [|[k c] [key a] es kvs' [HK HC] H IH]; intros st g m.
    - exists [], st, g. split; [constructor|]. split; [constructor|]. reflexivity.
    - cbn [fst snd] in *. destruct (HK st g) as (ks & st1 & g1 & XK & PK). destruct (HC st1 g1) as (s & st2 & g2 & W & O & J & R). destruct (IH st2 g2 (insert key a m)) as (ms & st3 & g3 & EE & F & FE).
      assert (SK : str_ok ks = true) by (eapply (proj2 (proj2 (proj2 (proj2 (proj2 (proj2 HU)))) k st)), XK). destruct (quote_key ks SK) as [QO QK].
      exists ((quote ks, ks, s) :: ms), st3, g3. split; [cbn [map fst snd]; apply (ee_cons U ryu k c es st ks st1 s st2 (Ok _) st3 XK W EE)|].
      split; [constructor; [split; [exact QO|split; [exact QK|split; assumption]]|exact F]|].
      cbn [members_of map fst snd from_str_entries fold_left]. rewrite PK, R. exact FE. }
  destruct (E empty) as (ms & st' & g' & EE & F & FE). destruct (members_good ms F) as [O J]. exists (members_text ms), st', g'.
  split; [apply (C57_map U ryu HU); eexists; split; [exact EE|cbn [in_braces]; rewrite commas_joined; unfold members_text, object_text; rewrite map_map; reflexivity]|].
  split; [exact O|]. split; [exact J|]. rewrite C56_map_text by assumption. exact FE.
Qed.
(** Derived structs with distinct field names and defaults that do not fail. *)
Theorem C58_struct (fs : list (ufield G)) cs (vs : fvals fs) :
  Forall (fun f => regular (f_u f)) fs -> NoDup (map f_name fs) ->
  (forall f, In f fs -> forall g, exists o g', u_default (f_u f) g = (Ok o, g')) ->
  fields_come_back U ryu oc fs cs vs -> comes_back (ustruct fs) (CStruct cs) vs.
Proof.
  intros HR HN HD HC st g.
  assert (DE : forall g, exists ps g', defaults fs g = (Ok ps, g')).
  { clear - HD. induction fs as [|f fs IH]; intros g; [exists tt, g; reflexivity|]. destruct (HD f (or_introl eq_refl) g) as (o & g1 & E). destruct (IH (fun f' H => HD f' (or_intror H)) g1) as (ps & g2 & E2).
    exists (o, ps), g2. cbn [defaults]. rewrite E. cbv zeta. rewrite E2. reflexivity. }
  destruct (DE g) as (ps & g1 & ED).
  assert (W : exists ms st' g', each U ryu (map snd cs) st (Ok (map snd ms)) st' /\ map (fun m => (fst (fst m), snd m)) ms = combine (map (fun c => quote (text (fst c))) cs) (map snd ms) /\ List.length ms = List.length cs /\
    map fst (members_of ms) = map f_name fs /\ Forall good_member ms /\
    exists ps', from_str_fields oc fs (members_of ms) g1 ps = (Ok ps', g') /\ all_some fs ps' = Some vs).
  { clear ED DE HR HD g. revert cs vs st g1 ps HC HN. induction fs as [|f fs IH]; intros [|[n c] cs] vs st g ps HC HN; try contradiction.
    - exists [], st, g. split; [constructor|]. split; [reflexivity|]. split; [reflexivity|]. split; [reflexivity|]. split; [constructor|]. exists ps. split; [reflexivity|]. destruct vs. reflexivity.
    - destruct HC as (EN & HC & HC'). inversion HN as [|? ? NI HN']; subst. destruct ps as [o ps]. destruct vs as [v vs]. cbn [fst snd] in *.
      destruct (HC st g) as (s & st1 & g1 & W & O & J & R). destruct (IH cs vs st1 g1 ps HC' HN') as (ms & st2 & g2 & EE & CB & LL & NM & F & ps' & FE & AS).
      destruct (quote_key (text n) (text_utf8 n)) as [QO QK].
      exists ((quote (text n), text n, s) :: ms), st2, g2. split; [apply (ea_cons U ryu c (map snd cs) st s st1 (Ok (map snd ms)) st2 W EE)|].
      split; [cbn [map fst snd combine]; rewrite CB; reflexivity|]. split; [cbn; rewrite LL; reflexivity|].
      split; [cbn [members_of map fst snd]; fold (members_of ms); rewrite NM, EN; reflexivity|].
      split; [constructor; [split; [exact QO|split; [exact QK|split; assumption]]|exact F]|].
      exists (Some v, ps'). split.
      + cbn [members_of map fst snd]. fold (members_of ms). cbn [from_str_fields from_str_field fst snd]. destruct (list_eq_dec Z.eq_dec (text n) (f_name f)) as [_|NE]; [|contradiction]. rewrite R. cbn [rmap fst snd].
        assert (NI' : ~ In (f_name f) (map fst (members_of ms))) by (rewrite NM; exact NI).
        pose proof (fields_absent oc f fs (members_of ms) g1 (Some v) ps NI') as K1. cbv zeta in K1. rewrite FE in K1. exact K1.
      + cbn [all_some fst snd]. rewrite AS. reflexivity. }
  destruct W as (ms & st' & g' & EE & CB & LL & NM & F & ps' & FE & AS). destruct (members_good ms F) as [O J].
  exists (members_text ms), st', g'. split.
  { apply (C57_struct U ryu HU). exists (Ok (map snd ms)). split; [exact EE|]. cbn [with_names in_braces]. rewrite commas_joined. unfold members_text, object_text. f_equal. f_equal. f_equal. f_equal. rewrite CB.
    clear. revert cs. induction ms as [|m ms IH]; intros [|[n c] cs]; try reflexivity. cbn [map combine fst snd]. rewrite IH. reflexivity. }
  split; [exact O|]. split; [exact J|]. rewrite C56_struct_text by assumption. unfold from_str_struct. rewrite ED. cbv zeta. rewrite FE. cbn [fst snd rmap]. rewrite AS. reflexivity.
Qed.
End Round.

(** The crate's own types at the leaves. *)
Section Leaves.
Context {St X K SQ MP : Type}.
Variable U : user St X K SQ MP.
Variable ryu : f64 -> bytes.
Variable oc : bool.
Hypothesis HU : rust_like U.
Notation comes_back T c a := (comes_back (G := unit) U ryu oc T c a).

(** A type of the universe of C35, if the two models of to_string write the same text. *)
Lemma leaf_back E k A (T : utype unit A) f tau c a :
  models E T f tau -> ty_ok tau = true -> env_ok E = true -> wrap_depth E tau < k ->
  (forall a', f a' = f a -> a' = a) ->
  (forall st, exists s st', writes U ryu c st (Ok s) st' /\ text_ok s /\ from_str E k oc tau s = Ok (f a)) ->
  comes_back T c a.
Proof.
  intros HM HT HE Hk HF H st []. destruct (H st) as (s & st' & W & O & R). pose proof (C56_agrees_with_closed_model E A T f tau oc k s HM O Hk) as AG. rewrite R in AG.
  destruct (user_from_str T oc s tt) as [[a'| |x] []] eqn:EU; cbn [fst rmap] in AG; try discriminate AG. injection AG as AG. rewrite (HF a' AG) in EU.
  exists s, st', tt. split; [exact W|]. split; [exact O|]. split; [|exact EU].
  apply from_str_reads in R; auto. destruct R as (d & Hd & HR). exists d. split; [exact Hd|]. apply ClaimsParse.readable_lits; [eapply JText_doc_ok, Hd|]. eapply reads_readable; eassumption.
Qed.
Lemma int_range sg b n : bits_ok b = true -> int_ok sg b n = true -> (if sg then - 2 ^ 63 <= n < 2 ^ 63 else 0 <= n < 2 ^ 64)%Z.
Proof.
  intros HB. unfold bits_ok in HB. rewrite !orb_true_iff, !Z.eqb_eq in HB. unfold int_ok, int_min, int_max. rewrite andb_true_iff, !Z.leb_le.
  assert (P : (0 <= b - 1 <= 63 /\ 0 <= b <= 64)%Z) by lia. pose proof (Z.pow_le_mono_r 2 (b - 1) 63 ltac:(lia) ltac:(lia)) as P1. pose proof (Z.pow_le_mono_r 2 b 64 ltac:(lia) ltac:(lia)) as P2.
  destruct sg; lia.
Qed.
Lemma int_text_back sg b n : bits_ok b = true -> int_ok sg b n = true -> text_ok (itoa n) /\ from_str [] 4 oc (TInt sg b) (itoa n) = Ok (VInt n).
Proof.
  intros HB Hn. assert (HS : setting [] ClaimsWrite.id_order exact_print 4 (TInt sg b)).
  { split; [exact HB|]. split; [reflexivity|]. split; [reflexivity|]. split; [intros m l; apply Permutation_refl|]. split; [apply exact_print_ok|cbn; lia]. }
  destruct (C27_typed _ _ _ _ _ _ HS (ht_int _ _ _ _ Hn)) as (t & A & _ & C).
  assert (C' : to_string_is [] ClaimsWrite.id_order exact_print 4 (TInt sg b) (VInt n) (itoa n)) by (exists 1%nat; inversion A; subst; exact C).
  split; [apply limit_i32; [eapply text_of_ok|eapply written_runs]; eauto using ht_int|].
  destruct (C31_integers_round_trip _ _ _ _ oc _ _ _ HS Hn) as (s & [N1 T] & _ & R). destruct C' as [N2 T2].
  specialize (T (N1 + N2)%nat ltac:(lia)). specialize (T2 (N1 + N2)%nat ltac:(lia)). rewrite T in T2. injection T2 as <-. exact R.
Qed.
Lemma f32_text_back x : ryu_ok ryu -> f32_ok x = true -> f_is_finite x = true ->
  text_ok (ryu (f64_of_f32 x)) /\ from_str [] 4 oc TF32 (ryu (f64_of_f32 x)) = Ok (VF32 x) /\ f_is_finite (f64_of_f32 x) = true.
Proof.
  intros HR V F. assert (HS : setting [] ClaimsWrite.id_order ryu 4 TF32).
  { split; [reflexivity|]. split; [reflexivity|]. split; [reflexivity|]. split; [intros m l; apply Permutation_refl|]. split; [exact HR|cbn; lia]. }
  pose proof (f32_tree [] _ ryu 4 x HS V) as HX. rewrite F in HX. destruct (widen_spec x V) as (V' & F' & _).
  split; [apply limit_i32; [eapply text_of_ok|eapply written_runs]; eauto using ht_f32|]. split; [|congruence].
  destruct (C32_f32_round_trip _ _ _ _ oc _ HS V F) as (s & [N1 T] & R). destruct HX as [N2 T2].
  specialize (T (N1 + N2)%nat ltac:(lia)). specialize (T2 (N1 + N2)%nat ltac:(lia)). rewrite T in T2. injection T2 as <-. exact R.
Qed.
Theorem C58_scalars :
  comes_back (uleaf TUnit) CUnit VUnit /\
  (forall b, comes_back (uleaf TBool) (CBool b) (VBool b)) /\
  (forall s, comes_back (uleaf TString) (CStr s) (VStr (text s))) /\
  (forall b n, bits_ok b = true -> int_ok false b n = true -> comes_back (uleaf (TInt false b)) (CUnsigned n) (VInt n)) /\
  (forall b n, bits_ok b = true -> int_ok true b n = true -> comes_back (uleaf (TInt true b)) (CSigned n) (VInt n)) /\
  (forall x, ryu_ok ryu -> f32_ok x = true -> f_is_finite x = true -> comes_back (uleaf TF32) (CFloat (f64_of_f32 x)) (VF32 x)).
Proof.
  assert (SM : forall tau, scalar_ty tau = true -> models [] (uleaf tau) (fun v => v) tau) by (intros tau; apply C56_scalars_model_closed).
  split; [|split; [|split; [|split; [|split]]]].
  - eapply (leaf_back [] 4); [apply SM; reflexivity|reflexivity|reflexivity|cbn; lia|auto|]. intros st. exists (bs "null"), st.
    split; [apply (C57_scalars U ryu); split; reflexivity|]. split; [ClaimsParse.text_ok|]. destruct oc; vm_compute; reflexivity.
  - intros b. eapply (leaf_back [] 4); [apply SM; reflexivity|reflexivity|reflexivity|cbn; lia|auto|]. intros st. exists (bs (if b then "true" else "false")), st.
    split; [apply (C57_scalars U ryu st); split; reflexivity|]. destruct b; (split; [ClaimsParse.text_ok|destruct oc; vm_compute; reflexivity]).
  - intros s. eapply (leaf_back [] 4); [apply SM; reflexivity|reflexivity|reflexivity|cbn; lia|auto|]. intros st. exists (quote (text s)), st.
    split; [apply (C57_scalars U ryu st); split; reflexivity|]. destruct (quote_key (text s) (text_utf8 s)) as [QO QK]. split; [exact QO|].
    apply from_str_reads; try reflexivity; [exact QO|cbn; lia|]. exists (DStr (text s)). split; [exact QK|constructor].
  - intros b n HB Hn. eapply (leaf_back [] 4); [apply SM; reflexivity|exact HB|reflexivity|cbn; lia|auto|]. intros st. destruct (int_text_back false b n HB Hn) as [O R]. exists (itoa n), st.
    split; [|split; [exact O|exact R]]. apply (C57_scalars U ryu st); [|split; reflexivity]. apply (int_range false b n HB Hn).
  - intros b n HB Hn. eapply (leaf_back [] 4); [apply SM; reflexivity|exact HB|reflexivity|cbn; lia|auto|]. intros st. destruct (int_text_back true b n HB Hn) as [O R]. exists (itoa n), st.
    split; [|split; [exact O|exact R]]. apply (C57_scalars U ryu st); [|split; reflexivity]. apply (int_range true b n HB Hn).
  - intros x HR V F. eapply (leaf_back [] 4); [apply SM; reflexivity|reflexivity|reflexivity|cbn; lia|auto|]. intros st. destruct (f32_text_back x HR V F) as (O & R & F'). exists (ryu (f64_of_f32 x)), st.
    split; [|split; [exact O|exact R]]. apply (C57_scalars U ryu st). rewrite F'. split; reflexivity.
Qed.
End Leaves.

(** An example: the user-defined type of ClaimsUser (it logs the strings it reads, refuses
    "bad" and panics on "boom"), and a Serialize impl for it that logs what it writes; inside
    struct S { name: T, tag: Option<T>, rest: Vec<(Box<T>, [T; 2])> }. *)
Definition log_user : user (list bytes) rstr Empty_set Empty_set Empty_set := {|
  x_begin := fun x st => (Ok (FStr (text x)), text x :: st);
  x_seq_next := fun q : Empty_set => match q with end;
  x_map_next := fun m : Empty_set => match m with end;
  x_seq_drop := fun q : Empty_set => match q with end;
  x_map_drop := fun m : Empty_set => match m with end;
  x_key := fun k : Empty_set => match k with end |}.
Example ex_log_user : rust_like log_user.
Proof.
  split; [|split; [intros []|split; [intros []|split; [intros []|split; intros []]]]].
  intros x st. split; [left; eexists; reflexivity|]. intros s st' E. injection E as <- _. apply text_utf8.
Qed.
Lemma log_writes x st r st' : writes log_user exact_print (CUser x) st r st' <-> r = Ok (quote (text x)) /\ st' = text x :: st.
Proof.
  assert (L : writes log_user exact_print (CUser x) st (Ok (quote (text x))) (text x :: st)).
  { exists 1%nat. split; [|discriminate]. unfold to_string_impl. cbn [ser_loop log_user open_iface i_begin c_begin x_begin ser_turn]. rewrite EscFacts.escape_str_eq by apply text_utf8. reflexivity. }
  split; [|intros [-> ->]; exact L]. intros H. destruct (C57_one_outcome _ _ ex_log_user _ _ _ _ L) as [_ D]. apply (D _ _ H).
Qed.
Lemma shout_back oc x : text x <> bs "bad" -> text x <> bs "boom" -> comes_back log_user exact_print oc shout (CUser x) (text x).
Proof.
  intros N1 N2 st g. destruct (quote_key (text x) (text_utf8 x)) as [QO QK]. exists (quote (text x)), (text x :: st), (text x :: g).
  split; [apply log_writes; split; reflexivity|]. split; [exact QO|]. split; [exists (DStr (text x)); split; [exact QK|constructor]|].
  rewrite (from_str_json shout oc (DStr (text x)) _ (PLeaf (EStr (text x))) g QO shout_quiet QK eq_refl). cbn -[bs].
  destruct (list_eq_dec Z.eq_dec (text x) (bs "bad")); [contradiction|]. destruct (list_eq_dec Z.eq_dec (text x) (bs "boom")); [contradiction|]. reflexivity.
Qed.
Definition w (s : string) (H : str_ok (bs s) = true) : cval rstr Empty_set := CUser (mk_rstr (bs s) H).
Definition s_value : cval rstr Empty_set :=
  CStruct [(mk_rstr (bs "name") eq_refl, w "one" eq_refl); (mk_rstr (bs "tag") eq_refl, COption (Some (w "null" eq_refl)));
           (mk_rstr (bs "rest") eq_refl, CSlice [CPair (CRef (w "a""b" eq_refl)) (CSlice [w "" eq_refl; w "c" eq_refl])])].
Example ex_round_trip oc :
  comes_back log_user exact_print oc (ustruct s_fields) s_value (bs "one", (Some (bs "null"), ([(bs "a""b", [[]; bs "c"])], tt))).
Proof.
  assert (SH : forall x H, bs x <> bs "bad" -> bs x <> bs "boom" -> comes_back log_user exact_print oc shout (w x H) (bs x)) by (intros x H; apply (shout_back oc (mk_rstr (bs x) H))).
  destruct shout_regular as (HQ & HF & _). apply (C58_struct _ _ _ ex_log_user).
  - exact (proj2 s_members_good).
  - repeat (constructor; [cbn [In map f_name]; intros E; repeat (destruct E as [E|E]; [discriminate E|]); exact E|]). constructor.
  - intros f H g. repeat (destruct H as [<-|H]; [eexists; eexists; reflexivity|]). destruct H.
  - split; [reflexivity|]. split; [apply SH; discriminate|]. split; [reflexivity|]. split.
    { apply C58_some; [exact HQ|exact HF| |apply SH; discriminate]. intros st s st' H J. apply log_writes in H. destruct H as [E _]. injection E as ->.
      pose proof (proj2 (quote_key (bs "null") eq_refl)) as QK. pose proof (Unambiguous.JText_unique _ _ _ QK J) as K. discriminate K. }
    split; [reflexivity|]. split; [|exact Logic.I].
    destruct (C56_containers_are_regular (list bytes)) as (R1 & R2 & _ & _). destruct (R1 _ shout HQ) as (_ & Ra & _ & Rb).
    pose proof (R2 _ _ (ubox shout) (uarr shout 2) (proj1 Rb) (proj1 (Ra 2))) as Rp.
    apply (C58_vec _ _ _ ex_log_user); [exact (proj1 Rp)|exact (proj1 (proj2 Rp))|].
    constructor; [|constructor]. apply (C58_pair _ _ _ ex_log_user); [exact (proj1 Rb)|exact (proj1 (proj2 Rb))|exact (proj1 (Ra 2))|exact (proj1 (proj2 (Ra 2)))| |].
    + apply C58_box; [exact HQ|exact HF|]. apply SH; discriminate.
    + apply (C58_array _ _ _ ex_log_user shout [w "" eq_refl; w "c" eq_refl] [[]; bs "c"] HQ HF). constructor; [apply (SH ""%string); discriminate|]. constructor; [apply (SH "c"%string); discriminate|constructor].
Qed.
