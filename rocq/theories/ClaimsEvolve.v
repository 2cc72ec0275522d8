(** C60: values read back as another type than they were written as: schema evolution. *)
From Coq Require Import String ZArith List Bool Lia Permutation.
From Verif Require Import Base Utf8 Utf8Facts F64 Lexer Driver Grammar LexSpec DocSpec Reading Types Impls Ser SerSpec RenderFacts RenderRuns TypedFacts Tree TreeFacts ReadFacts RunText FromStr UserTypes UserSpec UserText ExactPrint ClaimsUser ClaimsClosed OpenSer OpenSerSpec ClaimsOpenSer RoundSpec ClaimsRound EvolveSpec.
Import ListNotations.
Open Scope nat_scope.

Section Evolve.
Context {G St X K SQ MP : Type}.
Variable U : user St X K SQ MP.
Variable ryu : f64 -> bytes.
Variable oc : bool.
Hypothesis HU : rust_like U.
Notation writes := (writes U ryu).
Notation comes_back T c a := (comes_back (G := G) U ryu oc T c a).
Notation val := (cval X K).

(** Members written one after the other, by a struct or by a map. *)
Section Members.
Context {E : Type}.
Variable pre : E -> St -> St -> Prop.
Variable name : E -> bytes.
Variable value : E -> val.
Hypothesis pre_total : forall e st, exists st', pre e st st'.
Hypothesis name_ok : forall (st : St) e, str_ok (name e) = true.
Inductive emits : list E -> St -> list (bytes * bytes * bytes) -> St -> Prop :=
| em_nil st : emits [] st [] st
| em_cons e l st st1 s st2 ms st3 : pre e st st1 -> writes (value e) st1 (Ok s) st2 -> emits l st2 ms st3 ->
    emits (e :: l) st ((quote (name e), name e, s) :: ms) st3.
Notation named l := (map (fun e => (name e, value e)) l).

(** What is still to come, and what the slots hold. *)
Fixpoint slots_ok (fs : list (ufield G)) (l : list (bytes * val)) : fopts fs -> fvals fs -> Prop :=
  match fs with
  | [] => fun _ _ => True
  | f :: fs' => fun ps vs =>
      ((exists c, In (f_name f, c) l /\ comes_back (f_u f) c (fst vs)) \/ ~ In (f_name f) (map fst l) /\ fst ps = Some (fst vs)) /\
      slots_ok fs' l (snd ps) (snd vs)
  end.
Lemma slots_done fs ps vs : slots_ok fs [] ps vs -> all_some fs ps = Some vs.
Proof.
  revert ps vs. induction fs as [|f fs IH]; intros ps vs; [destruct vs; reflexivity|]. destruct ps as [o ps], vs as [v vs]. cbn [slots_ok all_some fst snd].
  intros [[(c & [] & _)|[_ ->]] H]. rewrite (IH _ _ H). reflexivity.
Qed.
Lemma slots_other fs n c l ps vs : ~ In n (map f_name fs) -> slots_ok fs ((n, c) :: l) ps vs -> slots_ok fs l ps vs.
Proof.
  revert ps vs. induction fs as [|f fs IH]; intros ps vs NI; [auto|]. destruct ps as [o ps], vs as [v vs]. cbn [slots_ok fst snd map In] in *.
  intros [H1 H2]. split; [|apply IH; [tauto|exact H2]]. destruct H1 as [(c' & [E'|I'] & CB)|[N ->]].
  - injection E' as -> ->. tauto.
  - left. eauto.
  - right. split; [tauto|reflexivity].
Qed.
Lemma skip_field (fs : list (ufield G)) n s g (ps : fopts fs) : ~ In n (map f_name fs) -> from_str_field oc fs n s g ps = None.
Proof.
  revert ps. induction fs as [|f fs IH]; intros ps NI; [reflexivity|]. cbn [from_str_field map In] in *.
  destruct (list_eq_dec Z.eq_dec n (f_name f)) as [->|_]; [tauto|]. rewrite IH by tauto. reflexivity.
Qed.
Lemma one_member fs n c l ps vs : NoDup (map f_name fs) -> ~ In n (map fst l) -> In n (map f_name fs) -> slots_ok fs ((n, c) :: l) ps vs -> forall st g,
  exists s st' g' ps', writes c st (Ok s) st' /\ good s /\ from_str_field oc fs n s g ps = Some (Ok ps', g') /\ slots_ok fs l ps' vs.
Proof.
  revert ps vs. induction fs as [|f fs IH]; intros ps vs ND NL IN H st g; [destruct IN|]. inversion ND as [|? ? NI ND']; subst. destruct ps as [o ps], vs as [v vs]. cbn [slots_ok fst snd map In] in *. destruct H as [H1 H2].
  destruct (list_eq_dec Z.eq_dec n (f_name f)) as [->|NE].
  - destruct H1 as [(c' & [E'|I'] & CB)|[N _]]; [|destruct NL; apply (in_map fst) in I'; exact I'|tauto]. injection E' as ->.
    destruct (CB st g) as (s & st' & g' & W & O & J & R). exists s, st', g', (Some v, ps). split; [exact W|]. split; [split; assumption|].
    split; [cbn [from_str_field]; destruct (list_eq_dec Z.eq_dec (f_name f) (f_name f)) as [_|K1]; [|contradiction]; rewrite R; reflexivity|].
    cbn [slots_ok fst snd]. split; [right; split; [exact NL|reflexivity]|]. eapply slots_other; eassumption.
  - destruct IN as [E'|IN]; [congruence|]. destruct (IH ps vs ND' NL IN H2 st g) as (s & st' & g' & ps' & W & GD & R & SO).
    exists s, st', g', (o, ps'). split; [exact W|]. split; [exact GD|]. split.
    + cbn [from_str_field fst snd]. destruct (list_eq_dec Z.eq_dec n (f_name f)) as [K1|_]; [contradiction|]. rewrite R. reflexivity.
    + cbn [slots_ok fst snd]. split; [|exact SO]. destruct H1 as [(c' & [E'|I'] & CB)|[N E']]; [congruence|left; eauto|right; split; [tauto|exact E']].
Qed.
Lemma all_members fs : NoDup (map f_name fs) -> forall l ps vs, NoDup (map name l) -> slots_ok fs (named l) ps vs ->
  (forall e, In e l -> ~ In (name e) (map f_name fs) -> is_written U ryu (value e)) -> forall st g,
  exists ms st' g' ps', emits l st ms st' /\ Forall good_member ms /\ from_str_fields oc fs (members_of ms) g ps = (Ok ps', g') /\ all_some fs ps' = Some vs.
Proof.
  intros ND l. induction l as [|e l IH]; intros ps vs NL H HW st g.
  - exists [], st, g, ps. split; [constructor|]. split; [constructor|]. split; [reflexivity|]. apply slots_done, H.
  - inversion NL as [|? ? NI NL']; subst. destruct (pre_total e st) as (st1 & P). destruct (quote_key (name e) (name_ok st e)) as [QO QK]. cbn [map] in H.
    assert (NI' : ~ In (name e) (map fst (named l))) by (rewrite map_map; exact NI).
    destruct (in_dec (list_eq_dec Z.eq_dec) (name e) (map f_name fs)) as [IN|OUT].
    + destruct (one_member fs _ _ _ ps vs ND NI' IN H st1 g) as (s & st2 & g2 & ps2 & W & [GO GJ] & R & SO).
      destruct (IH ps2 vs NL' SO (fun e' I' => HW e' (or_intror I')) st2 g2) as (ms & st3 & g3 & ps3 & EM & F & FE & AS).
      exists ((quote (name e), name e, s) :: ms), st3, g3, ps3. split; [econstructor; eassumption|]. split; [constructor; [split; [exact QO|split; [exact QK|split; assumption]]|exact F]|].
      split; [|exact AS]. cbn [members_of map fst snd from_str_fields]. rewrite R. exact FE.
    + destruct (HW e (or_introl eq_refl) OUT st1) as (s & st2 & W & GO & GJ).
      destruct (IH ps vs NL' (slots_other _ _ _ _ _ _ OUT H) (fun e' I' => HW e' (or_intror I')) st2 g) as (ms & st3 & g3 & ps3 & EM & F & FE & AS).
      exists ((quote (name e), name e, s) :: ms), st3, g3, ps3. split; [econstructor; eassumption|]. split; [constructor; [split; [exact QO|split; [exact QK|split; assumption]]|exact F]|].
      split; [|exact AS]. cbn [members_of map fst snd from_str_fields]. rewrite skip_field by exact OUT. exact FE.
Qed.
Lemma from_slots fs l vs g : (forall f, In f fs -> forall g, exists o g', u_default (f_u f) g = (Ok o, g')) ->
  fields_from U ryu oc fs l vs -> exists ps g', defaults fs g = (Ok ps, g') /\ slots_ok fs l ps vs.
Proof.
  revert vs g. induction fs as [|f fs IH]; intros vs g HD H; [exists tt, g; split; [reflexivity|exact Logic.I]|]. destruct vs as [v vs]. destruct H as [H1 H2]. cbn [fst snd] in *.
  destruct H1 as [H1|[NI DF]].
  - destruct (HD f (or_introl eq_refl) g) as (o & g1 & E1). destruct (IH vs g1 (fun f' I' => HD f' (or_intror I')) H2) as (ps & g2 & E2 & SO).
    exists (o, ps), g2. cbn [defaults]. rewrite E1. cbv zeta. rewrite E2. split; [reflexivity|]. cbn [slots_ok fst snd]. split; [left; exact H1|exact SO].
  - destruct (DF g) as (g1 & E1). destruct (IH vs g1 (fun f' I' => HD f' (or_intror I')) H2) as (ps & g2 & E2 & SO).
    exists (Some v, ps), g2. cbn [defaults]. rewrite E1. cbv zeta. rewrite E2. split; [reflexivity|]. cbn [slots_ok fst snd]. split; [right; split; [exact NI|reflexivity]|exact SO].
Qed.
Lemma members_struct fs l vs (c : val) : Forall (fun f => regular (f_u f)) fs -> NoDup (map f_name fs) ->
  (forall f, In f fs -> forall g, exists o g', u_default (f_u f) g = (Ok o, g')) -> NoDup (map name l) -> fields_from U ryu oc fs (named l) vs ->
  (forall e, In e l -> ~ In (name e) (map f_name fs) -> is_written U ryu (value e)) ->
  (forall st ms st', emits l st ms st' -> writes c st (Ok (members_text ms)) st') -> comes_back (ustruct fs) c vs.
Proof.
  intros HR ND HD NL H HW WR st g. destruct (from_slots fs _ vs g HD H) as (ps & g1 & ED & SO).
  destruct (all_members fs ND l ps vs NL SO HW st g1) as (ms & st' & g' & ps' & EM & F & FE & AS). destruct (members_good ms F) as [O J].
  exists (members_text ms), st', g'. split; [apply WR, EM|]. split; [exact O|]. split; [exact J|].
  rewrite C56_struct_text by assumption. unfold from_str_struct. rewrite ED. cbv zeta. rewrite FE. cbn [fst snd rmap]. rewrite AS. reflexivity.
Qed.
End Members.

Lemma struct_emits cs st ms st' : emits (fun (_ : rstr * val) (a b : St) => a = b) (fun c => text (fst c)) snd cs st ms st' -> writes (CStruct cs) st (Ok (members_text ms)) st'.
Proof.
  intros H. apply (C57_struct U ryu HU). exists (Ok (map snd ms)).
  assert (K1 : each U ryu (map snd cs) st (Ok (map snd ms)) st' /\ map (fun m : bytes * bytes * bytes => fst (fst m) ++ 58%Z :: snd m) ms = map (fun ns => quote (fst ns) ++ 58%Z :: snd ns) (combine (map (fun f => text (fst f)) cs) (map snd ms))).
  { induction H as [st|e l st st1 s st2 ms st3 <- W EM [IH1 IH2]]; [split; [constructor|reflexivity]|]. split; [apply (ea_cons U ryu _ _ _ _ _ (Ok (map snd ms)) _ W IH1)|]. cbn [map combine fst snd]. rewrite IH2. reflexivity. }
  destruct K1 as [K1 K2]. split; [exact K1|]. cbn [with_names in_braces]. rewrite commas_joined. unfold members_text, object_text. f_equal. f_equal. f_equal. f_equal. rewrite map_map. exact K2.
Qed.
Lemma map_emits nm es st ms st' : emits (fun (e : K * val) a b => x_key U (fst e) a = (Ok (nm (fst e)), b)) (fun e => nm (fst e)) snd es st ms st' -> writes (CMap es) st (Ok (members_text ms)) st'.
Proof.
  intros H. apply (C57_map U ryu HU). exists (Ok (map (fun m : bytes * bytes * bytes => fst (fst m) ++ 58%Z :: snd m) ms)). split.
  - induction H as [st|e l st st1 s st2 ms st3 P W EM IH]; [constructor|]. destruct e as [k c]. cbn [fst snd] in *. apply (ee_cons U ryu k c l st _ st1 s st2 (Ok _) st3 P W IH).
  - cbn [in_braces]. rewrite commas_joined. unfold members_text, object_text. rewrite map_map. reflexivity.
Qed.

(** A struct read as another struct: fields may be in another order, fields that the reader
    does not know are skipped, and fields that were not written take their default. *)
Theorem C60_struct (fs : list (ufield G)) cs (vs : fvals fs) :
  Forall (fun f => regular (f_u f)) fs -> NoDup (map f_name fs) -> NoDup (map (fun c => text (fst c)) cs) ->
  (forall f, In f fs -> forall g, exists o g', u_default (f_u f) g = (Ok o, g')) ->
  (forall n c, In (n, c) cs -> ~ In (text n) (map f_name fs) -> is_written U ryu c) ->
  fields_from U ryu oc fs (map (fun c => (text (fst c), snd c)) cs) vs ->
  comes_back (ustruct fs) (CStruct cs) vs.
Proof.
  intros HR ND NC HD HW H. apply (members_struct (fun (_ : rstr * val) (a b : St) => a = b) (fun c => text (fst c)) snd) with (l := cs); try assumption.
  - intros e st. exists st. reflexivity.
  - intros _ e. apply text_utf8.
  - intros [n c] I1. apply (HW n c I1).
  - intros st ms st' EM. apply struct_emits, EM.
Qed.
(** A map read as a struct, if its keys always have the same texts, distinct ones. *)
Theorem C60_map_as_struct (fs : list (ufield G)) nm es (vs : fvals fs) :
  Forall (fun f => regular (f_u f)) fs -> NoDup (map f_name fs) -> (forall k, key_is U k (nm k)) -> NoDup (map (fun e => nm (fst e)) es) ->
  (forall f, In f fs -> forall g, exists o g', u_default (f_u f) g = (Ok o, g')) ->
  (forall k c, In (k, c) es -> ~ In (nm k) (map f_name fs) -> is_written U ryu c) ->
  fields_from U ryu oc fs (map (fun e => (nm (fst e), snd e)) es) vs ->
  comes_back (ustruct fs) (CMap es) vs.
Proof.
  intros HR ND HK NC HD HW H. apply (members_struct (fun (e : K * val) a b => x_key U (fst e) a = (Ok (nm (fst e)), b)) (fun e => nm (fst e)) snd) with (l := es); try assumption.
  - intros [k c] st. apply (HK k st).
  - intros st [k c]. cbn [fst]. destruct (HK k st) as (st' & E). eapply (proj2 (proj2 (proj2 (proj2 (proj2 (proj2 HU)))) k st)), E.
  - intros [k c] I1. apply (HW k c I1).
  - intros st ms st' EM. apply (map_emits nm), EM.
Qed.
(** A struct read as a map: the entries are inserted in the order of the fields. *)
Theorem C60_struct_as_map {Key M A} parse (empty : M) (insert : Key -> A -> M -> M) (T : utype G A) cs kvs : quiet T -> fills T ->
  Forall2 (fun (c : rstr * val) kv => (forall g, exists g', parse (text (fst c)) g = (Ok (fst kv), g')) /\ comes_back T (snd c) (snd kv)) cs kvs ->
  comes_back (umap parse empty insert T) (CStruct cs) (fold_left (fun m kv => insert (fst kv) (snd kv) m) kvs empty).
Proof.
  intros HQ HF H st g.
  assert (E : forall m, exists ms st' g', emits (fun (_ : rstr * val) (a b : St) => a = b) (fun c => text (fst c)) snd cs st ms st' /\ Forall good_member ms /\
    from_str_entries T oc parse insert (members_of ms) g m = (Ok (fold_left (fun m kv => insert (fst kv) (snd kv) m) kvs m), g')).
  { revert st g. induction H as [|[n c] [key a] cs kvs' [HK HC] H IH]; intros st g m.
    - exists [], st, g. split; [constructor|]. split; [constructor|]. reflexivity.
    - cbn [fst snd] in *. destruct (HK g) as (g1 & PK). destruct (HC st g1) as (s & st2 & g2 & W & O & J & R). destruct (IH st2 g2 (insert key a m)) as (ms & st3 & g3 & EE & F & FE).
      destruct (quote_key (text n) (text_utf8 n)) as [QO QK].
      exists ((quote (text n), text n, s) :: ms), st3, g3. split; [econstructor; [reflexivity|exact W|exact EE]|].
      split; [constructor; [split; [exact QO|split; [exact QK|split; assumption]]|exact F]|].
      cbn [members_of map fst snd from_str_entries fold_left]. rewrite PK, R. exact FE. }
  destruct (E empty) as (ms & st' & g' & EE & F & FE). destruct (members_good ms F) as [O J]. exists (members_text ms), st', g'.
  split; [apply struct_emits, EE|]. split; [exact O|]. split; [exact J|]. rewrite C56_map_text by assumption. exact FE.
Qed.

(** A value read as an option or boxed; a pair read as a vector or an array; a slice of two
    read as a pair. *)
Theorem C60_as_option {A} (T : utype G A) c a : quiet T -> fills T -> not_null U ryu c -> comes_back T c a -> comes_back (uopt T) c (Some a).
Proof.
  intros HQ HF HN H st g. destruct (H st g) as (s & st' & g' & W & O & J & R). exists s, st', g'. split; [exact W|]. split; [exact O|]. split; [exact J|].
  destruct J as (d & Hd & HL). rewrite (C56_option_text G A T oc d) by (assumption || (split; [assumption|exists d; split; assumption])).
  rewrite R. destruct d; try reflexivity. destruct (HN _ _ _ W Hd).
Qed.
Theorem C60_as_box {A} (T : utype G A) c a : quiet T -> fills T -> comes_back T c a -> comes_back (ubox T) c a.
Proof.
  intros HQ HF H st g. destruct (H st g) as (s & st' & g' & W & O & J & R). exists s, st', g'. split; [exact W|]. split; [exact O|]. split; [exact J|].
  rewrite C56_box_text by (assumption || (split; assumption)). exact R.
Qed.
Lemma same_writer {A} (T : utype G A) c c' a : (forall st r st', writes c st r st' <-> writes c' st r st') -> comes_back T c a -> comes_back T c' a.
Proof.
  intros HE H st g. destruct (H st g) as (s & st' & g' & W & R). exists s, st', g'. split; [apply HE, W|exact R].
Qed.
Lemma pair_slice ca cb st r st' : writes (CSlice [ca; cb]) st r st' <-> writes (CPair ca cb) st r st'.
Proof. rewrite (C57_slice U ryu HU), (C57_pair U ryu HU). reflexivity. Qed.
Theorem C60_pairs_and_slices {A B} (TA : utype G A) (TB : utype G B) ca cb a b : quiet TA -> fills TA -> quiet TB -> fills TB ->
  comes_back TA ca a ->
  (comes_back TB cb b -> comes_back (upair TA TB) (CSlice [ca; cb]) (a, b)) /\
  (forall a', comes_back TA cb a' -> comes_back (uvec TA) (CPair ca cb) [a; a'] /\ comes_back (uarr TA 2) (CPair ca cb) [a; a']).
Proof.
  intros QA FA QB FB HA. split.
  - intros HB. eapply same_writer; [intros; symmetry; apply pair_slice|]. apply (C58_pair _ _ _ HU); assumption.
  - intros a' HA'. split; (eapply same_writer; [intros; apply pair_slice|]); [apply (C58_vec _ _ _ HU)|apply (C58_array _ _ _ HU TA [ca; cb] [a; a'])]; auto.
Qed.
End Evolve.

(** An integer read as any integer type that has it; a unit variant read as a string (a
    string as a unit variant: ClaimsEnum.v). *)
Section Leaves.
Context {St X K SQ MP : Type}.
Variable U : user St X K SQ MP.
Variable ryu : f64 -> bytes.
Variable oc : bool.
Hypothesis HU : rust_like U.
Notation comes_back T c a := (comes_back (G := unit) U ryu oc T c a).
Theorem C60_integers sg b n : bits_ok b = true -> int_ok sg b n = true ->
  ((0 <= n < 2 ^ 64)%Z -> comes_back (uleaf (TInt sg b)) (CUnsigned n) (VInt n)) /\
  ((- 2 ^ 63 <= n < 2 ^ 63)%Z -> comes_back (uleaf (TInt sg b)) (CSigned n) (VInt n)).
Proof.
  intros HB Hn. destruct (int_text_back oc sg b n HB Hn) as [O R].
  split; intros RG; (eapply (leaf_back U ryu oc [] 4); [apply C56_scalars_model_closed; reflexivity|exact HB|reflexivity|cbn; lia|auto|]; intros st; exists (itoa n), st; split; [|split; [exact O|exact R]]; apply (C57_scalars U ryu st); [exact RG|split; reflexivity]).
Qed.
Theorem C60_variant_as_string name : comes_back (uleaf TString) (CVariant name) (VStr (text name)).
Proof.
  eapply same_writer; [|apply (proj1 (proj2 (proj2 (C58_scalars U ryu oc)))) with (s := name)]. intros st r st'. destruct (C57_scalars U ryu st r st') as (_ & _ & H1 & _ & _ & _ & H2). rewrite H1, H2. reflexivity.
Qed.
End Leaves.

(** An example: { a: u8, b: String, extra: Vec<bool> } written, { b: Box<String>, tag: Option<bool>,
    a: Option<i64> } read. *)
Definition wrote : cval rstr Empty_set :=
  CStruct [(mk_rstr (bs "a") eq_refl, CUnsigned 7%Z); (mk_rstr (bs "b") eq_refl, CStr (mk_rstr (bs "x") eq_refl)); (mk_rstr (bs "extra") eq_refl, CSlice [CBool true])].
Definition reader_fields : list (ufield unit) :=
  [{| f_name := bs "b"; f_u := ubox (uleaf TString) |}; {| f_name := bs "tag"; f_u := uopt (uleaf TBool) |}; {| f_name := bs "a"; f_u := uopt (uleaf (TInt true 64)) |}].
Example ex_evolve oc : comes_back log_user exact_print oc (ustruct reader_fields) wrote (VStr (bs "x"), (None, (Some (VInt 7), tt))).
Proof.
  assert (SM : forall tau, scalar_ty tau = true -> regular (uleaf tau)) by (intros tau HS; apply (C56_scalars_model_closed [] tau HS)).
  destruct (C56_containers_are_regular unit) as (R1 & _). destruct (C58_scalars log_user exact_print oc) as (_ & LB & LS & _).
  apply (C60_struct _ _ _ ex_log_user).
  - constructor; [apply R1, SM; reflexivity|]. constructor; [apply R1, SM; reflexivity|]. constructor; [apply R1, SM; reflexivity|constructor].
  - repeat (constructor; [cbn [map f_name In]; intros E; repeat (destruct E as [E|E]; [discriminate E|]); exact E|]). constructor.
  - repeat (constructor; [cbn [map fst text In]; intros E; repeat (destruct E as [E|E]; [discriminate E|]); exact E|]). constructor.
  - intros f H g. repeat (destruct H as [<-|H]; [eexists; eexists; reflexivity|]). destruct H.
  - intros n c [E|[E|[E|[]]]]; injection E as <- <-; intros NI; try (destruct NI; cbn; tauto).
    intros st. destruct (SM TBool eq_refl) as (Q & F & _).
    destruct (C58_vec (G := unit) _ _ oc ex_log_user (uleaf TBool) [CBool true] [VBool true] Q F (Forall2_cons _ _ (LB true) (Forall2_nil _)) st tt) as (s & st' & _ & W & O & J & _). eauto.
  - split; [left; eexists; split; [right; left; reflexivity|]|split; [right|split; [left; eexists; split; [left; reflexivity|]|exact Logic.I]]].
    + apply C60_as_box; [apply SM; reflexivity|apply SM; reflexivity|]. apply (LS (mk_rstr (bs "x") eq_refl)).
    + split; [cbn [map fst In text]; intros E; repeat (destruct E as [E|E]; [discriminate E|]); exact E|]. intros []. exists tt. reflexivity.
    + apply C60_as_option; [apply SM; reflexivity|apply SM; reflexivity| |].
      * intros st s st' W J. apply (C57_scalars log_user exact_print st) in W; [|lia]. destruct W as [E _]. injection E as ->.
        destruct J as (w1 & t & w2 & E & H1 & H2 & H3). inversion H2; subst. change (itoa 7) with (bs "7") in E. destruct w1 as [|c w1]; [discriminate E|]. injection E as <- E. inversion H1 as [|? ? K1 _]; subst. destruct K1 as [K1|[K1|[K1|K1]]]; discriminate K1.
      * apply C60_integers; [reflexivity|reflexivity|lia].
Qed.
