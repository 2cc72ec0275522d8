(** C57, continued: in the open world, whatever to_string returns is JSON; and what a reader
    makes of it. *)
From Coq Require Import String ZArith List Bool Lia Reals Floats.SpecFloat.
From Flocq Require Import Core.Core.
From Verif Require Import Base Utf8 Utf8Facts F64 Lexer Driver Grammar LexSpec DocSpec NumValue Reading Types Impls Ser SerSpec SerFacts RenderFacts RenderRuns FloatRT RunFacts RunText FromStr UserTypes UserSpec UserText ExactPrint ClaimsNum ClaimsSer ClaimsUser OpenSer OpenSerSpec OpenSerMain ClaimsOpenSer OpenNumSpec RoundSpec ClaimsRound EvolveSpec ClaimsEvolve.
Import ListNotations.
Open Scope Z_scope.

(** Trees with such floats. *)
Fixpoint tree_floats (fp : f64 -> Prop) (t : stree) : Prop :=
  match t with
  | STF64 f => fp f
  | STSeq l => fold_right (fun t P => tree_floats fp t /\ P) True l
  | STMap l => fold_right (fun kt P => tree_floats fp (snd kt) /\ P) True l
  | _ => True
  end.

Section World.
Context {St X K SQ MP : Type}.
Variable U : user St X K SQ MP.
Variable fp : f64 -> Prop.
Hypothesis HU : rust_like U.
Hypothesis HN : numbers_are U fp.
Hypothesis HF : forall f, fp f -> f64_ok f = true.
Notation I := (open_iface U).

Lemma begin_are : forall c st f st', floats_are fp c -> c_begin U c st = (Ok f, st') -> frag_are fp f.
Proof.
  destruct HN as (H1 & _ & _). fix IH 1. intros c st f' st'. destruct c as [x| |b|s|n|n|f|c|[c|]|a b|l|l|fs|name]; intros H E; try (injection E as <- <-; exact H).
  - eapply H1, E.
  - injection E as <- <-. cbn. unfold wrap_u, u64_MAX. pose proof (Z.mod_pos_bound n (2 ^ 64) ltac:(lia)). lia.
  - injection E as <- <-. cbn. unfold wrap_s, i64_MIN, i64_MAX. pose proof (Z.mod_pos_bound (n + 2 ^ (64 - 1)) (2 ^ 64) ltac:(lia)). lia.
  - exact (IH c st f' st' H E).
  - exact (IH c st f' st' H E).
Qed.
Lemma seq_next_are q st c q' st' : seq_are fp q -> o_seq_next U q st = (Ok (Some c), q', st') -> floats_are fp c /\ seq_are fp q'.
Proof.
  destruct HN as (_ & H2 & _). destruct q as [q|[|d l]|a b n]; cbn [o_seq_next seq_are]; intros H E.
  - destruct (x_seq_next U q st) as [[r q1] st1] eqn:EQ. injection E as -> <- <-. split; [eapply H2, EQ|exact Logic.I].
  - discriminate E.
  - injection E as <- <- <-. exact H.
  - destruct n as [|[|n]]; [injection E as <- <- <-; (split; [apply H|exact H])..|discriminate E].
Qed.
Lemma seq_next_same q st o q' st' : seq_are fp q -> o_seq_next U q st = (Ok o, q', st') -> seq_are fp q'.
Proof.
  destruct o as [c|]; [intros H E; eapply seq_next_are; eassumption|]. destruct q as [q|[|d l]|a b n]; cbn [o_seq_next seq_are]; intros H E.
  - destruct (x_seq_next U q st) as [[r q1] st1] eqn:EQ. injection E as -> <- <-. exact Logic.I.
  - injection E as <- _. exact H.
  - discriminate E.
  - destruct n as [|[|n]]; [discriminate E..|]. injection E as <- _. exact H.
Qed.
Lemma field_are l n nc : floats_are fp (CStruct l : cval X K) -> nth_error l n = Some nc -> floats_are fp (snd nc).
Proof.
  revert n. induction l as [|x l IH]; intros [|n]; cbn [nth_error]; intros H E; try discriminate E; destruct H as [H1 H2]; [injection E as <-; exact H1|eapply IH; eassumption].
Qed.
Lemma map_next_are m st k c m' st' : map_are fp m -> o_map_next U m st = (Ok (Some (k, c)), m', st') -> floats_are fp c /\ map_are fp m'.
Proof.
  destruct HN as (_ & _ & H3). destruct m as [m|[|[k0 d] l]|l n]; cbn [o_map_next map_are]; intros H E.
  - destruct (x_map_next U m st) as [[r m1] st1] eqn:EQ. injection E as -> <- <-. split; [eapply H3, EQ|exact Logic.I].
  - discriminate E.
  - destruct (x_key U k0 st) as [[s| |f] st1]; try discriminate E. injection E as _ <- <- _. exact H.
  - destruct (nth_error l n) as [nc|] eqn:EN; [|discriminate E]. injection E as _ <- <- _. split; [eapply field_are; eassumption|exact H].
Qed.
Lemma described : 
  (forall c st t st', Describes I c st t st' -> floats_are fp c -> stree_ok t = true /\ tree_floats fp t) /\
  (forall f st t st', FragDescribes I f st t st' -> frag_are fp f -> (forall s, f = FStr s -> str_ok s = true) -> stree_ok t = true /\ tree_floats fp t) /\
  (forall q st l st', SeqDescribes I q st l st' -> seq_are fp q -> stree_ok (STSeq l) = true /\ tree_floats fp (STSeq l)) /\
  (forall m st l st', MapDescribes I m st l st' -> map_are fp m -> stree_ok (STMap l) = true /\ tree_floats fp (STMap l)).
Proof.
  destruct (open_valid U HU) as [V1 V2]. apply Describes_mutind.
  - intros c st f st1 t st2 E _ IH H. apply IH; [eapply begin_are; eassumption|]. intros s ->. eapply V1, E.
  - intros. split; [reflexivity|exact Logic.I].
  - intros. split; [reflexivity|exact Logic.I].
  - intros s st _ H. split; [apply H; reflexivity|exact Logic.I].
  - intros n st H _. split; [|exact Logic.I]. cbn in *. rewrite andb_true_iff, !Z.leb_le. exact H.
  - intros n st H _. split; [|exact Logic.I]. cbn in *. rewrite andb_true_iff, !Z.leb_le. exact H.
  - intros f st H _. split; [apply HF, H|exact H].
  - intros q st l st' _ IH H _. apply IH, H.
  - intros m st l st' _ IH H _. apply IH, H.
  - intros. split; [reflexivity|exact Logic.I].
  - intros q st c q' st1 t st2 l st3 E _ IH1 _ IH2 H. destruct (seq_next_are _ _ _ _ _ H E) as [H1 H2]. destruct (IH1 H1) as [A1 A2], (IH2 H2) as [B1 B2].
    cbn [stree_ok forallb tree_floats fold_right] in *. rewrite A1, B1. split; [reflexivity|]. split; assumption.
  - intros. split; [reflexivity|exact Logic.I].
  - intros m st k c m' st1 t st2 l st3 E _ IH1 _ IH2 H. destruct (map_next_are _ _ _ _ _ _ H E) as [H1 H2]. destruct (IH1 H1) as [A1 A2], (IH2 H2) as [B1 B2].
    cbn [stree_ok forallb tree_floats fold_right fst snd] in *. rewrite A1, B1, (V2 _ _ _ _ _ _ E). split; [reflexivity|]. split; assumption.
Qed.
Lemma written_tree_ok ryu c st s st' : floats_are fp c -> writes U ryu c st (Ok s) st' -> exists t, stree_ok t = true /\ tree_floats fp t /\ s = render itoa ryu t.
Proof.
  intros H (fuel & E & _). destruct (C27_only_what_was_described I ryu _ _ _ _ _ (open_valid U HU) E) as (t & D & _ & ->).
  destruct (proj1 described _ _ _ _ D H) as [A B]. eauto.
Qed.
End World.

Lemma render_good ryu t : ryu_ok ryu -> stree_ok t = true -> text_ok (render itoa ryu t) /\ digit_runs digit_limit (render itoa ryu t).
Proof.
  intros HR HO. pose proof (render_printable ryu HR t HO) as [P _]. destruct (render_runs ryu HR t HO) as [_ R].
  assert (R' : digit_runs digit_limit (render itoa ryu t)) by (eapply runs_mono; [|exact R]; unfold digit_limit; lia).
  split; [apply limit_i32; [apply str_ok_spec in P; exact P|exact R']|exact R'].
Qed.

(** A float that is written as null, or not within 2^-49 of overflow. *)
Definition within (f : f64) : Prop := f64_ok f = true /\ (f_is_finite f = true -> f64_inner f).
Lemma denoted_readable t : forall d, Denotes t d -> stree_ok t = true -> tree_floats within t -> Forall (fun n => lit_ok n /\ lit_short n) (lits d) -> Forall lit_readable (lits d).
Proof.
  induction t as [|b|s|n|n|f|l IH|l IH] using stree_ind'; intros d D HO HT HL; inversion D; subst; cbn [lits stree_ok tree_floats] in *; try (constructor; fail).
  - constructor; [|constructor]. rewrite andb_true_iff, !Z.leb_le in HO. left. exists (lit_int n0). destruct (Z.ltb_spec (lit_int n0) 0); [lia|]. split; [assumption|]. split; [assumption|]. split; [reflexivity|apply HO].
  - constructor; [|constructor]. rewrite andb_true_iff, !Z.leb_le in HO. destruct (Z.ltb_spec (lit_int n0) 0).
    + right. left. exists (lit_int n0). split; [assumption|]. split; [assumption|]. split; [reflexivity|apply HO].
    + left. exists (lit_int n0). split; [assumption|]. split; [assumption|]. split; [reflexivity|]. unfold u64_MAX, i64_MAX in *. lia.
  - constructor; [|constructor]. right. right. inversion HL as [|? ? [L1 L2] _]; subst. destruct HT as [_ HT]. match goal with [H : f_is_finite f = true |- _] => destruct (HT H) as [_ HB] end.
    edestruct reads_back as (y & Hy & _); eauto.
  - apply Forall_forall. intros n Hn. apply in_flat_map in Hn. destruct Hn as (d & Hd & Hn).
    assert (K : Forall2 Denotes l ds) by assumption. clear D. revert IH HO HT HL. induction K as [|t d' l ds' D K IHK]; intros IH HO HT HL; [destruct Hd|].
    inversion IH as [|? ? IH1 IH2]; subst. cbn [forallb fold_right flat_map] in *. apply andb_true_iff in HO. destruct HO as [O1 O2], HT as [T1 T2]. apply Forall_app in HL. destruct HL as [L1 L2].
    destruct Hd as [->|Hd]; [|auto]. specialize (IH1 d D O1 T1 L1). rewrite Forall_forall in IH1. auto.
  - apply Forall_forall. intros n Hn. apply in_flat_map in Hn. destruct Hn as (d & Hd & Hn).
    match goal with [H : Forall2 _ l ds |- _] => rename H into K end. clear D. revert IH HO HT HL. induction K as [|t d' l ds' [_ D] K IHK]; intros IH HO HT HL; [destruct Hd|].
    inversion IH as [|? ? IH1 IH2]; subst. cbn [forallb fold_right flat_map] in *. rewrite !andb_true_iff in HO. destruct HO as [[_ O1] O2], HT as [T1 T2]. apply Forall_app in HL. destruct HL as [L1 L2].
    destruct Hd as [->|Hd]; [|auto]. specialize (IH1 _ D O1 T1 L1). rewrite Forall_forall in IH1. auto.
Qed.

Section Output.
Context {St X K SQ MP : Type}.
Variable U : user St X K SQ MP.
Variable ryu : f64 -> bytes.
Hypothesis HU : rust_like U.
Hypothesis HR : ryu_ok ryu.

(** Whatever user-defined impls do: if to_string returns, it returns one JSON document, of
    printable UTF-8, which no other document has as its text. *)
Theorem C57_output_is_json c st s st' :
  numbers_are U (fun f => f64_ok f = true) -> floats_are (fun f => f64_ok f = true) c -> writes U ryu c st (Ok s) st' ->
  text_ok s /\ Forall (fun b => 32 <= b) s /\ exists d, JText d s /\ forall d', JText d' s -> d' = d.
Proof.
  intros HN HC W. destruct (written_tree_ok U _ HU HN (fun f H => H) ryu c st s st' HC W) as (t & HO & _ & ->).
  destruct (render_good ryu t HR HO) as [G _]. split; [exact G|]. split; [apply (render_printable ryu HR t HO)|].
  destruct (render_jtext ryu HR t HO) as (d & _ & J). exists d. split; [exact J|]. intros d' J'. eapply Unambiguous.JText_unique; eassumption.
Qed.
(** And it is accepted by from_str::<Value>, unless a float within 2^-49 of overflow is in it. *)
Theorem C57_output_is_read c st s st' : numbers_are U within -> floats_are within c -> writes U ryu c st (Ok s) st' ->
  json_text s /\ forall E k oc, env_ok E = true -> (wrap_depth E TValue < k)%nat -> exists j, from_str E k oc TValue s = Ok (VJson j).
Proof.
  intros HN HC W. destruct (written_tree_ok U within HU HN (fun f H => proj1 H) ryu c st s st' HC W) as (t & HO & HT & ->).
  destruct (render_good ryu t HR HO) as [G R]. destruct (render_jtext ryu HR t HO) as (d & D & J).
  assert (JT : json_text (render itoa ryu t)).
  { exists d. split; [exact J|]. apply (denoted_readable t d D HO HT). apply (text_dlits _ _ J R). }
  split; [exact JT|]. intros E k oc HE Hk. apply (ClaimsParse.C01_value_accepts_exactly_json E k oc); auto.
Qed.
End Output.

(** ** C60: what a reader makes of what was written *)
Section Evolve.
Context {G St X K SQ MP : Type}.
Variable U : user St X K SQ MP.
Variable ryu : f64 -> bytes.
Variable oc : bool.
Hypothesis HU : rust_like U.
Hypothesis HR : ryu_ok ryu.
Hypothesis HN : numbers_are U within.

Lemma output_good c st s st' : floats_are within c -> writes U ryu c st (Ok s) st' -> good s.
Proof.
  intros HC W. split; [|eapply C57_output_is_read; eassumption].
  destruct (written_tree_ok U within HU HN (fun f H => proj1 H) ryu c st s st' HC W) as (t & HO & _ & ->). exact (proj1 (render_good ryu t HR HO)).
Qed.
(** A member that the reader does not know is skipped whenever it can be written. *)
Theorem C60_skippable c : floats_are within c -> (forall st, exists s st', writes U ryu c st (Ok s) st') -> is_written U ryu c.
Proof.
  intros HC H st. destruct (H st) as (s & st' & W). exists s, st'. split; [exact W|]. exact (output_good c st s st' HC W).
Qed.
Lemma entries_members es st ss st' : (forall k c, In (k, c) es -> floats_are within c) -> each_entry U ryu es st (Ok ss) st' ->
  exists ms, Forall good_member ms /\ map (fun m : bytes * bytes * bytes => fst (fst m) ++ 58 :: snd m) ms = ss /\
    forall n, In n (map fst (members_of ms)) -> exists k c st1 st2, In (k, c) es /\ x_key U k st1 = (Ok n, st2).
Proof.
  intros HC H. remember (Ok ss) as r eqn:E. revert ss E HC. induction H as [st|k c l st ks st1 s st2 r st3 HK W H IH|k c l st f st1 HK|k c l st ks st1 f st2 HK W]; intros ss E HC; try discriminate E.
  - injection E as <-. exists []. split; [constructor|]. split; [reflexivity|intros n []].
  - destruct r as [ss'| |f]; try discriminate E. injection E as <-. destruct (IH ss' eq_refl (fun k' c' I' => HC k' c' (or_intror I'))) as (ms & F & E & KN).
    assert (KO : str_ok ks = true) by (eapply (proj2 (proj2 (proj2 (proj2 (proj2 (proj2 HU)))) k st)), HK). destruct (quote_key ks KO) as [QO QK].
    exists ((quote ks, ks, s) :: ms). split; [constructor; [|exact F]|].
    + pose proof (output_good c st1 s st2 (HC k c (or_introl eq_refl)) W) as [GO GJ]. split; [exact QO|]. split; [exact QK|]. split; assumption.
    + cbn [map fst snd members_of In]. rewrite E. split; [reflexivity|]. intros n [<-|I1]; [exists k, c, st, st1; auto|].
      destruct (KN n I1) as (k' & c' & a & b & H1 & H2). exists k', c', a, b. auto.
Qed.
Lemma fields_members cs st ss st' : (forall n c, In (n, c) cs -> floats_are within c) -> each U ryu (map snd cs) st (Ok ss) st' ->
  exists ms, Forall good_member ms /\ map (fun ns : bytes * bytes => quote (fst ns) ++ 58 :: snd ns) (combine (map (fun f : rstr * cval X K => text (fst f)) cs) ss) = map (fun m : bytes * bytes * bytes => fst (fst m) ++ 58 :: snd m) ms /\
    map fst (members_of ms) = map (fun c => text (fst c)) cs.
Proof.
  revert st ss. induction cs as [|[n c] cs IH]; intros st ss HC H; cbn [map snd] in *.
  - exists []. split; [constructor|]. split; reflexivity.
  - assert (K1 : exists s st1 ss', writes U ryu c st (Ok s) st1 /\ each U ryu (map snd cs) st1 (Ok ss') st' /\ ss = s :: ss').
    { remember (Ok ss) as rr eqn:E. inversion H as [|c0 l0 st0 s0 st1 r st2 W H1|]; subst; try discriminate. destruct r as [ss'| |f]; try discriminate. cbn [and_then] in *.
      match goal with [HX : Ok _ = Ok _ |- _] => injection HX as <- end. eauto 6. }
    destruct K1 as (s & st1 & ss' & W & H1 & ->). destruct (IH st1 ss' (fun n' c' I' => HC n' c' (or_intror I')) H1) as (ms & F & E & KN).
    destruct (quote_key (text n) (text_utf8 n)) as [QO QK]. exists ((quote (text n), text n, s) :: ms). split; [constructor; [|exact F]|].
    + pose proof (output_good c st s st1 (HC n c (or_introl eq_refl)) W) as [GO GJ]. split; [exact QO|]. split; [exact QK|]. split; assumption.
    + cbn [map fst snd members_of combine]. rewrite E. split; [reflexivity|]. unfold members_of in KN. rewrite KN. reflexivity.
Qed.
Lemma braces_members ms : in_braces (Ok (map (fun m : bytes * bytes * bytes => fst (fst m) ++ 58 :: snd m) ms)) = Ok (members_text ms).
Proof. cbn [in_braces]. rewrite commas_joined. unfold members_text, object_text. rewrite map_map. reflexivity. Qed.
Lemma in_floats_struct (cs : list (rstr * cval X K)) n c : floats_are within (CStruct cs) -> In (n, c) cs -> floats_are within c.
Proof. induction cs as [|x cs IH]; intros H I1; [destruct I1|]. destruct H as [H1 H2]. destruct I1 as [->|I1]; [exact H1|apply IH; assumption]. Qed.
Lemma in_floats_map (cs : list (K * cval X K)) n c : floats_are within (CMap cs) -> In (n, c) cs -> floats_are within c.
Proof. induction cs as [|x cs IH]; intros H I1; [destruct I1|]. destruct H as [H1 H2]. destruct I1 as [->|I1]; [exact H1|apply IH; assumption]. Qed.

(** A required field that was not written: reading never succeeds. *)
Theorem C60_missing_required (f : ufield G) fs1 fs2 cs st s st' : Forall (fun f => regular (f_u f)) (fs1 ++ f :: fs2) -> required (f_u f) ->
  floats_are within (CStruct cs) -> writes U ryu (CStruct cs) st (Ok s) st' -> ~ In (f_name f) (map (fun c => text (fst c)) cs) ->
  forall g v g', user_from_str (ustruct (fs1 ++ f :: fs2)) oc s g <> (Ok v, g').
Proof.
  intros HF HQ HC W NI g v g'. apply (C57_struct U ryu HU) in W. destruct W as (r & E1 & E2). destruct r as [ss| |x]; try discriminate E2.
  destruct (fields_members cs st ss st' (fun n c => in_floats_struct cs n c HC) E1) as (ms & GM & E & KN). cbn [with_names] in E2.
  rewrite E, braces_members in E2. injection E2 as ->. apply C56_missing_required; try assumption. rewrite KN. exact NI.
Qed.
Theorem C60_missing_key (f : ufield G) fs1 fs2 es st s st' : Forall (fun f => regular (f_u f)) (fs1 ++ f :: fs2) -> required (f_u f) ->
  floats_are within (CMap es) -> writes U ryu (CMap es) st (Ok s) st' -> (forall k c st1 st2, In (k, c) es -> x_key U k st1 <> (Ok (f_name f), st2)) ->
  forall g v g', user_from_str (ustruct (fs1 ++ f :: fs2)) oc s g <> (Ok v, g').
Proof.
  intros HF HQ HC W NI g v g'. apply (C57_map U ryu HU) in W. destruct W as (r & E1 & E2). destruct r as [ss| |x]; try discriminate E2.
  destruct (entries_members es st ss st' (fun n c => in_floats_map es n c HC) E1) as (ms & GM & E & KN).
  rewrite <- E, braces_members in E2. injection E2 as ->. apply C56_missing_required; try assumption.
  intros I1. destruct (KN _ I1) as (k & c & st1 & st2 & H1 & H2). exact (NI k c st1 st2 H1 H2).
Qed.
End Evolve.

(** The world of ClaimsRound: its user-defined objects are written as strings. *)
Example ex_numbers : numbers_are log_user within.
Proof. split; [|split; intros []]. intros x st f st' E. injection E as <- _. exact Logic.I. Qed.
Example ex_missing oc g v g' :
  user_from_str (ustruct (reader_fields ++ [{| f_name := bs "c"; f_u := uvec (uopt (ClaimsClosed.uleaf TBool)) |}])) oc (bs "{""a"":7,""b"":""x"",""extra"":[true]}") g <> (Ok v, g').
Proof.
  assert (W : writes log_user exact_print wrote [] (Ok (bs "{""a"":7,""b"":""x"",""extra"":[true]}")) []) by (exists 20%nat; split; [vm_compute; reflexivity|discriminate]).
  assert (SM : forall tau, ClaimsClosed.scalar_ty tau = true -> regular (ClaimsClosed.uleaf tau)) by (intros tau HS; apply (ClaimsClosed.C56_scalars_model_closed [] tau HS)).
  destruct (C56_containers_are_regular unit) as (R1 & _). destruct (C56_required_types unit) as (Q1 & _).
  eapply (C60_missing_required log_user exact_print oc ex_log_user exact_print_ok ex_numbers _ reader_fields []); [|apply Q1| |exact W|].
  - constructor; [apply R1, SM; reflexivity|]. constructor; [apply R1, SM; reflexivity|]. constructor; [apply R1, SM; reflexivity|]. constructor; [|constructor]. pose proof (SM TBool eq_refl) as [QB _]. destruct (R1 _ _ QB) as (_ & _ & [QO _] & _). destruct (R1 _ _ QO) as (RV & _). exact RV.
  - repeat (split; [exact Logic.I|]). split; [split; exact Logic.I|exact Logic.I].
  - cbn [map fst text In f_name]. intros E. repeat (destruct E as [E|E]; [discriminate E|]). exact E.
Qed.
