(** For C72: a wider type reads every document that a type reads. *)
From Coq Require Import String ZArith List Bool Lia Floats.SpecFloat.
From Verif Require Import Base Utf8 F64 Lexer Grammar LexSpec Types Impls Reading MapFacts ReadFacts SizeFacts ThroughFacts WideSpec.
Import ListNotations.
Open Scope Z_scope.

Definition child (d c : doc) : Prop :=
  match d with DArr l => In c l | DObj l => exists k, In (k, c) l | _ => False end.
Lemma doc_child_ind (P : doc -> Prop) : (forall d, (forall c, child d c -> P c) -> P d) -> forall d, P d.
Proof.
  intros H d. induction d as [|b|s|n|l IH|l IH] using doc_ind'; apply H; intros c Hc; cbn in Hc; try contradiction.
  - rewrite Forall_forall in IH. auto.
  - rewrite Forall_forall in IH. destruct Hc as (k & Hc). exact (IH (k, c) Hc).
Qed.
Lemma bits_pos b : bits_ok b = true -> 8 <= b <= 64.
Proof. unfold bits_ok. rewrite !orb_true_iff, !Z.eqb_eq. lia. Qed.
Lemma range_sign sg b sg' b' : bits_ok b = true -> range_in sg b sg' b' -> sg = true -> sg' = true.
Proof.
  intros Hb [H _] ->. destruct sg'; [reflexivity|]. exfalso. apply bits_pos in Hb. unfold int_min in H. assert (0 < 2 ^ (b - 1)) by (apply Z.pow_pos_nonneg; lia). lia.
Qed.
Lemma int_range sg b z : bits_ok b = true -> int_min sg b <= z <= int_max sg b -> (0 <= z -> z <= u64_MAX) /\ i64_MIN <= z /\ (sg = false -> 0 <= z).
Proof.
  intros Hb H. unfold bits_ok in Hb. rewrite !orb_true_iff, !Z.eqb_eq in Hb. assert (u64_MAX = 18446744073709551615) as -> by reflexivity. assert (i64_MIN = -9223372036854775808) as -> by reflexivity.
  destruct Hb as [[[->| ->]| ->]| ->], sg; cbn in H; (split; [lia|]); (split; [lia|]); intros Q; try discriminate Q; lia.
Qed.
Lemma int_number sg b n : bits_ok b = true -> is_int_lit n -> (n_neg n = true -> sg = true) -> int_min sg b <= lit_int n <= int_max sg b -> (n_neg n = true -> lit_int n <= 0) -> (n_neg n = false -> 0 <= lit_int n) ->
  reads_u n (lit_int n) /\ 0 <= lit_int n \/ reads_i n (lit_int n) /\ lit_int n <= 0.
Proof.
  intros Hb HI HS HR N1 N2. destruct (int_range _ _ _ Hb HR) as (U & I & _). destruct (n_neg n) eqn:EN; [right|left].
  - split; [|exact (N1 eq_refl)]. unfold reads_i. split; [exact HI|]. split; [exact EN|]. split; [reflexivity|exact I].
  - split; [|exact (N2 eq_refl)]. unfold reads_u. split; [exact HI|]. split; [exact EN|]. split; [reflexivity|exact (U (N2 eq_refl))].
Qed.

Section Facts.
Variable E : env.
Variable R : nat -> nat -> Prop.
Hypothesis HE : env_ok E = true.
Hypothesis HD : declared E R.

Lemma no_null_reads T d v : Reads E T d v -> no_null T = true -> d <> DNull.
Proof. intros H. induction H; intros HN; cbn [no_null] in HN; try discriminate; auto. Qed.

Definition pairs (Q : val -> val -> Prop) (e e' : val * val) : Prop := fst e = fst e' /\ Q (snd e) (snd e').
Lemma minsert_rel (Q : val -> val -> Prop) k v v' m m' : Q v v' -> Forall2 (pairs Q) m m' -> Forall2 (pairs Q) (minsert key_cmp k v m) (minsert key_cmp k v' m').
Proof.
  intros H0 H. induction H as [|[k1 w] [k1' w'] m m' H1 H IH]; cbn [minsert]; [repeat constructor; exact H0|].
  destruct H1 as [EQ H1]. cbn in EQ, H1. subst k1'. destruct (key_cmp k k1).
  - constructor; [split; [reflexivity|exact H0]|exact H].
  - constructor; [split; [reflexivity|exact H0]|]. constructor; [split; [reflexivity|exact H1]|exact H].
  - constructor; [split; [reflexivity|exact H1]|exact IH].
Qed.
Lemma fold_rel (Q : val -> val -> Prop) l l' : Forall2 (pairs Q) l l' -> forall m m', Forall2 (pairs Q) m m' ->
  Forall2 (pairs Q) (fold_left (fun m kv => minsert key_cmp (fst kv) (snd kv) m) l m) (fold_left (fun m kv => minsert key_cmp (fst kv) (snd kv) m) l' m').
Proof.
  intros H. induction H as [|[k w] [k' w'] l l' [EQ H1] H IH]; intros m m' Hm; cbn [fold_left]; [exact Hm|]. apply IH.
  cbn [fst snd] in *. subst k'. apply minsert_rel; auto.
Qed.
Lemma wide_elems T T' l vs : (forall c v, In c l -> Reads E T c v -> exists v', Reads E T' c v' /\ Conv E R T T' v v') -> Forall2 (Reads E T) l vs ->
  exists vs', Forall2 (Reads E T') l vs' /\ Forall2 (Conv E R T T') vs vs'.
Proof.
  intros H F. induction F as [|d v l vs Hd F IH]; [exists []; auto|]. destruct (H d v (or_introl eq_refl) Hd) as (v' & A & B).
  destruct IH as (vs' & A' & B'); [intros c w Hc; apply H; right; exact Hc|]. exists (v' :: vs'). auto.
Qed.
Lemma wide_key K K' k v : (match K with KInt _ b => bits_ok b | _ => true end) = true -> key_in K K' -> KeyReads K k v -> KeyReads K' k v.
Proof.
  intros HB HK H. destruct H; destruct K'; cbn in HK; try contradiction; try constructor.
  pose proof HK as HK0. destruct HK0 as [H3 H4]. eapply kr_int with (neg := neg); [|exact H0|exact H1|lia].
  inversion H; subst; [constructor|constructor|]. constructor. eapply range_sign; [exact HB|exact HK|reflexivity].
Qed.
Lemma wide_entries K K' T T' l kvs : (match K with KInt _ b => bits_ok b | _ => true end) = true -> key_in K K' ->
  (forall k c v, In (k, c) l -> Reads E T c v -> exists v', Reads E T' c v' /\ Conv E R T T' v v') ->
  Forall2 (fun kd kv => KeyReads K (fst kd) (fst kv) /\ Reads E T (snd kd) (snd kv)) l kvs ->
  exists kvs', Forall2 (fun kd kv => KeyReads K' (fst kd) (fst kv) /\ Reads E T' (snd kd) (snd kv)) l kvs' /\ Forall2 (pairs (Conv E R T T')) kvs kvs'.
Proof.
  intros TK HK H F. induction F as [|[k c] [kv w] l kvs [F1 F2] F IH]; [exists []; auto|]. cbn [fst snd] in *.
  destruct (H k c w (or_introl eq_refl) F2) as (w' & A & B). destruct (IH (fun k1 c1 w1 HI => H k1 c1 w1 (or_intror HI))) as (kvs' & A' & B').
  exists ((kv, w') :: kvs'). split; constructor; auto; split; auto. exact (wide_key _ _ _ _ TK HK F1).
Qed.
Lemma choose_list {A} (P : nat -> A -> val -> Prop) (l : list A) : (forall b x, nth_error l b = Some x -> exists v, P b x v) ->
  exists vs, List.length vs = List.length l /\ forall b x v, nth_error l b = Some x -> nth_error vs b = Some v -> P b x v.
Proof.
  revert P. induction l as [|a l IH]; intros P H; [exists []; split; [reflexivity|]; intros [|b] x v Hx; discriminate|].
  destruct (H O a eq_refl) as (v & Hv). destruct (IH (fun b => P (S b))) as (vs & L & HP); [intros b x Hx; exact (H (S b) x Hx)|].
  exists (v :: vs). split; [cbn; congruence|]. intros [|b] x w Hx Hw; cbn in Hx, Hw; [injection Hx as <-; injection Hw as <-; exact Hv|exact (HP b x w Hx Hw)].
Qed.
Lemma fields_ok i fs n T : nth_error E i = Some (DStruct fs) -> In (n, T) fs -> ty_ok T = true.
Proof.
  intros H HI. unfold env_ok in HE. rewrite forallb_forall in HE. apply nth_error_In in H. specialize (HE _ H). cbn in HE. rewrite forallb_forall in HE. exact (HE _ HI).
Qed.
Lemma fieldat_in fs n T : NoDup (map fst fs) -> In (n, T) fs -> exists a, FieldAt fs n a T.
Proof.
  intros ND HI. apply In_nth_error in HI. destruct HI as (a & Ha). exists a. split; [exact Ha|]. intros j T' Hj H'. rewrite NoDup_nth_error in ND.
  assert (a = j); [|lia]. apply ND; [rewrite map_length; apply nth_error_Some; congruence|]. rewrite !nth_error_map, Ha, H'. reflexivity.
Qed.
Lemma last_in {A} (l : list (bytes * A)) k v : last_binding l k v -> In (k, v) l.
Proof. intros (a & b & -> & _). apply in_or_app. right. left. reflexivity. Qed.

Theorem wide_reads d : doc_ok d -> forall T T' v, ty_ok T = true -> Wide E R T T' -> Reads E T d v -> exists v', Reads E T' d v' /\ Conv E R T T' v v'.
Proof.
  induction d as [d IHd] using doc_child_ind. intros HO T T' v HT W. revert v HT.
  assert (KID : forall l T T', d = DArr l -> ty_ok T = true -> Wide E R T T' -> forall c v, In c l -> Reads E T c v -> exists v', Reads E T' c v' /\ Conv E R T T' v v').
  { intros l T1 T1' -> H1 H2 c w Hc HR. apply (IHd c Hc) with (T := T1); auto. apply doc_ok_arr in HO. rewrite Forall_forall in HO. auto. }
  assert (MEM : forall l T T' k c v, d = DObj l -> In (k, c) l -> ty_ok T = true -> Wide E R T T' -> Reads E T c v -> exists v', Reads E T' c v' /\ Conv E R T T' v v').
  { intros l T1 T1' k c w -> Hc H1 H2 HR. apply (IHd c (ex_intro _ k Hc)) with (T := T1); auto. apply doc_ok_obj in HO. rewrite Forall_forall in HO. exact (HO _ Hc). }
  induction W as [T|sg b sg' b' HRG|sg b|sg b|sg b| | |T T' W IHW|T T' W IHW|T T' W IHW|T T' HN W IHW|T|T T' W IHW|T T' n W IHW|T T' n W IHW|A B A' B' WA IHA WB IHB|A B T' WA IHA WB IHB|A B T' WA IHA WB IHB|T A' B' WA IHA WB IHB|h h' K K' T T' HK W IHW|i j HRij|i ns Hi];
    intros v HT HR.
  - exists v. split; [exact HR|constructor].
  - inversion HR as [| | |sg0 b0 n HI HS HB| | | | | | | | | | | | | | | | | | |]; subst. cbn in HT. exists (VInt (lit_int n)). split; [|constructor]. constructor; [exact HI| |destruct HRG; lia].
    intros N. exact (range_sign _ _ _ _ HT HRG (HS N)).
  - inversion HR as [| | |sg0 b0 n HI HS HB| | | | | | | | | | | | | | | | | | |]; subst. cbn in HT, HO. exists (VF64 (f64_of_Z (lit_int n))). split; [|constructor]. constructor.
    destruct (int_number sg b n HT HI HS HB (fun N => zero_sign n N HO) (fun N => pos_sign n N HO)) as [[H _]|[H _]]; auto.
  - inversion HR as [| | |sg0 b0 n HI HS HB| | | | | | | | | | | | | | | | | | |]; subst. cbn in HT, HO. exists (VF32 (f32_of_Z (lit_int n))). split; [|constructor]. constructor.
    destruct (int_number sg b n HT HI HS HB (fun N => zero_sign n N HO) (fun N => pos_sign n N HO)) as [[H _]|[H _]]; auto.
  - inversion HR as [| | |sg0 b0 n HI HS HB| | | | | | | | | | | | | | | | | | |]; subst. cbn in HT, HO.
    destruct (int_number sg b n HT HI HS HB (fun N => zero_sign n N HO) (fun N => pos_sign n N HO)) as [[H H0]|[H H0]].
    + exists (VNum (NU64 (lit_int n))). split; constructor; assumption.
    + exists (VNum (NI64 (lit_int n))). split; constructor; assumption.
  - inversion HR as [| | | |n z [H|H]|n f H| | | | | | | | | | | | | | | | |]; subst.
    + exists (VNum (NU64 z)). split; constructor; assumption.
    + exists (VNum (NI64 z)). split; constructor; assumption.
    + exists (VNum (NF64 f)). split; constructor; assumption.
  - inversion HR as [| | | | | | | | | | | | | | | |n z H|n z H|n f H| | | |]; subst.
    + exists (VF64 (f64_of_Z z)). split; [constructor; auto|constructor].
    + exists (VF64 (f64_of_Z z)). split; [constructor; auto|constructor].
    + exists (VF64 f). split; [apply rd_f64; assumption|constructor].
  - inversion HR as [| | | | | | | |T0 d0 v0 H0| | | | | | | | | | | | | |]; subst. destruct (IHW v0 HT H0) as (v' & A & B). exists v'. split; [exact A|constructor; exact B].
  - destruct (IHW v HT HR) as (v' & A & B). exists (VBox v'). split; constructor; assumption.
  - inversion HR as [| | | | | | | | |T0|T0 d0 v0 ND H0| | | | | | | | | | | |]; subst.
    + exists VNone. split; constructor.
    + destruct (IHW v0 HT H0) as (v' & A & B). exists (VSome v'). split; [apply rd_some; assumption|constructor; exact B].
  - destruct (IHW v HT HR) as (v' & A & B). exists (VSome v'). split; [apply rd_some; [exact (no_null_reads _ _ _ HR HN)|exact A]|apply co_some; assumption].
  - inversion HR; subst. exists VNone. split; constructor.
  - inversion HR as [| | | | | | | | | | | |T0 l vs F| | | | | | | | | |]; subst. destruct (wide_elems T T' l vs (KID l T T' eq_refl HT W) F) as (vs' & A & B). exists (VSeq vs'). split; constructor; assumption.
  - inversion HR as [| | | | | | | | | | | | |T0 n0 l vs HL F| | | | | | | | |]; subst. destruct (wide_elems T T' l vs (KID l T T' eq_refl HT W) F) as (vs' & A & B). exists (VSeq vs'). split; constructor; auto.
  - inversion HR as [| | | | | | | | | | | | |T0 n0 l vs HL F| | | | | | | | |]; subst. destruct (wide_elems T T' l vs (KID l T T' eq_refl HT W) F) as (vs' & A & B). exists (VSeq vs'). split; constructor; auto.
  - cbn in HT. apply andb_true_iff in HT. destruct HT as [TA TB]. inversion HR as [| | | | | | | | | | |A0 B0 d1 d2 a b RA RB| | | | | | | | | | |]; subst.
    destruct (KID _ A A' eq_refl TA WA d1 a ltac:(left; reflexivity) RA) as (a' & A1 & A2). destruct (KID _ B B' eq_refl TB WB d2 b ltac:(right; left; reflexivity) RB) as (b' & B1 & B2).
    exists (VPair a' b'). split; constructor; assumption.
  - cbn in HT. apply andb_true_iff in HT. destruct HT as [TA TB]. inversion HR as [| | | | | | | | | | |A0 B0 d1 d2 a b RA RB| | | | | | | | | | |]; subst.
    destruct (KID _ A T' eq_refl TA WA d1 a ltac:(left; reflexivity) RA) as (a' & A1 & A2). destruct (KID _ B T' eq_refl TB WB d2 b ltac:(right; left; reflexivity) RB) as (b' & B1 & B2).
    exists (VSeq [a'; b']). split; constructor; auto.
  - cbn in HT. apply andb_true_iff in HT. destruct HT as [TA TB]. inversion HR as [| | | | | | | | | | |A0 B0 d1 d2 a b RA RB| | | | | | | | | | |]; subst.
    destruct (KID _ A T' eq_refl TA WA d1 a ltac:(left; reflexivity) RA) as (a' & A1 & A2). destruct (KID _ B T' eq_refl TB WB d2 b ltac:(right; left; reflexivity) RB) as (b' & B1 & B2).
    exists (VSeq [a'; b']). split; constructor; auto.
  - inversion HR as [| | | | | | | | | | | | |T0 n0 l vs HL F| | | | | | | | |]; subst.
    destruct F as [|d1 a l vs RA F]; [discriminate HL|]. destruct F as [|d2 b l vs RB F]; [discriminate HL|]. destruct F as [|d3 c l vs RC F]; [|discriminate HL].
    destruct (KID _ T A' eq_refl HT WA d1 a ltac:(left; reflexivity) RA) as (a' & A1 & A2). destruct (KID _ T B' eq_refl HT WB d2 b ltac:(right; left; reflexivity) RB) as (b' & B1 & B2).
    exists (VPair a' b'). split; constructor; assumption.
  - cbn in HT. apply andb_true_iff in HT. destruct HT as [TK TT]. inversion HR as [| | | | | | | | | | | | | |h0 K0 T0 l kvs m F HM| | | | | | | |]; subst.
    destruct (wide_entries K K' T T' l kvs TK HK (fun k c w HI => MEM l T T' k c w eq_refl HI TT W) F) as (kvs' & A & B).
    assert (KK : Forall (fun kv : val * val => key_kind K (fst kv)) kvs) by (clear - F; induction F as [|? ? ? ? [H _]]; constructor; auto; exact (proj1 (key_reads _ _ _ H))).
    assert (KK' : Forall (fun kv : val * val => key_kind K' (fst kv)) kvs') by (clear - A; induction A as [|? ? ? ? [H _]]; constructor; auto; exact (proj1 (key_reads _ _ _ H))).
    apply (MapOf_key K) in HM; [|exact KK]. subst m. eexists. split.
    + eapply rd_map; [exact A|]. apply (MapOf_key K'); [exact KK'|reflexivity].
    + constructor. apply (fold_rel (Conv E R T T')); [exact B|constructor].
  - destruct (HD i j HRij) as [(fs & fs' & Hi & Hj & ND & ND' & HF)|(ns & ns' & Hi & Hj & ND' & HF)].
    + inversion HR as [| | | | | | | | | | | | | | | | | | | | |id0 fs0 l vs HF0 RM MM LM FM|]; subst; [|congruence]. rewrite Hi in HF0. injection HF0 as <-.
      assert (OLD : forall n T', In (n, T') fs' -> exists a T, FieldAt fs n a T /\ ty_ok T = true /\ Wide E R T T' /\ (is_option T = true -> is_option T' = true)).
      { intros n T' HI. destruct (HF n T' HI) as (T & I1 & W & OP). destruct (fieldat_in fs n T ND I1) as (a & FA). exists a, T. split; [exact FA|]. split; [exact (fields_ok _ _ _ _ Hi I1)|]. auto. }
      set (P := fun (b : nat) (f : bytes * ty) (v' : val) => exists a T v, nth_error fs a = Some (fst f, T) /\ nth_error vs a = Some v /\ Conv E R T (snd f) v v' /\
        ((exists dd, last_binding l (fst f) dd /\ Reads E (snd f) dd v') \/ ((forall dd, ~ In (fst f, dd) l) /\ (exists T0, snd f = TOption T0) /\ v' = VNone))).
      destruct (choose_list P fs') as (vs' & L' & HP).
      { intros b [n T'] Hb. destruct (OLD n T' (nth_error_In _ _ Hb)) as (a & T & FA & TT & W & OP). destruct FA as [Ha FA].
        destruct (nth_error vs a) as [x|] eqn:Ex; [|exfalso; apply nth_error_None in Ex; assert (a < List.length fs)%nat by (apply nth_error_Some; congruence); lia].
        destruct (FM a n T x Ha Ex) as [(_ & dd & LB & RD)|([NF|NI] & (T0 & ->) & ->)].
        - destruct (MEM l T T' n dd x eq_refl (last_in _ _ _ LB) TT W RD) as (v' & A & B). exists v', a, T, x. cbn [fst snd]. eauto 10.
        - destruct NF. split; assumption.
        - specialize (OP eq_refl). destruct T' as [| | | | | | |T1| | | | | | | | |]; try discriminate OP. exists VNone, a, (TOption T0), VNone. cbn [fst snd]. split; [exact Ha|]. split; [exact Ex|].
          split; [constructor|]. right. eauto. }
      exists (VStruct vs'). split.
      * eapply rd_struct; [exact Hj|exact RM| |exact L'|].
        -- intros k c b T' HI [Hb _]. destruct (OLD k T' (nth_error_In _ _ Hb)) as (a & T & FA & TT & W & _). destruct (MM k c a T HI FA) as (x & RD).
           destruct (MEM l T T' k c x eq_refl HI TT W RD) as (v' & A & _). eauto.
        -- intros b n T' v' Hb Hv'. destruct (HP b (n, T') v' Hb Hv') as (a & T & x & _ & _ & _ & [(dd & LB & RD)|(NI & OT & ->)]); cbn [fst snd] in *.
           ++ left. destruct (fieldat_in fs' n T' ND' (nth_error_In _ _ Hb)) as (b2 & FA2). destruct FA2 as [Hb2 FA2]. assert (b2 = b) as ->; [|split; [split; assumption|eauto]].
              rewrite NoDup_nth_error in ND'. apply ND'; [rewrite map_length; apply nth_error_Some; congruence|]. rewrite !nth_error_map, Hb, Hb2. reflexivity.
           ++ right. auto.
      * eapply co_struct; [exact HRij|exact Hi|exact Hj|exact L'|]. intros b n T' v' Hb Hv'. destruct (HP b (n, T') v' Hb Hv') as (a & T & x & A1 & A2 & A3 & _). exists a, T, x. auto.
    + inversion HR as [| | | | | | | | | | | | | | | | | | | | | |id0 ns0 k a HN0 [Ha _]]; subst; [congruence|]. rewrite Hi in HN0. injection HN0 as <-.
      destruct (In_nth_error _ _ (HF k (nth_error_In _ _ Ha))) as (b & Hb). exists (VEnum b). split.
      * eapply rd_enum; [exact Hj|]. split; [exact Hb|]. intros b2 Hlt H2. rewrite NoDup_nth_error in ND'. assert (b = b2); [|lia]. apply ND'; [apply nth_error_Some; congruence|congruence].
      * eapply co_enum; eassumption.
  - inversion HR as [| | | | | | | | | | | | | | | | | | | | | |id0 ns0 k a HN0 [Ha _]]; subst; [congruence|]. rewrite Hi in HN0. injection HN0 as <-.
    exists (VStr k). split; [constructor|]. eapply co_enum_string; eassumption.
Qed.
End Facts.
