(** C56: generic containers of user-defined types. *)
From Coq Require Import String ZArith List Bool Lia.
From Verif Require Import Base Utf8 Utf8Facts Lexer Driver Grammar LexSpec Tree TreeFacts DriverFacts GrammarFacts ReadFacts RunFacts RunText Unambiguous FromStr Types Impls Reading ReadMain DocSpec ParseSpec ClaimsParse UserTypes UserSpec UserFacts UserMain UserText.
Import ListNotations.
Open Scope nat_scope.

(** ** What the theorems assume of a type parameter holds of the containers themselves *)
Lemma rmap_quiet {A B} (j : A -> B) r : r <> Fault FPanic -> rmap j r <> Fault FPanic.
Proof. destruct r; cbn; congruence. Qed.

Lemma quiet_nest {S OV OS OM S0 V SH MH} (I : iface S0 V SH MH) get set (O : outer S OV OS OM V SH MH) :
  quiet_drops I -> (forall o st, fst (o_sdrop O o st) <> Fault FPanic) -> (forall o st, fst (o_mdrop O o st) <> Fault FPanic) ->
  quiet_drops (nest I get set O).
Proof.
  intros HI Hs Hm [[o|q]|[o|m]] st; cbn [drop_layer nest s_drop m_drop]; auto; unfold inside; destruct (get st) as [s|]; try discriminate.
  - apply rmap_quiet, (HI (LSeq q)).
  - apply rmap_quiet, (HI (LMap m)).
Qed.
Lemma quiet_sum {G S1 V1 SH1 MH1 S2 V2 SH2 MH2} (I1 : iface (G * S1) V1 SH1 MH1) (I2 : iface (G * S2) V2 SH2 MH2) :
  quiet_drops I1 -> quiet_drops I2 -> quiet_drops (sum_iface I1 I2).
Proof.
  intros H1 H2 [[q|q]|[m|m]] [g [s1 s2]]; cbn [drop_layer sum_iface s_drop m_drop same left_in right_in fst]; apply rmap_quiet.
  - apply (H1 (LSeq q)).
  - apply (H2 (LSeq q)).
  - apply (H1 (LMap m)).
  - apply (H2 (LMap m)).
Qed.

Section Quiet.
Context {G : Type}.
Lemma quiet_vec {A} (T : utype G A) : quiet T -> quiet (uvec T).
Proof. intros H. apply quiet_nest; [exact H| |]; intros o st; [destruct st as [g [out b]]; discriminate|destruct o]. Qed.
Lemma quiet_arr {A} (T : utype G A) n : quiet T -> quiet (uarr T n).
Proof. intros H. apply quiet_nest; [exact H| |]; intros o st; [destruct st as [g [out b]]; discriminate|destruct o]. Qed.
Lemma quiet_opt {A} (T : utype G A) : quiet T -> quiet (uopt T).
Proof. intros H. apply quiet_nest; [exact H| |]; intros o st; destruct o. Qed.
Lemma quiet_box {A} (T : utype G A) : quiet T -> quiet (ubox T).
Proof.
  intros H. apply quiet_nest; [exact H| |]; intros [x|] [g [out [[[] sl]|]]]; try discriminate; apply rmap_quiet; [apply (H (LSeq x))|apply (H (LMap x))].
Qed.
Lemma quiet_pair {A B} (TA : utype G A) (TB : utype G B) : quiet TA -> quiet TB -> quiet (upair TA TB).
Proof. intros HA HB. apply quiet_nest; [apply quiet_sum; assumption| |]; intros o st; [destruct st as [g [out b]]; discriminate|destruct o]. Qed.
Lemma quiet_map {K M A} parse (empty : M) (insert : K -> A -> M -> M) (T : utype G A) : quiet T -> quiet (umap parse empty insert T).
Proof. intros H. apply quiet_nest; [exact H| |]; intros o st; [destruct o|destruct st as [g [out b]]; discriminate]. Qed.
Lemma quiet_fields (fs : list (ufield G)) : Forall (fun f => quiet (f_u f)) fs -> quiet_drops (fields_iface fs).
Proof. induction 1 as [|f fs Hf _ IH]; cbn [fields_iface]; [intros [[]|[]]|apply quiet_sum; assumption]. Qed.
Lemma quiet_struct (fs : list (ufield G)) : Forall (fun f => quiet (f_u f)) fs -> quiet (ustruct fs).
Proof. intros H. apply quiet_nest; [apply quiet_fields, H| |]; intros o st; [discriminate|]. destruct o, st as [g [out b]]; discriminate. Qed.
End Quiet.

Section Store.
Context {G C : Type}.
Implicit Types (r : res (option C) * G).
Lemma store_fills o c r g' p : store o c r = (Ok tt, (g', p)) -> p <> None.
Proof. destruct r as [[[x|]| |f] g]; cbn; try discriminate. destruct c; intros [= <- <-]; discriminate. Qed.
Lemma store_over o1 o2 c r :
  fst (store o1 c r) = fst (store o2 c r) /\ fst (snd (store o1 c r)) = fst (snd (store o2 c r)) /\
  (fst (store o1 c r) = Ok tt -> snd (store o1 c r) = snd (store o2 c r)).
Proof. destruct r as [[[x|]| |f] g]; cbn; try (destruct c; cbn); repeat split; discriminate. Qed.
End Store.

Section Closed.
Context {G : Type}.
Ltac cont R := let t := fresh in let g := fresh in intros t g; intros; rewrite ?R in *; destruct t as [|[]| |]; cbn in *; try discriminate; try (repeat split; discriminate).
Lemma fills_vec {A} (T : utype G A) : fills (uvec T).
Proof. intros t g g' o. rewrite reads_vec. destruct t; try discriminate. apply store_fills. Qed.
Lemma over_vec {A} (T : utype G A) : overwrites (uvec T).
Proof. intros t g o1 o2. rewrite !reads_vec. destruct t; try (repeat split; discriminate). apply store_over. Qed.
Lemma fills_arr {A} (T : utype G A) n : fills (uarr T n).
Proof. intros t g g' o. rewrite reads_arr. destruct t; try discriminate. apply store_fills. Qed.
Lemma over_arr {A} (T : utype G A) n : overwrites (uarr T n).
Proof. intros t g o1 o2. rewrite !reads_arr. destruct t; try (repeat split; discriminate). apply store_over. Qed.
Lemma fills_pair {A B} (TA : utype G A) (TB : utype G B) : fills (upair TA TB).
Proof. intros t g g' o. rewrite reads_pair. destruct t; try discriminate. apply store_fills. Qed.
Lemma over_pair {A B} (TA : utype G A) (TB : utype G B) : overwrites (upair TA TB).
Proof. intros t g o1 o2. rewrite !reads_pair. destruct t; try (repeat split; discriminate). apply store_over. Qed.
Lemma fills_map {K M A} parse (empty : M) (insert : K -> A -> M -> M) (T : utype G A) : fills (umap parse empty insert T).
Proof. intros t g g' o. rewrite reads_map. destruct t; try discriminate. apply store_fills. Qed.
Lemma over_map {K M A} parse (empty : M) (insert : K -> A -> M -> M) (T : utype G A) : overwrites (umap parse empty insert T).
Proof. intros t g o1 o2. rewrite !reads_map. destruct t; try (repeat split; discriminate). apply store_over. Qed.
Lemma fills_struct (fs : list (ufield G)) : fills (ustruct fs).
Proof.
  intros t g g' o. rewrite reads_struct. destruct t as [| | |ms c]; try discriminate. cbn [read_struct].
  destruct (defaults fs g) as [[ps| |f] g1]; try discriminate. apply store_fills.
Qed.
Lemma over_struct (fs : list (ufield G)) : overwrites (ustruct fs).
Proof.
  intros t g o1 o2. rewrite !reads_struct. destruct t as [| | |ms c]; try (repeat split; discriminate). cbn [read_struct].
  destruct (defaults fs g) as [[ps| |f] g1]; try (repeat split; discriminate). apply store_over.
Qed.
Lemma fills_opt {A} (T : utype G A) : fills (uopt T).
Proof.
  intros t g g' o. rewrite reads_opt. unfold read_opt. destruct (broken t); [discriminate|].
  destruct (reads T t g None) as [r [g1 p]]. destruct t as [|[]| |]; intros [=]; congruence.
Qed.
Lemma over_opt {A} (T : utype G A) : overwrites (uopt T).
Proof.
  intros t g o1 o2. rewrite !reads_opt. unfold read_opt. destruct (broken t); [repeat split; discriminate|].
  destruct (reads T t g None) as [r [g1 p]]. destruct t as [|[]| |]; repeat split; reflexivity.
Qed.
Lemma fills_box {A} (T : utype G A) : fills (ubox T).
Proof.
  intros t g g' o. rewrite reads_box. unfold read_box. destruct (broken t); [discriminate|].
  destruct (reads T t g None) as [[[]| |f] [g1 [a|]]]; intros [=]; congruence.
Qed.
Lemma over_box {A} (T : utype G A) : overwrites (ubox T).
Proof.
  intros t g o1 o2. rewrite !reads_box. unfold read_box. destruct (broken t); [repeat split; discriminate|].
  destruct (reads T t g None) as [[[]| |f] [g1 [a|]]]; repeat split; discriminate.
Qed.
End Closed.

(** A type as the theorems about texts want it. *)
Definition regular {G A} (T : utype G A) : Prop := quiet T /\ fills T /\ overwrites T.

(** The containers are such types themselves. *)
Theorem C56_containers_are_regular (G : Type) :
  (forall A (T : utype G A), quiet T -> regular (uvec T) /\ (forall n, regular (uarr T n)) /\ regular (uopt T) /\ regular (ubox T)) /\
  (forall A B (TA : utype G A) (TB : utype G B), quiet TA -> quiet TB -> regular (upair TA TB)) /\
  (forall K M A parse (empty : M) (insert : K -> A -> M -> M) (T : utype G A), quiet T -> regular (umap parse empty insert T)) /\
  (forall fs : list (ufield G), Forall (fun f => quiet (f_u f)) fs -> regular (ustruct fs)).
Proof.
  split; [intros A T H; split; [|split; [|split]]|split; [|split]].
  - exact (conj (quiet_vec T H) (conj (fills_vec T) (over_vec T))).
  - intros n. exact (conj (quiet_arr T n H) (conj (fills_arr T n) (over_arr T n))).
  - exact (conj (quiet_opt T H) (conj (fills_opt T) (over_opt T))).
  - exact (conj (quiet_box T H) (conj (fills_box T) (over_box T))).
  - intros A B TA TB HA HB. exact (conj (quiet_pair TA TB HA HB) (conj (fills_pair TA TB) (over_pair TA TB))).
  - intros K M A parse empty insert T H. exact (conj (quiet_map parse empty insert T H) (conj (fills_map parse empty insert T) (over_map parse empty insert T))).
  - intros fs H. exact (conj (quiet_struct fs H) (conj (fills_struct fs) (over_struct fs))).
Qed.

(** ** Every text, well-formed or not *)
Theorem C56_from_str (G A : Type) (T : utype G A) oc s g : text_ok s -> quiet T ->
  user_from_str T oc s g = read_text (reads T) s g.
Proof. apply user_from_str_reads. Qed.

Lemma read_text_ext {G A} (D1 D2 : reader G A) s g : (forall t g o, D1 t g o = D2 t g o) -> read_text D1 s g = read_text D2 s g.
Proof. intros H. unfold read_text. destruct (pv s) as [t rest]. rewrite H. reflexivity. Qed.

Theorem C56_vec (G A : Type) (T : utype G A) oc s g : text_ok s -> quiet T ->
  user_from_str (uvec T) oc s g = read_text (read_vec (reads T)) s g.
Proof. intros Hs HQ. rewrite user_from_str_reads by auto using quiet_vec. apply read_text_ext, reads_vec. Qed.
Theorem C56_array (G A : Type) (T : utype G A) n oc s g : text_ok s -> quiet T ->
  user_from_str (uarr T n) oc s g = read_text (read_arr (reads T) n) s g.
Proof. intros Hs HQ. rewrite user_from_str_reads by auto using quiet_arr. apply read_text_ext, reads_arr. Qed.
Theorem C56_option (G A : Type) (T : utype G A) oc s g : text_ok s -> quiet T ->
  user_from_str (uopt T) oc s g = read_text (read_opt (reads T)) s g.
Proof. intros Hs HQ. rewrite user_from_str_reads by auto using quiet_opt. apply read_text_ext, reads_opt. Qed.
Theorem C56_box (G A : Type) (T : utype G A) oc s g : text_ok s -> quiet T ->
  user_from_str (ubox T) oc s g = read_text (read_box (reads T)) s g.
Proof. intros Hs HQ. rewrite user_from_str_reads by auto using quiet_box. apply read_text_ext, reads_box. Qed.
Theorem C56_pair (G A B : Type) (TA : utype G A) (TB : utype G B) oc s g : text_ok s -> quiet TA -> quiet TB ->
  user_from_str (upair TA TB) oc s g = read_text (read_pair (reads TA) (reads TB)) s g.
Proof. intros Hs HA HB. rewrite user_from_str_reads by auto using quiet_pair. apply read_text_ext, reads_pair. Qed.
Theorem C56_map (G K M A : Type) parse (empty : M) (insert : K -> A -> M -> M) (T : utype G A) oc s g : text_ok s -> quiet T ->
  user_from_str (umap parse empty insert T) oc s g = read_text (read_map (reads T) parse empty insert) s g.
Proof. intros Hs HQ. rewrite user_from_str_reads by auto using quiet_map. apply read_text_ext, reads_map. Qed.
Theorem C56_struct (G : Type) (fs : list (ufield G)) oc s g : text_ok s -> Forall (fun f => quiet (f_u f)) fs ->
  user_from_str (ustruct fs) oc s g = read_text (read_struct fs) s g.
Proof. intros Hs HQ. rewrite user_from_str_reads by auto using quiet_struct. apply read_text_ext, reads_struct. Qed.

(** ** JSON texts: from_str of the container is from_str of the parts *)

(** A JSON text within the limits of text_ok. *)
Definition good (s : bytes) : Prop := text_ok s /\ json_text s.

Lemma json_text_tree s : json_text s <-> exists d t, JText d s /\ tree_of d = Some t.
Proof.
  split.
  - intros (d & Hd & H). pose proof (JText_doc_ok _ _ Hd) as K. apply readable_lits in H; [|exact K]. apply (readable_iff []) in H as [t Ht]; [eauto|exact K].
  - intros (d & t & Hd & Ht). exists d. pose proof (JText_doc_ok _ _ Hd) as K. split; [exact Hd|]. apply readable_lits; [exact K|]. apply (readable_iff []); eauto.
Qed.
Lemma good_part s : good s -> part s.
Proof. intros [H (d & Hd & _)]. split; [exact H|]. eapply jtext_balanced, Hd. Qed.

Definition den {G A} (r : res unit * (G * option A)) : res A * G :=
  match r with
  | (Ok _, (g', Some a)) => (Ok a, g')
  | (Ok _, (g', None)) => (Err, g')
  | (Err, (g', _)) => (Err, g')
  | (Fault f, (g', _)) => (Fault f, g')
  end.
Lemma from_str_json {G A} (T : utype G A) oc d s t g : text_ok s -> quiet T -> JText d s -> tree_of d = Some t ->
  user_from_str T oc s g = den (reads T t g None).
Proof. intros Hs HQ Hd Ht. rewrite user_from_str_reads by assumption. rewrite (read_text_json _ d s t) by assumption. reflexivity. Qed.

Lemma fills_den {G A} (T : utype G A) t g : fills T ->
  match den (reads T t g None) with
  | (Ok a, g') => reads T t g None = (Ok tt, (g', Some a))
  | (Err, g') => exists o, reads T t g None = (Err, (g', o))
  | (Fault f, g') => exists o, reads T t g None = (Fault f, (g', o))
  end.
Proof.
  intros F. pose proof (F t g) as Fg. destruct (reads T t g None) as [[[]| |f] [g' [a|]]]; cbn; eauto.
  exfalso. eapply Fg; reflexivity.
Qed.

Lemma goods ss : Forall good ss -> exists ds ts, Forall2 (fun s d => JText d s) ss ds /\ Forall2 (fun d t => tree_of d = Some t) ds ts /\ trees_of ds = Some ts.
Proof.
  induction 1 as [|s ss [_ (d & t & Hd & Ht)%json_text_tree] _ (ds & ts & H1 & H2 & H3)]; [exists [], []; repeat split; constructor|].
  exists (d :: ds), (t :: ts). repeat split; try (constructor; assumption). cbn [trees_of]. rewrite Ht, H3. reflexivity.
Qed.
Lemma array_ok ss : Forall good ss -> text_ok (array_text ss).
Proof.
  intros H. apply brackets_ok; try lia; unfold non_digit; try lia. eapply Forall_impl; [|exact H]. exact good_part.
Qed.

Lemma reads_each {G A} (T : utype G A) oc : quiet T -> fills T -> forall ss ds ts, Forall good ss ->
  Forall2 (fun s d => JText d s) ss ds -> Forall2 (fun d t => tree_of d = Some t) ds ts -> forall g acc,
  read_all (reads T) ts g acc = (let r := from_str_each T oc ss g in (rmap (app acc) (fst r), snd r)).
Proof.
  intros HQ HF ss ds ts HG H1. revert HG ts. induction H1 as [|s d ss ds Hd H1 IH]; intros HG ts H2 g acc; inversion H2 as [|? t ? ts' Ht H2']; subst.
  - cbn. rewrite app_nil_r. reflexivity.
  - inversion HG as [|? ? [Hs _] HG']; subst. cbn [read_all from_str_each]. rewrite (from_str_json T oc d s t g Hs HQ Hd Ht).
    pose proof (fills_den T t g HF) as FD. destruct (den (reads T t g None)) as [[a| |f] g'].
    + rewrite FD. cbn [olist]. rewrite (IH HG' ts' H2'). destruct (from_str_each T oc ss g') as [[l| |f] g2]; cbn; try reflexivity. rewrite <- app_assoc. reflexivity.
    + destruct FD as [o ->]. reflexivity.
    + destruct FD as [o ->]. reflexivity.
Qed.

(** Vec<T> of "[s1, ..., sn]" is from_str::<T> of s1, ..., sn one after the other, in the
    same world; the first failure is the outcome. *)
Theorem C56_vec_text (G A : Type) (T : utype G A) oc ss g : Forall good ss -> quiet T -> fills T ->
  user_from_str (uvec T) oc (array_text ss) g = from_str_each T oc ss g.
Proof.
  intros HG HQ HF. destruct (goods ss HG) as (ds & ts & H1 & H2 & H3).
  rewrite C56_vec by auto using array_ok. rewrite (read_text_json _ (DArr ds) _ (PSeq ts true)).
  - cbn [read_vec]. rewrite (reads_each T oc HQ HF ss ds ts HG H1 H2). destruct (from_str_each T oc ss g) as [[l| |f] g']; reflexivity.
  - apply array_jtext, H1.
  - rewrite tree_of_arr, H3. reflexivity.
Qed.

Lemma reads_each_upto {G A} (T : utype G A) oc n : quiet T -> fills T -> forall ss ds ts, Forall good ss ->
  Forall2 (fun s d => JText d s) ss ds -> Forall2 (fun d t => tree_of d = Some t) ds ts -> forall g acc, List.length acc <= n ->
  let r := from_str_each T oc (firstn (S n - List.length acc) ss) g in
  match read_upto (reads T) n ts g acc with
  | (Ok l, g') => List.length ss + List.length acc <= S n /\ exists l', r = (Ok l', g') /\ l = acc ++ l' /\ List.length l' = List.length ss
  | (Err, g') => snd r = g' /\ (fst r = Err \/ S n < List.length ss + List.length acc /\ exists l', fst r = Ok l')
  | (Fault f, g') => r = (Fault f, g')
  end.
Proof.
  intros HQ HF ss ds ts HG H1. revert HG ts. induction H1 as [|s d ss ds Hd H1 IH]; intros HG ts H2 g acc HL; inversion H2 as [|? t ? ts' Ht H2']; subst.
  - rewrite firstn_nil. cbn. split; [lia|]. exists []. rewrite app_nil_r. auto.
  - inversion HG as [|? ? [Hs _] HG']; subst. replace (S n - List.length acc) with (S (n - List.length acc)) by lia. cbn [firstn read_upto from_str_each].
    destruct (Nat.ltb_spec n (List.length acc)) as [?|_]; [lia|]. rewrite (from_str_json T oc d s t g Hs HQ Hd Ht).
    pose proof (fills_den T t g HF) as FD. destruct (den (reads T t g None)) as [[a| |f] g'].
    + rewrite FD. cbn [olist]. assert (LA : List.length (acc ++ [a]) = S (List.length acc)) by (rewrite app_length; cbn; lia).
      destruct (Nat.eq_dec (List.length acc) n) as [E|E].
      * (* the (n+1)-st element was read *)
        rewrite E, Nat.sub_diag. cbn [firstn from_str_each fst snd rmap].
        destruct ts' as [|t' ts']; cbn [read_upto].
        -- inversion H2'; subst. inversion H1; subst. cbn [List.length]. split; [lia|]. exists [a]. auto.
        -- rewrite LA. destruct (Nat.ltb_spec n (S (List.length acc))) as [_|?]; [|lia]. inversion H2'; subst. inversion H1; subst. cbn [fst snd List.length]. split; [reflexivity|]. right. split; [lia|eauto].
      * specialize (IH HG' ts' H2' g' (acc ++ [a])). rewrite LA in IH. specialize (IH ltac:(lia)). replace (S n - S (List.length acc)) with (n - List.length acc) in IH by lia.
        cbv zeta in IH. destruct (from_str_each T oc (firstn (n - List.length acc) ss) g') as [r g2]. cbn [fst snd] in *.
        destruct (read_upto (reads T) n ts' g' (acc ++ [a])) as [[l| |f] g3].
        -- destruct IH as (Hlen & l' & [= -> ->] & -> & HL'). cbn [rmap List.length]. split; [lia|]. exists (a :: l'). rewrite <- app_assoc. cbn [List.length app]. auto.
        -- destruct IH as (-> & [->|(K & l' & ->)]); cbn [rmap List.length]; split; auto. right. split; [lia|eauto].
        -- injection IH as -> ->. reflexivity.
    + destruct FD as [o ->]. cbn. auto.
    + destruct FD as [o ->]. reflexivity.
Qed.

(** [T; N]: the same for the first N + 1 texts; then there must have been exactly N. *)
Theorem C56_array_text (G A : Type) (T : utype G A) n oc ss g : Forall good ss -> quiet T -> fills T ->
  user_from_str (uarr T n) oc (array_text ss) g =
  let r := from_str_each T oc (firstn (S n) ss) g in
  (match fst r with Ok l => if List.length ss =? n then Ok l else Err | e => e end, snd r).
Proof.
  intros HG HQ HF. destruct (goods ss HG) as (ds & ts & H1 & H2 & H3).
  rewrite C56_array by auto using array_ok. rewrite (read_text_json _ (DArr ds) _ (PSeq ts true)).
  - cbn [read_arr]. pose proof (reads_each_upto T oc n HQ HF ss ds ts HG H1 H2 g [] ltac:(cbn; lia)) as K. cbv zeta in K. cbn [List.length] in K. rewrite Nat.sub_0_r in K. cbv zeta.
    destruct (read_upto (reads T) n ts g []) as [[l| |f] g'].
    + destruct K as (Hlen & l' & -> & -> & HL). cbn [fst snd rmap app]. rewrite HL. destruct (List.length ss =? n); reflexivity.
    + destruct K as (<- & K). destruct (from_str_each T oc (firstn (S n) ss) g) as [r g2]. cbn [fst snd] in *. destruct K as [->|(K & l & ->)]; [reflexivity|].
      destruct (Nat.eqb_spec (List.length ss) n); [lia|reflexivity].
    + rewrite K. reflexivity.
  - apply array_jtext, H1.
  - rewrite tree_of_arr, H3. reflexivity.
Qed.

Lemma not_broken d t : tree_of d = Some t -> broken t = false.
Proof.
  destruct d as [|b|s|n|l|l].
  - intros [= <-]. reflexivity.
  - intros [= <-]. reflexivity.
  - intros [= <-]. reflexivity.
  - cbn [tree_of]. intros H. assert (C : complete t = true); [|destruct t as [|[]| |]; cbn in *; congruence].
    apply (tree_complete (DNum n)). exact H.
  - rewrite tree_of_arr. destruct (trees_of l); intros [= <-]. reflexivity.
  - rewrite tree_of_obj. destruct (mtrees_of l); intros [= <-]. reflexivity.
Qed.

Lemma lit_not_null n : lit_event n <> Ok ENull.
Proof.
  assert (F : forall r, float_event r <> Ok ENull). { intros [x| |f]; cbn; discriminate. }
  unfold lit_event. destruct (acc_int 0%Z (n_int n)) as [r [|z l]]; [|apply F]. destruct (n_frac n), (n_exp n); try apply F.
  destruct (n_neg n); cbn [negb]; [|discriminate]. destruct (0 <? _)%Z; discriminate.
Qed.

(** Option<T>: null is None and T is not involved; anything else is from_str::<T>. *)
Theorem C56_option_text (G A : Type) (T : utype G A) oc d s g : good s -> JText d s -> quiet T -> fills T ->
  user_from_str (uopt T) oc s g =
  match d with
  | DNull => (Ok None, g)
  | _ => let r := user_from_str T oc s g in (rmap Some (fst r), snd r)
  end.
Proof.
  intros [Hs (d' & t & Hd' & Ht)%json_text_tree] Hd HQ HF. assert (d' = d) by (eapply JText_unique; eassumption). subst d'.
  rewrite C56_option by assumption. rewrite (read_text_json _ d _ t) by assumption. rewrite (from_str_json T oc d s t g) by assumption.
  unfold read_opt. rewrite (not_broken d t Ht). pose proof (fills_den T t g HF) as FD.
  assert (N : d = DNull \/ t <> PLeaf ENull /\ d <> DNull).
  { destruct d as [|b|x|n|l|l]; [left; reflexivity|right..]; (split; [|discriminate]).
    - injection Ht as <-. discriminate.
    - injection Ht as <-. discriminate.
    - cbn [tree_of] in Ht. destruct (lit_event n) as [ev| |f] eqn:EL; cbn in Ht; try discriminate. injection Ht as <-. intros [= ->]. revert EL. apply lit_not_null.
    - rewrite tree_of_arr in Ht. destruct (trees_of l); [injection Ht as <-|]; discriminate.
    - rewrite tree_of_obj in Ht. destruct (mtrees_of l); [injection Ht as <-|]; discriminate. }
  destruct N as [->|[N1 N2]]; [injection Ht as <-; reflexivity|].
  assert (E : match t with PLeaf ENull => (Ok tt, (g, Some None)) | _ => let '(r, (g', o')) := reads T t g None in (r, (g', Some o')) end =
              (let '(r, (g', o')) := reads T t g None in (r, (g', Some o')))) by (destruct t as [|[]| |]; congruence).
  rewrite E. transitivity (let r := den (reads T t g None) in (rmap (@Some A) (fst r), snd r)); [|destruct d; congruence].
  destruct (den (reads T t g None)) as [[a| |f] g']; [rewrite FD|destruct FD as [o ->]..]; reflexivity.
Qed.

(** Box<T> is from_str::<T>. *)
Theorem C56_box_text (G A : Type) (T : utype G A) oc s g : good s -> quiet T -> fills T ->
  user_from_str (ubox T) oc s g = user_from_str T oc s g.
Proof.
  intros [Hs (d & t & Hd & Ht)%json_text_tree] HQ HF. rewrite C56_box by assumption. rewrite (read_text_json _ d _ t) by assumption. rewrite (from_str_json T oc d s t g) by assumption.
  unfold read_box. rewrite (not_broken d t Ht). pose proof (fills_den T t g HF) as FD.
  destruct (den (reads T t g None)) as [[a| |f] g']; [rewrite FD|destruct FD as [o ->]..]; reflexivity.
Qed.

(** (A, B) of "[s1, s2]". *)
Theorem C56_pair_text (G A B : Type) (TA : utype G A) (TB : utype G B) oc s1 s2 g :
  good s1 -> good s2 -> quiet TA -> fills TA -> quiet TB -> fills TB ->
  user_from_str (upair TA TB) oc (array_text [s1; s2]) g =
  match user_from_str TA oc s1 g with
  | (Ok a, g1) => let r := user_from_str TB oc s2 g1 in (rmap (pair a) (fst r), snd r)
  | (Err, g1) => (Err, g1)
  | (Fault f, g1) => (Fault f, g1)
  end.
Proof.
  intros G1 G2 QA FA QB FB. pose proof (Forall_cons s1 G1 (Forall_cons s2 G2 (Forall_nil good))) as HG.
  rewrite C56_pair by auto using array_ok. destruct G1 as [K1 (d1 & t1 & D1 & T1)%json_text_tree], G2 as [K2 (d2 & t2 & D2 & T2)%json_text_tree].
  rewrite (read_text_json _ (DArr [d1; d2]) _ (PSeq [t1; t2] true)).
  - rewrite (from_str_json TA oc d1 s1 t1 g) by assumption. cbn [read_pair read_two]. pose proof (fills_den TA t1 g FA) as FD.
    destruct (den (reads TA t1 g None)) as [[a| |f] g1]; [rewrite FD|destruct FD as [o ->]; reflexivity..].
    rewrite (from_str_json TB oc d2 s2 t2 g1) by assumption. pose proof (fills_den TB t2 g1 FB) as FE.
    destruct (den (reads TB t2 g1 None)) as [[b| |f] g2]; [rewrite FE|destruct FE as [o ->]..]; reflexivity.
  - apply array_jtext. repeat constructor; assumption.
  - rewrite tree_of_arr. cbn [trees_of]. rewrite T1, T2. reflexivity.
Qed.
(** An array of any other length is not a pair. *)
Theorem C56_pair_arity (G A B : Type) (TA : utype G A) (TB : utype G B) oc ss g :
  Forall good ss -> quiet TA -> fills TA -> quiet TB -> fills TB ->
  List.length ss <> 2 -> forall p g', user_from_str (upair TA TB) oc (array_text ss) g <> (Ok p, g').
Proof.
  intros HG QA FA QB FB HL p g'. destruct (goods ss HG) as (ds & ts & H1 & H2 & H3).
  rewrite C56_pair by auto using array_ok. rewrite (read_text_json _ (DArr ds) _ (PSeq ts true)).
  2: apply array_jtext, H1. 2: rewrite tree_of_arr, H3; reflexivity.
  assert (LT : List.length ts <> 2).
  { intros E. apply HL. rewrite <- E. clear - H1 H2. revert ts H2. induction H1 as [|? ? ? ? ? ? IH]; intros ts H2; inversion H2; subst; [reflexivity|]. cbn. f_equal. apply IH. assumption. }
  clear - LT FA FB. cbn [read_pair]. destruct ts as [|t1 [|t2 [|t3 ts]]]; cbn [read_two]; [discriminate| |destruct LT; reflexivity|].
  - destruct (reads TA t1 g None) as [[[]| |f] [g1 [a|]]]; discriminate.
  - pose proof (FA t1 g) as F1. destruct (reads TA t1 g None) as [[[]| |f] [g1 [a|]]]; try discriminate; [|exfalso; eapply F1; reflexivity].
    pose proof (FB t2 g1) as F2. destruct (reads TB t2 g1 None) as [[[]| |f] [g2 [b|]]]; try discriminate. exfalso; eapply F2; reflexivity.
Qed.

(** *** Objects *)
Definition good_member (m : bytes * bytes * bytes) : Prop :=
  let '(kt, k, s) := m in text_ok kt /\ key_text kt k /\ good s.
(** The text of an object, and its members with the keys decoded. *)
Definition members_text (ms : list (bytes * bytes * bytes)) : bytes := object_text (map (fun m => (fst (fst m), snd m)) ms).
Definition members_of (ms : list (bytes * bytes * bytes)) : list (bytes * bytes) := map (fun m => (snd (fst m), snd m)) ms.

Lemma good_members ms : Forall good_member ms -> exists ds ts,
  Forall2 (fun m kd => JText (DStr (fst kd)) (fst m) /\ JText (snd kd) (snd m)) (map (fun m : bytes * bytes * bytes => (fst (fst m), snd m)) ms) ds /\
  mtrees_of ds = Some ts /\
  Forall2 (fun (m : bytes * bytes * bytes) (kt : bytes * ptree) => fst kt = snd (fst m) /\ text_ok (snd m) /\ exists d, JText d (snd m) /\ tree_of d = Some (snd kt)) ms ts.
Proof.
  induction 1 as [|[[kt k] s] ms (H1 & H2 & H3 & (d & t & Hd & Ht)%json_text_tree) _ (ds & ts & D1 & D2 & D3)]; [exists [], []; repeat split; constructor|].
  exists ((k, d) :: ds), ((k, t) :: ts). repeat split.
  - cbn [map]. constructor; [split; assumption|exact D1].
  - cbn [mtrees_of]. rewrite Ht, D2. reflexivity.
  - constructor; [|exact D3]. cbn [fst snd]. eauto.
Qed.
Lemma members_ok ms : Forall good_member ms -> text_ok (members_text ms).
Proof.
  intros H. apply brackets_ok; try lia; unfold non_digit; try lia. induction H as [|[[kt k] s] ms (H1 & H2 & H3) _ IH]; [constructor|]. cbn [map fst snd]. constructor; [|exact IH].
  pose proof (good_part s H3) as [P1 P2]. assert (B : balanced kt) by (eapply jtext_balanced, H2). split.
  - apply text_join; try lia; [split; assumption|unfold non_digit; lia|exact P1].
  - apply balanced_app; [exact B|]. apply balanced_cons; [lia|exact P2].
Qed.
Lemma members_json ms ds : Forall2 (fun m kd => JText (DStr (fst kd)) (fst m) /\ JText (snd kd) (snd m)) (map (fun m : bytes * bytes * bytes => (fst (fst m), snd m)) ms) ds -> JText (DObj ds) (members_text ms).
Proof. apply object_jtext. Qed.

(** Maps: K::from_str, then from_str::<V>, member by member, in document order. *)
Theorem C56_map_text (G K M A : Type) parse (empty : M) (insert : K -> A -> M -> M) (T : utype G A) oc ms g :
  Forall good_member ms -> quiet T -> fills T ->
  user_from_str (umap parse empty insert T) oc (members_text ms) g = from_str_entries T oc parse insert (members_of ms) g empty.
Proof.
  intros HG HQ HF. destruct (good_members ms HG) as (ds & ts & D1 & D2 & D3).
  rewrite C56_map by auto using members_ok. rewrite (read_text_json _ (DObj ds) _ (PMap ts true)).
  2: apply members_json, D1. 2: rewrite tree_of_obj, D2; reflexivity.
  cbn [read_map]. clear - D3 HQ HF. revert g. generalize empty. induction D3 as [|[[kt k] s] [k' t] ms ts (E & Hs & d & Hd & Ht) D3 IH]; intros m g; [reflexivity|].
  cbn [fst snd] in *. subst k'. cbn [read_entries members_of map from_str_entries fst snd]. fold (members_of ms). destruct (parse k g) as [[key| |f] g1]; try reflexivity.
  rewrite (from_str_json T oc d s t g1) by assumption. pose proof (fills_den T t g1 HF) as FD.
  destruct (den (reads T t g1 None)) as [[a| |f] g2]; [rewrite FD; apply IH|destruct FD as [o ->]; reflexivity..].
Qed.

(** Structs: every member is read by from_str of the field's type; unknown members are
    skipped; the last one of a name counts; fields without a member have their default. *)
Lemma over_den {G A} (T : utype G A) t g o : fills T -> overwrites T ->
  match den (reads T t g None) with
  | (Ok a, g') => reads T t g o = (Ok tt, (g', Some a))
  | (Err, g') => exists p, reads T t g o = (Err, (g', p))
  | (Fault f, g') => exists p, reads T t g o = (Fault f, (g', p))
  end.
Proof.
  intros HF HO. pose proof (fills_den T t g HF) as FD. destruct (HO t g o None) as (A1 & A2 & A3).
  destruct (den (reads T t g None)) as [[a| |f] g']; [|destruct FD as [p FD]..]; rewrite FD in *; destruct (reads T t g o) as [r [g1 q]]; cbn [fst snd] in *; subst; eauto.
  rewrite (A3 eq_refl). reflexivity.
Qed.

Lemma field_text {G} oc k d s t : text_ok s -> JText d s -> tree_of d = Some t -> forall (fs : list (ufield G)), Forall (fun f => regular (f_u f)) fs ->
  forall g ps,
  match from_str_field oc fs k s g ps with
  | None => read_field fs k t g ps = None
  | Some (Ok ps', g') => read_field fs k t g ps = Some (Ok tt, (g', ps'))
  | Some (Err, g') => exists q, read_field fs k t g ps = Some (Err, (g', q))
  | Some (Fault f, g') => exists q, read_field fs k t g ps = Some (Fault f, (g', q))
  end.
Proof.
  intros Hs Hd Ht fs HR. induction HR as [|f fs (HQ & HF & HO) _ IH]; intros g ps; [reflexivity|]. destruct ps as [o ps]. cbn [from_str_field read_field fst snd].
  destruct (list_eq_dec Z.eq_dec k (f_name f)) as [E|E].
  - rewrite (from_str_json (f_u f) oc d s t g) by assumption. pose proof (over_den (f_u f) t g o HF HO) as FD.
    destruct (den (reads (f_u f) t g None)) as [[a| |x] g1]; cbn [fst snd rmap]; [rewrite FD; reflexivity|destruct FD as [p ->]; eauto..].
  - specialize (IH g ps). destruct (from_str_field oc fs k s g ps) as [[[ps'| |x] g']|]; cbn [rmap].
    + rewrite IH. reflexivity.
    + destruct IH as [q ->]. eauto.
    + destruct IH as [q ->]. eauto.
    + rewrite IH. reflexivity.
Qed.
Lemma whole_complete t : whole t = complete t.
Proof.
  induction t as [|ev|l c IH|l c IH] using ptree_ind'; cbn [whole complete]; [reflexivity|destruct ev; reflexivity| |]; f_equal; induction IH as [|x l Hx _ IHl]; cbn [forallb]; [reflexivity|congruence|reflexivity|congruence].
Qed.

Theorem C56_struct_text (G : Type) (fs : list (ufield G)) oc ms g :
  Forall good_member ms -> Forall (fun f => regular (f_u f)) fs ->
  user_from_str (ustruct fs) oc (members_text ms) g = from_str_struct oc fs (members_of ms) g.
Proof.
  intros HG HR. destruct (good_members ms HG) as (ds & ts & D1 & D2 & D3).
  rewrite C56_struct; [|apply members_ok, HG|eapply Forall_impl; [|exact HR]; intros f [H _]; exact H].
  rewrite (read_text_json _ (DObj ds) _ (PMap ts true)). 2: apply members_json, D1. 2: rewrite tree_of_obj, D2; reflexivity.
  cbn [read_struct]. unfold from_str_struct. destruct (defaults fs g) as [[ps| |f] g1]; [|reflexivity..].
  enough (K : match from_str_fields oc fs (members_of ms) g1 ps with
              | (Ok p, g') => read_fields fs ts g1 ps = (Ok p, g')
              | (Err, g') => read_fields fs ts g1 ps = (Err, g')
              | (Fault f, g') => read_fields fs ts g1 ps = (Fault f, g')
              end).
  { destruct (from_str_fields oc fs (members_of ms) g1 ps) as [[p| |f] g']; rewrite K; unfold require; cbn [fst snd rmap store]; [destruct (all_some fs p); reflexivity|reflexivity..]. }
  clear - D3 HR. revert g1 ps. induction D3 as [|[[kt k] s] [k' t] ms ts (E & Hs & d & Hd & Ht) D3 IH]; intros g ps; [reflexivity|].
  cbn [fst snd] in *. subst k'. cbn [read_fields members_of map from_str_fields fst snd]. fold (members_of ms).
  pose proof (field_text oc k d s t Hs Hd Ht fs HR g ps) as F.
  destruct (from_str_field oc fs k s g ps) as [[[ps'| |x] g']|].
  - rewrite F. apply IH.
  - destruct F as [q ->]. reflexivity.
  - destruct F as [q ->]. reflexivity.
  - rewrite F, whole_complete, (tree_complete d t Ht). apply IH.
Qed.

(** A field that is absent from the text: None for an Option field, and the struct is read
    as if the field were not there; an error for the other containers, which have no
    default. *)
Lemma fields_absent {G} oc (f : ufield G) fs ms g o ps : ~ In (f_name f) (map fst ms) ->
  from_str_fields oc (f :: fs) ms g (o, ps) =
  let r := from_str_fields oc fs ms g ps in (rmap (pair o) (fst r), snd r).
Proof.
  revert g ps. induction ms as [|[k s] ms IH]; intros g ps H; [reflexivity|]. cbn [map fst In] in H. cbn [from_str_fields from_str_field fst snd].
  destruct (list_eq_dec Z.eq_dec k (f_name f)) as [E|E]; [tauto|].
  destruct (from_str_field oc fs k s g ps) as [[[p| |x] g']|]; cbn [rmap]; [apply IH; tauto|reflexivity|reflexivity|apply IH; tauto].
Qed.
Theorem C56_missing_option (G A : Type) (T : utype G A) n (fs : list (ufield G)) oc ms g :
  Forall good_member ms -> quiet T -> Forall (fun f => regular (f_u f)) fs -> ~ In n (map fst (members_of ms)) ->
  user_from_str (ustruct ({| f_name := n; f_u := uopt T |} :: fs)) oc (members_text ms) g =
  let r := user_from_str (ustruct fs) oc (members_text ms) g in (rmap (pair None) (fst r), snd r).
Proof.
  intros HM HQ HF HN. rewrite !C56_struct_text; try assumption.
  2: { constructor; [|exact HF]. cbn [f_u]. apply C56_containers_are_regular, HQ. }
  unfold from_str_struct. cbn [defaults f_u uopt u_default]. destruct (defaults fs g) as [[ps| |x] g1]; cbn [fst snd rmap]; [|reflexivity..].
  pose proof (fields_absent oc {| f_name := n; f_u := uopt T |} fs (members_of ms) g1 (Some None) ps HN) as K.
  match goal with |- context [from_str_fields oc ({| f_name := n; f_u := uopt T |} :: fs) ?m ?g ?p] => replace (from_str_fields oc ({| f_name := n; f_u := uopt T |} :: fs) m g p) with (let r := from_str_fields oc fs (members_of ms) g1 ps in (rmap (pair (Some (@None A))) (fst r), snd r)) by (symmetry; exact K) end.
  cbn [fst snd]. destruct (from_str_fields oc fs (members_of ms) g1 ps) as [[p| |x] g2]; cbn [fst snd rmap require]; [|reflexivity..].
  unfold require. cbn [fst snd all_some]. destruct (all_some fs p); reflexivity.
Qed.
(** No default: the default implementation of default(). *)
Definition required {G A} (T : utype G A) : Prop := forall g, u_default T g = (Ok None, g).
Theorem C56_required_types (G : Type) :
  (forall A (T : utype G A), required (uvec T) /\ (forall n, required (uarr T n)) /\ required (ubox T)) /\
  (forall A B (TA : utype G A) (TB : utype G B), required (upair TA TB)) /\
  (forall K M A parse (empty : M) (insert : K -> A -> M -> M) (T : utype G A), required (umap parse empty insert T)) /\
  (forall fs : list (ufield G), required (ustruct fs)).
Proof. repeat split. Qed.
Fixpoint absent {G} (f : ufield G) fs1 fs2 : fopts (fs1 ++ f :: fs2) -> Prop :=
  match fs1 with
  | [] => fun ps => fst ps = None
  | _ :: fs1' => fun ps => absent f fs1' fs2 (snd ps)
  end.
Lemma absent_none {G} (f : ufield G) fs1 fs2 ps : absent f fs1 fs2 ps -> all_some (fs1 ++ f :: fs2) ps = None.
Proof.
  induction fs1 as [|f' fs1 IH]; destruct ps as [o ps]; cbn [absent app all_some fst snd]; [intros ->; reflexivity|]. intros H.
  match goal with |- match o with Some a => match ?x with _ => _ end | None => _ end = _ => assert (E : x = None) by exact (IH _ H); rewrite E end. destruct o; reflexivity.
Qed.
Lemma defaults_absent {G} (f : ufield G) fs1 fs2 : required (f_u f) -> forall g g1 ps, defaults (fs1 ++ f :: fs2) g = (Ok ps, g1) -> absent f fs1 fs2 ps.
Proof.
  intros HR. induction fs1 as [|f' fs1 IH]; intros g g1 ps; cbn [app defaults absent].
  - rewrite HR. destruct (defaults fs2 g) as [[p| |x] g2]; cbn [fst snd rmap]; [|discriminate..]. intros [= <- <-]. reflexivity.
  - destruct (u_default (f_u f') g) as [[o| |x] g2]; [|discriminate..]. destruct (defaults (fs1 ++ f :: fs2) g2) as [[p| |x] g3] eqn:E; cbn [fst snd rmap]; [|discriminate..].
    intros [= <- <-]. apply (IH _ _ _ E).
Qed.
Lemma field_stays_absent {G} oc (f : ufield G) fs1 fs2 k s g ps ps' g' : k <> f_name f -> absent f fs1 fs2 ps ->
  from_str_field oc (fs1 ++ f :: fs2) k s g ps = Some (Ok ps', g') -> absent f fs1 fs2 ps'.
Proof.
  intros HK. revert ps'. induction fs1 as [|f' fs1 IH]; intros ps' HA; cbn [app from_str_field absent] in *.
  - destruct (list_eq_dec Z.eq_dec k (f_name f)) as [E|E]; [tauto|]. destruct (from_str_field oc fs2 k s g (snd ps)) as [[[p| |x] g2]|]; cbn [rmap]; try discriminate. intros [= <- <-]. exact HA.
  - destruct (list_eq_dec Z.eq_dec k (f_name f')) as [E|E].
    + destruct (user_from_str (f_u f') oc s g) as [[a| |x] g2]; cbn [fst snd rmap]; try discriminate. intros [= <- <-]. exact HA.
    + destruct (from_str_field oc (fs1 ++ f :: fs2) k s g (snd ps)) as [[[p| |x] g2]|] eqn:EF; cbn [rmap]; try discriminate. intros [= <- <-]. cbn [snd]. apply (IH _ _ HA EF).
Qed.
Lemma fields_stay_absent {G} oc (f : ufield G) fs1 fs2 ms g ps : ~ In (f_name f) (map fst ms) -> absent f fs1 fs2 ps ->
  match from_str_fields oc (fs1 ++ f :: fs2) ms g ps with (Ok ps', _) => absent f fs1 fs2 ps' | _ => True end.
Proof.
  revert g ps. induction ms as [|[k s] ms IH]; intros g ps HN HA; [exact HA|]. cbn [map fst In] in HN. cbn [from_str_fields].
  destruct (from_str_field oc (fs1 ++ f :: fs2) k s g ps) as [[[p| |x] g2]|] eqn:EF; try exact Logic.I.
  - apply IH; [tauto|]. eapply field_stays_absent; [|exact HA|exact EF]. intros ->. tauto.
  - apply IH; tauto.
Qed.
Theorem C56_missing_required (G : Type) (f : ufield G) fs1 fs2 oc ms g :
  Forall good_member ms -> Forall (fun f => regular (f_u f)) (fs1 ++ f :: fs2) -> required (f_u f) ->
  ~ In (f_name f) (map fst (members_of ms)) ->
  forall v g', user_from_str (ustruct (fs1 ++ f :: fs2)) oc (members_text ms) g <> (Ok v, g').
Proof.
  intros HM HF HR HN v g'. rewrite C56_struct_text by assumption. unfold from_str_struct.
  destruct (defaults (fs1 ++ f :: fs2) g) as [[ps| |x] g1] eqn:ED; [|discriminate..]. pose proof (defaults_absent f fs1 fs2 HR g g1 ps ED) as K.
  pose proof (fields_stay_absent oc f fs1 fs2 (members_of ms) g1 ps HN K) as K'.
  destruct (from_str_fields oc (fs1 ++ f :: fs2) (members_of ms) g1 ps) as [[p| |x] g2] eqn:EF; unfold require; cbn [fst snd rmap]; [|discriminate..].
  rewrite (absent_none f fs1 fs2 p K'). discriminate.
Qed.

(** ** A user-defined type that meets the hypotheses

    Its world is a log. It reads strings (writing them to the log), refuses "bad", panics
    on "boom", and reads an array, whose elements it only logs, as the number of its
    elements. *)
Inductive shv := ShTop | ShSub.
Definition sh_state : Type := (list bytes * (option bytes * list Z))%type.
Definition sh_str (v : shv) (s : bytes) (st : sh_state) : res unit * sh_state :=
  let '(g, (o, u)) := st in
  if list_eq_dec Z.eq_dec s (bs "bad") then (Err, (s :: g, (o, u)))
  else if list_eq_dec Z.eq_dec s (bs "boom") then (Fault FPanic, (s :: g, (o, u)))
  else (Ok tt, (s :: g, (match v with ShTop => Some s | ShSub => o end, u))).
Definition sh_ops : iface sh_state shv unit Empty_set := {|
  v_null := fun _ st => (Err, st); v_bool := fun _ _ st => (Err, st); v_str := sh_str;
  v_neg := fun _ _ st => (Err, st); v_nonneg := fun _ _ st => (Err, st); v_float := fun _ _ st => (Err, st);
  v_seq := fun v st =>
    match v with ShTop => let '(g, (o, u)) := st in (Ok tt, (g, (o, 0%Z :: u))) | ShSub => (Err, st) end;
  v_map := fun _ st => (Err, st);
  s_element := fun _ st => let '(g, (o, u)) := st in (Ok ShSub, (g, (o, match u with n :: u' => (n + 1)%Z :: u' | [] => [] end)));
  s_finish := fun _ st => let '(g, (o, u)) := st in (Ok tt, (g, (Some u, u)));
  s_drop := fun _ st => let '(g, (o, u)) := st in (Ok tt, (g, (o, tl u)));
  m_key := fun m : Empty_set => match m with end;
  m_finish := fun m : Empty_set => match m with end;
  m_drop := fun m : Empty_set => match m with end
|}.
Definition shout : utype (list bytes) bytes := {|
  u_ops := sh_ops; u_begin := fun g o => (Ok ShTop, (g, (o, []))); u_default := no_default; u_idle := []
|}.

Ltac sp := split; [reflexivity|split; [reflexivity|let E := fresh in intros E; discriminate E]].
Lemma shout_quiet : quiet shout.
Proof. intros [q|[]] [g [o u]]; discriminate. Qed.
Lemma shout_reads_seq items c g o1 o2 u :
  fst (feed_items sh_ops (feed sh_ops) tt items c (g, (o1, u))) = fst (feed_items sh_ops (feed sh_ops) tt items c (g, (o2, u))) /\
  fst (snd (feed_items sh_ops (feed sh_ops) tt items c (g, (o1, u)))) = fst (snd (feed_items sh_ops (feed sh_ops) tt items c (g, (o2, u)))) /\
  (fst (feed_items sh_ops (feed sh_ops) tt items c (g, (o1, u))) = Ok tt ->
   snd (feed_items sh_ops (feed sh_ops) tt items c (g, (o1, u))) = snd (feed_items sh_ops (feed sh_ops) tt items c (g, (o2, u))) /\
   fst (snd (snd (feed_items sh_ops (feed sh_ops) tt items c (g, (o1, u))))) <> None).
Proof.
  revert g u. induction items as [|t items IH]; intros g u.
  - destruct c; cbn; [split; [reflexivity|split; [reflexivity|split; [reflexivity|discriminate]]]|sp].
  - cbn [feed_items]. cbn [sh_ops s_element]. destruct t as [|ev|l c'|l c']; cbn [feed]; try sp.
    destruct ev as [|b|s|n|n|f| |]; cbn [sh_ops v_null v_bool v_str v_neg v_nonneg v_float]; try sp. cbn [sh_str].
    destruct (list_eq_dec Z.eq_dec s (bs "bad")); [sp|]. destruct (list_eq_dec Z.eq_dec s (bs "boom")); [sp|].
    apply IH.
Qed.
Lemma shout_regular : regular shout.
Proof.
  split; [exact shout_quiet|]. split.
  - intros t g g' o. destruct t as [|ev|items c|ms c]; try (intros E; discriminate E).
    + destruct ev as [|b|s|n|n|f| |]; try (intros E; discriminate E). cbn -[bs]. destruct (list_eq_dec Z.eq_dec s (bs "bad")); [intros E; discriminate E|]. destruct (list_eq_dec Z.eq_dec s (bs "boom")); [intros E; discriminate E|]. intros [= _ <-]. discriminate.
    + unfold reads. cbn [shout u_begin feed]. cbn [u_ops shout sh_ops v_seq]. fold sh_ops. destruct (shout_reads_seq items c g None None [0%Z]) as (_ & _ & K).
      unfold seen. intros E. injection E as E1 _ E2. destruct (K E1) as [_ K']. intros ->. exact (K' E2).
  - intros t g o1 o2. destruct t as [|ev|items c|ms c]; try sp.
    + destruct ev as [|b|s|n|n|f| |]; try sp. cbn -[bs]. destruct (list_eq_dec Z.eq_dec s (bs "bad")); [sp|]. destruct (list_eq_dec Z.eq_dec s (bs "boom")); [sp|repeat split].
    + unfold reads. cbn [shout u_begin feed]. cbn [u_ops shout sh_ops v_seq]. fold sh_ops. destruct (shout_reads_seq items c g o1 o2 [0%Z]) as (K1 & K2 & K3).
      unfold seen. cbn [fst snd]. split; [exact K1|]. split; [exact K2|]. intros E. exact (f_equal (fun s => (fst s, fst (snd s))) (proj1 (K3 E))).
Qed.

(** struct S { name: T, tag: Option<T>, rest: Vec<(T, [T; 2])> } *)
Definition s_fields : list (ufield (list bytes)) :=
  [ {| f_name := bs "name"; f_u := shout |};
    {| f_name := bs "tag"; f_u := uopt shout |};
    {| f_name := bs "rest"; f_u := uvec (upair (ubox shout) (uarr shout 2)) |} ].
Example user_struct_runs :
  user_from_str (ustruct s_fields) true
    (bs "{""rest"": [[""a"",[""b"",""c""]], [[""x"",""y""],[""d"",""e""]]], ""zzz"": {""name"": [""bad""]}, ""name"": ""one"", ""name"": ""two""}") [] =
  (Ok (bs "two", (None, ([(bs "a", [bs "b"; bs "c"]); ([2%Z], [bs "d"; bs "e"])], tt))),
   map (fun s => bs s) ["two"; "one"; "e"; "d"; "y"; "x"; "c"; "b"; "a"])%string.
Proof. vm_compute. reflexivity. Qed.

Example user_struct_fails :
  (* T's error, after the log entries before it *)
  user_from_str (ustruct s_fields) true (bs "{""tag"":""a"",""name"":""bad"",""rest"":[]}") [] = (Err, [bs "bad"; bs "a"]) /\
  (* a missing field *)
  user_from_str (ustruct s_fields) true (bs "{""tag"":""a"",""rest"":[]}") [] = (Err, [bs "a"]) /\
  (* T's panic is propagated *)
  user_from_str (ustruct s_fields) true (bs "{""rest"":[[""a"",[""boom"",""c""]]]}") [] = (Fault FPanic, [bs "boom"; bs "a"]) /\
  (* three elements for [T; 2]: reported before the fourth *)
  user_from_str (ustruct s_fields) true (bs "{""rest"":[[""a"",[""b"",""c"",""d"",""e""]]]}") [] = (Err, map bs ["d"; "c"; "b"; "a"]%string).
Proof. vm_compute. repeat split. Qed.

(** The hypotheses of the theorems about texts are met by texts such as these, and by the
    fields of S. *)
Lemma good_by s : text_ok s -> (exists j, from_str [] 4 true TValue s = Ok (VJson j)) -> good s.
Proof. intros H [j Hj]. split; [exact H|]. apply (C01_value_accepts_exactly_json [] 4 true s); eauto; cbn; lia. Qed.
Ltac good := apply good_by; [text_ok|eexists; vm_compute; reflexivity].
Definition s_texts : list bytes := [bs " ""a"" "; bs "[1, 2.5e3, null]"; bs "{""k"": [true]}"].
Example s_texts_good : Forall good s_texts.
Proof. repeat constructor; good. Qed.
Lemma key_by kt k : text_ok kt -> from_str [] 4 true TString kt = Ok (VStr k) -> key_text kt k.
Proof. intros H HR. apply from_str_reads in HR; [|assumption|reflexivity|reflexivity|cbn; lia]. destruct HR as (d & Hd & R). inversion R; subst. exact Hd. Qed.
Definition s_members : list (bytes * bytes * bytes) :=
  [(bs """rest""", bs "rest", bs "[[""a"",[""b"",""c""]]]"); (bs """n\u0061me"" ", bs "name", bs " ""one"""); (bs """other""", bs "other", bs "{""x"":7}")].
Example s_members_good : Forall good_member s_members /\ Forall (fun f => regular (f_u f)) s_fields.
Proof.
  split.
  - repeat constructor; try good; try text_ok; apply key_by; try text_ok; vm_compute; reflexivity.
  - destruct (C56_containers_are_regular (list bytes)) as (H1 & H2 & _ & _). destruct (H1 _ shout shout_quiet) as (_ & Ha & Ho & Hb).
    apply Forall_cons; [exact shout_regular|]. apply Forall_cons; [exact Ho|]. apply Forall_cons; [|constructor].
    refine (proj1 (H1 _ _ _)). refine (proj1 (H2 _ _ _ _ _ _)); [apply Hb|apply Ha].
Qed.
Example s_members_read :
  user_from_str (ustruct s_fields) true (members_text s_members) [] =
  (Ok (bs "one", (None, ([(bs "a", [bs "b"; bs "c"])], tt))), map bs ["one"; "c"; "b"; "a"]%string).
Proof. rewrite C56_struct_text by apply s_members_good. vm_compute. reflexivity. Qed.
