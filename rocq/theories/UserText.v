(** C56: texts of arrays and objects made of the texts of their parts. *)
From Coq Require Import ZArith List Bool Lia.
From Verif Require Import Base Utf8 Utf8Facts Lexer Driver Grammar LexSpec Tree TreeFacts DriverFacts GrammarFacts RunFacts RunText FromStr UserTypes UserSpec UserFacts UserMain.
Import ListNotations.
Open Scope Z_scope.

(** ** Text of arrays *)
Lemma utf8_app a b : Utf8 a -> Utf8 b -> Utf8 (a ++ b).
Proof.
  intros (ca & Ha & ->) (cb & Hb & ->). exists (ca ++ cb). split; [rewrite forallb_app, Ha, Hb; reflexivity|].
  unfold encode_all. rewrite map_app, concat_app. reflexivity.
Qed.
Lemma utf8_ascii c s : 0 <= c < 128 -> Utf8 s -> Utf8 (c :: s).
Proof. intros H Hs. apply (utf8_app [c]); [|exact Hs]. apply str_ok_spec. cbn. destruct (Z.ltb_spec c 128); try lia. destruct (Z.leb_spec 0 c); try lia. unfold inr. destruct (Z.leb_spec c 127); try lia. destruct (Z.leb_spec 0 c); try lia. reflexivity. Qed.

Lemma jtext_balanced d s : JText d s -> balanced s.
Proof. intros (w1 & t & w2 & -> & H1 & Ht & H2). apply balanced_app; [apply ws_balanced, H1|]. apply balanced_app; [exact (proj1 texts_balanced d t Ht)|apply ws_balanced, H2]. Qed.

Definition part (s : bytes) : Prop := text_ok s /\ balanced s.
Lemma text_join p c q : part p -> 0 <= c < 128 -> c <> 34 -> non_digit c -> text_ok q -> text_ok (p ++ c :: q).
Proof.
  intros [[Hu Hr] Hb] Hc H34 Hd [Qu Qr]. split.
  - apply utf8_app; [exact Hu|]. apply utf8_ascii; assumption.
  - apply runs_join; auto. apply runs_cons; auto. unfold i32_MAX. lia.
Qed.
Lemma joined_cons s s' ss : joined (s :: s' :: ss) = s ++ 44 :: joined (s' :: ss).
Proof. reflexivity. Qed.
Lemma joined_ok ss : Forall part ss -> forall c q, 0 <= c < 128 -> c <> 34 -> non_digit c -> text_ok q -> text_ok (joined ss ++ c :: q).
Proof.
  induction 1 as [|s ss Hs Hss IH]; intros c q H1 H2 H3 Hq.
  - cbn [joined app]. apply (text_join [] c q); auto. repeat split. { exists []. split; reflexivity. } apply runs_nil. unfold i32_MAX. lia.
  - destruct ss as [|s' ss].
    + cbn [joined]. apply text_join; auto.
    + rewrite joined_cons, <- app_assoc. cbn [app]. apply text_join; auto; try lia; unfold non_digit; lia.
Qed.
Lemma brackets_ok o c ss : 0 <= o < 128 -> o <> 34 -> non_digit o -> 0 <= c < 128 -> c <> 34 -> non_digit c -> Forall part ss -> text_ok (o :: joined ss ++ [c]).
Proof.
  intros. assert (N : text_ok []). { split; [exists []; split; reflexivity|apply runs_nil; unfold i32_MAX; lia]. }
  apply (text_join [] o); auto; [repeat split; apply N|]. apply joined_ok; auto.
Qed.

(** Its document. *)
Lemma joined_etext ss ds : Forall2 (fun s d => JText d s) ss ds -> ss <> [] -> EText ds (joined ss).
Proof.
  induction 1 as [|s d ss ds (w1 & t & w2 & -> & H1 & Ht & H2) H IH]; intros N; [congruence|].
  destruct H as [|s' d' ss ds H' H].
  - cbn [joined]. apply et_one; assumption.
  - rewrite joined_cons, <- !app_assoc. apply et_cons; auto. apply IH. discriminate.
Qed.
Lemma array_jtext ss ds : Forall2 (fun s d => JText d s) ss ds -> JText (DArr ds) (array_text ss).
Proof.
  intros H. exists [], (array_text ss), []. rewrite app_nil_r. split; [reflexivity|]. split; [constructor|]. split; [|constructor].
  unfold array_text. destruct H as [|s d ss ds H1 H2]; [apply (vt_arr0 []); constructor|]. apply vt_arr. apply joined_etext; [constructor; assumption|discriminate].
Qed.
Lemma object_mtext ms ds : Forall2 (fun m kd => JText (DStr (fst kd)) (fst m) /\ JText (snd kd) (snd m)) ms ds -> ms <> [] ->
  MText ds (joined (map (fun m => fst m ++ 58 :: snd m) ms)).
Proof.
  induction 1 as [|[kt s] [k d] ms ds [(v1 & x & v2 & E1 & G1 & Gx & G2) (w1 & t & w2 & E2 & H1 & Ht & H2)] H IH]; intros N; [congruence|]. cbn [fst snd] in *. subst kt s.
  assert (SX : StrText x k) by (inversion Gx; assumption).
  destruct H as [|m' d' ms ds H' H].
  - cbn [map joined fst snd]. rewrite <- !app_assoc. cbn [app]. apply mt_one; assumption.
  - cbn [map]. rewrite joined_cons. cbn [fst snd]. rewrite <- !app_assoc. cbn [app]. rewrite <- !app_assoc. apply mt_cons; auto. apply IH. discriminate.
Qed.
Lemma object_jtext ms ds : Forall2 (fun m kd => JText (DStr (fst kd)) (fst m) /\ JText (snd kd) (snd m)) ms ds -> JText (DObj ds) (object_text ms).
Proof.
  intros H. exists [], (object_text ms), []. rewrite app_nil_r. split; [reflexivity|]. split; [constructor|]. split; [|constructor].
  unfold object_text. destruct H as [|s d ms ds H1 H2]; [apply (vt_obj0 []); constructor|]. apply vt_obj. apply object_mtext; [constructor; assumption|discriminate].
Qed.

(** ** from_str *)
Definition quiet {G A} (T : utype G A) : Prop := quiet_drops (u_ops T).

Theorem user_from_str_reads {G A} (T : utype G A) oc s g : text_ok s -> quiet T -> user_from_str T oc s g = read_text (reads T) s g.
Proof.
  intros [Hu HR] HQ. apply str_ok_spec in Hu. unfold user_from_str, read_text, reads. 
  destruct (u_begin T g None) as [[v| |f] st]; [|destruct (pv s); reflexivity..].
  rewrite (from_str_impl_eq (u_ops T) oc s v st Hu HR HQ). unfold walk_result. destruct (pv s) as [t rest].
  destruct (feed (u_ops T) t v st) as [[[]| |f] [g' [o u]]]; cbn [seen fst snd]; [|reflexivity..].
  destruct rest as [r|]; [destruct (skip_ws r)|]; destruct o; reflexivity.
Qed.

(** What is known of a JSON text. *)
Lemma read_text_json {G A} (D : reader G A) d s t g : JText d s -> tree_of d = Some t ->
  read_text D s g =
  match D t g None with
  | (Ok _, (g', Some a)) => (Ok a, g')
  | (Ok _, (g', None)) => (Err, g')
  | (Err, (g', _)) => (Err, g')
  | (Fault f, (g', _)) => (Fault f, g')
  end.
Proof.
  intros Hd Ht. unfold read_text. destruct (pv_text _ _ _ Hd Ht) as (r & -> & Hr). apply skip_ws_nil in Hr. rewrite Hr.
  destruct (D t g None) as [[[]| |f] [g' [a|]]]; reflexivity.
Qed.
