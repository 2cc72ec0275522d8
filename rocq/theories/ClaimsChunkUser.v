(** C71 for user-defined element types: reading in pieces makes the same calls in the same order. *)
From Coq Require Import String ZArith List Bool Lia.
From Verif Require Import Base Utf8 F64 Lexer Grammar LexSpec Types Impls FromStr UserTypes UserSpec UserFacts UserMain UserText ClaimsUser ClaimsPanic ClaimsParse.
Import ListNotations.
Open Scope nat_scope.

Lemma each_app {G A} (T : utype G A) oc ss1 ss2 g :
  from_str_each T oc (ss1 ++ ss2) g =
  match from_str_each T oc ss1 g with
  | (Ok l1, g1) => let r := from_str_each T oc ss2 g1 in (rmap (app l1) (fst r), snd r)
  | (Err, g1) => (Err, g1)
  | (Fault f, g1) => (Fault f, g1)
  end.
Proof.
  revert g. induction ss1 as [|s ss1 IH]; intros g; cbn [app from_str_each].
  - destruct (from_str_each T oc ss2 g) as [[l| |f] g']; reflexivity.
  - destruct (user_from_str T oc s g) as [[a| |f] g1]; try reflexivity. rewrite IH. cbv zeta.
    destruct (from_str_each T oc ss1 g1) as [[l| |f] g2]; cbn [rmap fst snd]; try reflexivity.
    destruct (from_str_each T oc ss2 g2) as [[l2| |f2] g3]; reflexivity.
Qed.
(** Whatever the element type does -- fail, panic, count, write to a file --: reading [a,b] as a Vec is reading
    [a], then, in the state that leaves, [b], and appending. *)
Theorem C71_user_arrays (G A : Type) (T : utype G A) oc ss1 ss2 g : Forall good ss1 -> Forall good ss2 -> quiet T -> fills T ->
  user_from_str (uvec T) oc (array_text (ss1 ++ ss2)) g =
  match user_from_str (uvec T) oc (array_text ss1) g with
  | (Ok l1, g1) => let r := user_from_str (uvec T) oc (array_text ss2) g1 in (rmap (app l1) (fst r), snd r)
  | (Err, g1) => (Err, g1)
  | (Fault f, g1) => (Fault f, g1)
  end.
Proof.
  intros H1 H2 HQ HF. rewrite !C56_vec_text by (auto; apply Forall_app; auto). rewrite each_app.
  destruct (from_str_each T oc ss1 g) as [[l| |f] g1]; try reflexivity. cbv zeta. rewrite C56_vec_text by auto. reflexivity.
Qed.
Lemma entries_app {G A K M} (T : utype G A) oc parse (insert : K -> A -> M -> M) ms1 ms2 g m :
  from_str_entries T oc parse insert (ms1 ++ ms2) g m =
  match from_str_entries T oc parse insert ms1 g m with
  | (Ok m1, g1) => from_str_entries T oc parse insert ms2 g1 m1
  | (Err, g1) => (Err, g1)
  | (Fault f, g1) => (Fault f, g1)
  end.
Proof.
  revert g m. induction ms1 as [|[k s] ms1 IH]; intros g m; cbn [app from_str_entries]; [reflexivity|].
  destruct (parse k g) as [[key| |f] g1]; try reflexivity. destruct (user_from_str T oc s g1) as [[a| |f] g2]; try reflexivity. apply IH.
Qed.
(** Maps: the second piece is inserted into the map that the first one made. *)
Theorem C71_user_maps (G K M A : Type) parse (empty : M) (insert : K -> A -> M -> M) (T : utype G A) oc ms1 ms2 g :
  Forall good_member ms1 -> Forall good_member ms2 -> quiet T -> fills T ->
  user_from_str (umap parse empty insert T) oc (members_text (ms1 ++ ms2)) g =
  match user_from_str (umap parse empty insert T) oc (members_text ms1) g with
  | (Ok m1, g1) => user_from_str (umap parse m1 insert T) oc (members_text ms2) g1
  | (Err, g1) => (Err, g1)
  | (Fault f, g1) => (Fault f, g1)
  end.
Proof.
  intros H1 H2 HQ HF. rewrite !C56_map_text by (auto; apply Forall_app; auto). unfold members_of. rewrite map_app, entries_app.
  fold (members_of ms1). destruct (from_str_entries T oc parse insert (members_of ms1) g empty) as [[m| |f] g1]; try reflexivity.
  rewrite C56_map_text by auto. reflexivity.
Qed.

(** ** Concrete case: an element type that logs what it sees and panics on "boom" *)
Example ex_C71_user :
  Forall good [bs " ""a"" "; bs """b"""] /\ Forall good [bs """c"""; bs """boom"""] /\ quiet shout /\ fills shout /\
  user_from_str (uvec shout) true (array_text [bs " ""a"" "; bs """b"""]) [] = (Ok [bs "a"; bs "b"], [bs "b"; bs "a"]) /\
  user_from_str (uvec shout) true (array_text [bs """c"""; bs """boom"""]) [bs "b"; bs "a"] = (Fault FPanic, [bs "boom"; bs "c"; bs "b"; bs "a"]) /\
  user_from_str (uvec shout) true (bs "[ ""a"" ,""b"",""c"",""boom""]") [] = (Fault FPanic, [bs "boom"; bs "c"; bs "b"; bs "a"]).
Proof.
  split; [repeat constructor; good|]. split; [repeat constructor; good|]. split; [exact shout_quiet|]. split; [apply shout_regular|].
  split; [vm_compute; reflexivity|]. split; vm_compute; reflexivity.
Qed.
