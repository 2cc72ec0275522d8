(** For C71: pieces of texts of arrays, objects and strings. *)
From Coq Require Import String ZArith List Bool Lia Permutation.
From Verif Require Import Base Utf8 Lexer Grammar LexSpec Types Reading MapFacts Unambiguous.
Import ListNotations.
Open Scope Z_scope.

(** The pieces of a text, with commas in between. *)
Fixpoint with_commas (l : list bytes) : bytes :=
  match l with [] => [] | [c] => c | c :: r => c ++ 44 :: with_commas r end.

Lemma ws_head c w : Ws (c :: w) -> c = 32 \/ c = 9 \/ c = 10 \/ c = 13.
Proof. intros H. inversion H; subst; unfold ws_char in *; lia. Qed.
Lemma ws_last w c : Ws (w ++ [c]) -> c = 32 \/ c = 9 \/ c = 10 \/ c = 13.
Proof.
  intros H. induction w as [|x w IH]; [exact (ws_head _ _ H)|]. inversion H; subst. apply IH. assumption.
Qed.
Lemma outer d o c a : o <> 32 -> o <> 9 -> o <> 10 -> o <> 13 -> c <> 32 -> c <> 9 -> c <> 10 -> c <> 13 ->
  JText d (o :: a ++ [c]) -> VText d (o :: a ++ [c]).
Proof.
  intros O1 O2 O3 O4 C1 C2 C3 C4 (w1 & t & w2 & E & H1 & H & H2).
  assert (w1 = []) as -> by (destruct w1 as [|x w1]; [reflexivity|]; cbn [app] in E; injection E as <- _; destruct (ws_head _ _ H1) as [|[|[|]]]; lia).
  destruct w2 as [|y w2] using rev_ind; [cbn [app] in E; rewrite app_nil_r in E; rewrite E; exact H|].
  exfalso. cbn [app] in E. change (o :: a ++ [c]) with ((o :: a) ++ [c]) in E. rewrite app_assoc in E. apply app_inj_tail in E. destruct E as [_ ->].
  destruct (ws_last _ _ H2) as [|[|[|]]]; lia.
Qed.
Lemma arr_piece l a : l <> [] -> (JText (DArr l) (91 :: a ++ [93]) <-> EText l a).
Proof.
  intros NE. split.
  - intros H. apply outer in H; [|lia..]. inversion H as [| | | | |w Hw E1 E2|l' t Ht E1 E2| |]; subst; [destruct (NE eq_refl)|].
    apply app_inj_tail in E2. destruct E2 as [-> _]. exact Ht.
  - intros H. exists [], (91 :: a ++ [93]), []. rewrite app_nil_r. repeat split; constructor. exact H.
Qed.
Lemma obj_piece l a : l <> [] -> (JText (DObj l) (123 :: a ++ [125]) <-> MText l a).
Proof.
  intros NE. split.
  - intros H. apply outer in H; [|lia..]. inversion H as [| | | | | | |w Hw E1 E2|l' t Ht E1 E2]; subst; [destruct (NE eq_refl)|].
    apply app_inj_tail in E2. destruct E2 as [-> _]. exact Ht.
  - intros H. exists [], (123 :: a ++ [125]), []. rewrite app_nil_r. repeat split; constructor. exact H.
Qed.
Lemma etext_app la a lb b : EText la a -> EText lb b -> EText (la ++ lb) (a ++ 44 :: b).
Proof.
  intros Ha Hb. induction Ha as [d w1 t w2 H1 H H2|d w1 t w2 l ts H1 H H2 Hl IH]; cbn [app]; rewrite <- !app_assoc.
  - constructor; auto.
  - cbn [app]. constructor; auto.
Qed.
Lemma mtext_app la a lb b : MText la a -> MText lb b -> MText (la ++ lb) (a ++ 44 :: b).
Proof.
  intros Ha Hb. induction Ha as [k d w1 kt w2 w3 t w4 H1 K H2 H3 H H4|k d w1 kt w2 w3 t w4 l ts H1 K H2 H3 H H4 Hl IH]; cbn [app];
    rewrite <- !app_assoc; cbn [app]; rewrite <- !app_assoc; cbn [app].
  - constructor; auto.
  - constructor; auto.
Qed.
Lemma body_app p s q t : StrBody p s -> StrBody q t -> StrBody (p ++ q) (s ++ t).
Proof.
  intros Hp Hq. induction Hp; cbn [app]; rewrite <- ?app_assoc; cbn [app]; rewrite <- ?app_assoc; try (constructor; assumption); exact Hq.
Qed.
Lemma etext_concat ls cs : ls <> [] -> Forall2 EText ls cs -> EText (concat ls) (with_commas cs).
Proof.
  intros NE H. induction H as [|l c ls cs Hc H IH]; [destruct (NE eq_refl)|]. destruct H as [|l2 c2 ls cs Hc2 H].
  - cbn [concat with_commas]. rewrite app_nil_r. exact Hc.
  - change (concat (l :: l2 :: ls)) with (l ++ concat (l2 :: ls)). change (with_commas (c :: c2 :: cs)) with (c ++ 44 :: with_commas (c2 :: cs)).
    apply etext_app; [exact Hc|]. apply IH. discriminate.
Qed.
Lemma mtext_concat ls cs : ls <> [] -> Forall2 MText ls cs -> MText (concat ls) (with_commas cs).
Proof.
  intros NE H. induction H as [|l c ls cs Hc H IH]; [destruct (NE eq_refl)|]. destruct H as [|l2 c2 ls cs Hc2 H].
  - cbn [concat with_commas]. rewrite app_nil_r. exact Hc.
  - change (concat (l :: l2 :: ls)) with (l ++ concat (l2 :: ls)). change (with_commas (c :: c2 :: cs)) with (c ++ 44 :: with_commas (c2 :: cs)).
    apply mtext_app; [exact Hc|]. apply IH. discriminate.
Qed.

(** Last bindings of two lists in a row. *)
Lemma last_binding_app {K A} (l1 l2 : list (K * A)) k v :
  Forall (fun kv => fst kv = k \/ fst kv <> k) (l1 ++ l2) ->
  last_binding (l1 ++ l2) k v <-> last_binding l2 k v \/ (last_binding l1 k v /\ forall w, ~ last_binding l2 k w).
Proof.
  intros DEC. apply Forall_app in DEC. destruct DEC as [D1 D2].
  assert (HAS : forall l : list (K * A), Forall (fun kv => fst kv = k \/ fst kv <> k) l -> Forall (fun kv => fst kv <> k) l \/ exists w, last_binding l k w).
  { induction l as [|[k' w] l IH]; intros DL; [left; constructor|]. inversion DL as [|? ? DK DL']; subst. cbn [fst] in DK. destruct (IH DL') as [F|(w' & a & b & -> & F)].
    - destruct DK as [->|N]; [right; exists w, [], l; auto|left; constructor; assumption].
    - right. exists w', ((k', w) :: a), b. auto. }
  assert (NO : forall l : list (K * A), Forall (fun kv => fst kv <> k) l -> forall w, ~ last_binding l k w).
  { intros l F w (a & b & -> & _). apply Forall_app in F. destruct F as [_ F]. inversion F as [|? ? N _]. apply N. reflexivity. }
  assert (UP : forall v, last_binding l2 k v -> last_binding (l1 ++ l2) k v).
  { intros w (a & b & -> & F). exists (l1 ++ a), b. rewrite app_assoc. auto. }
  assert (FUN : forall l : list (K * A), forall v w, last_binding l k v -> last_binding l k w -> v = w).
  { intros l v1 v2 (a & b & E & F) (a' & b' & E' & F'). subst l. revert a' E'. induction a as [|x a IH]; intros a' E'.
    - destruct a' as [|y a']; [cbn in E'; congruence|]. cbn in E'. injection E' as _ E'. exfalso. rewrite E' in F. apply Forall_app in F. destruct F as [_ F]. inversion F as [|? ? N _]. apply N. reflexivity.
    - destruct a' as [|y a'].
      + cbn in E'. injection E' as E0 E'. rewrite <- E' in F'. exfalso. apply Forall_app in F'. destruct F' as [_ F']. inversion F' as [|? ? N _]. apply N. reflexivity.
      + cbn in E'. injection E' as E0 E'. exact (IH a' E'). }
  split.
  - intros H. destruct (HAS l2 D2) as [F|(w & Hw)].
    + right. split; [|apply NO; exact F]. destruct (HAS l1 D1) as [F1|(w & Hw)].
      * exfalso. exact (NO (l1 ++ l2) (proj2 (Forall_app _ _ _) (conj F1 F)) v H).
      * replace v with w; [exact Hw|]. apply (FUN (l1 ++ l2)); [|exact H]. destruct Hw as (a & b & -> & F1). exists a, (b ++ l2).
        rewrite <- app_assoc. split; [reflexivity|]. apply Forall_app. auto.
    + left. rewrite (FUN _ _ _ H (UP _ Hw)). exact Hw.
  - intros [H|[(a & b & -> & F) N]]; [apply UP, H|]. destruct (HAS l2 D2) as [F2|(w & Hw)]; [|destruct (N w Hw)].
    exists a, (b ++ l2). rewrite <- app_assoc. split; [reflexivity|]. apply Forall_app. auto.
Qed.
