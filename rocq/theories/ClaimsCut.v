(** C68: a text is seen from left to right. *)
From Coq Require Import String ZArith List Bool Lia Floats.SpecFloat.
From Verif Require Import Base Utf8 Utf8Facts F64 Lexer Driver Grammar LexSpec LexNumFacts Types Tree TreeFacts DriverFacts GrammarFacts ParseSpec ParseFacts
  VisitFacts CutFacts CutFeed FromStr Reading ClaimsParse.
Import ListNotations.
Open Scope Z_scope.

(** The calls of Visitor, Seq and Map methods, in order, that from_str makes. *)
Definition calls_on {St V SH MH} (I : iface St V SH MH) (oc : bool) (s : bytes) (v : V) (st : St) : list (call V SH MH) :=
  no_drops (snd (snd (from_str_impl (logged I) oc s v (st, [])))).
(** The text p ++ x does not continue a number of p. *)
Definition digit_char (c : Z) : Prop := 48 <= c <= 57.
Definition token_boundary (p x : bytes) : Prop :=
  forall a d c t, p = a ++ [d] -> x = c :: t -> digit_char d -> digit_char c \/ c = 46 \/ c = 101 \/ c = 69 -> False.

Lemma boundary_meet p x : token_boundary p x -> meet x p.
Proof.
  intros H. unfold meet. destruct (ends_digit p) eqn:E; [right|left; reflexivity].
  destruct x as [|c t]; [reflexivity|]. destruct (numend (c :: t)) eqn:N; [reflexivity|]. exfalso.
  destruct p as [|a p] using rev_ind; [discriminate|]. clear IHp.
  unfold ends_digit in E. rewrite last_last in E. unfold is_digit in E. apply andb_true_iff in E. rewrite !Z.leb_le in E.
  apply (H p a c t eq_refl eq_refl); [exact E|]. cbn [numend] in N. apply negb_false_iff in N.
  apply orb_true_iff in N. destruct N as [N|N]; [apply orb_true_iff in N; destruct N as [N|N]|].
  - left. unfold is_digit in N. apply andb_true_iff in N. rewrite !Z.leb_le in N. exact N.
  - apply Z.eqb_eq in N. auto.
  - unfold is_e in N. apply orb_true_iff in N. rewrite !Z.eqb_eq in N. tauto.
Qed.
Lemma logged_walk {St V SH MH} (I : iface St V SH MH) oc s v st : text_ok s ->
  calls_on I oc s v st = no_drops (snd (snd (walk_result (logged I) s v (st, [])))).
Proof.
  intros [Hu HL]. apply str_ok_spec in Hu. unfold calls_on.
  destruct (from_str_impl_agree (logged I) (fun a b => no_drops (snd a) = no_drops (snd b)) (fun _ => eq_refl) (fun _ _ E => eq_sym E) (fun _ _ _ E1 E2 => eq_trans E1 E2)
    ltac:(intros [q|m] [s0 l0]; cbn [drop_layer logged s_drop m_drop log_call snd]; unfold no_drops; rewrite filter_app; cbn [filter is_drop negb]; rewrite app_nil_r; reflexivity)
    oc s v (st, []) Hu HL) as [E|(_ & _ & _ & E)]; [rewrite E; reflexivity|exact E].
Qed.

(** Whatever follows a text p, the calls made on p come first - except that a text that
    ends inside a list just opened asks the Seq for an element before it is found to be
    over. *)
Theorem C68_first_calls {St V SH MH} (I : iface St V SH MH) oc p x v st :
  text_ok p -> text_ok (p ++ x) -> token_boundary p x ->
  exists a b e, calls_on I oc p v st = a ++ e /\ calls_on I oc (p ++ x) v st = a ++ b /\ (e = [] \/ exists q, e = [CElement q]).
Proof.
  intros Hp Hx B. rewrite !logged_walk by assumption. apply boundary_meet in B. pose proof (pv_cut x p B) as C.
  unfold walk_result. unfold cut_val in C. destruct (pv p) as [t o]. cbn [fst snd] in C. destruct o as [r|].
  - rewrite C. destruct (feed (logged I) t v (st, [])) as [[u| |f] [st1 l]]; cbn [snd]; exists (no_drops l), [], []; rewrite !app_nil_r; auto.
  - destruct (pv (p ++ x)) as [t' o']. cbn [fst] in C.
    assert (W : forall (y : res unit * (St * list (call V SH MH))) (g : option bytes),
      snd (snd (match y with
      | (Ok _, s1) => (match g with Some r => match skip_ws r with [] => Ok tt | _ :: _ => Err end | None => Err end, s1)
      | (Err, s1) => (Err, s1) | (Fault f, s1) => (Fault f, s1) end)) = snd (snd y)).
    { intros [[u| |f] [a b]] g; reflexivity. }
    assert (W0 : forall y : res unit * (St * list (call V SH MH)),
      snd (snd (match y with (Ok _, s1) => (@Err unit, s1) | (Err, s1) => (Err, s1) | (Fault f, s1) => (Fault f, s1) end)) = snd (snd y)).
    { intros [[u| |f] [a b]]; reflexivity. }
    rewrite W, W0. destruct (feed_cut I t t' C v (st, [])) as [->|(_ & a & b & e & E1 & E2 & E3)].
    + exists (no_drops (snd (snd (feed (logged I) t' v (st, []))))), [], []. rewrite !app_nil_r. split; [reflexivity|]. split; [reflexivity|left; reflexivity].
    + exists a, b, e. split; [exact E1|]. split; [exact E2|exact E3].
Qed.
(** In particular texts that agree up to such a place cause the same calls up to there. *)
Theorem C68_no_lookahead {St V SH MH} (I : iface St V SH MH) oc p x y v st :
  text_ok p -> text_ok (p ++ x) -> text_ok (p ++ y) -> token_boundary p x -> token_boundary p y ->
  exists a b c, calls_on I oc (p ++ x) v st = a ++ b /\ calls_on I oc (p ++ y) v st = a ++ c /\
    (List.length (calls_on I oc p v st) <= List.length a + 1)%nat.
Proof.
  intros Hp Hx Hy Bx By. destruct (C68_first_calls I oc p x v st Hp Hx Bx) as (a & b & e & E1 & E2 & E3).
  destruct (C68_first_calls I oc p y v st Hp Hy By) as (a' & b' & e' & E1' & E2' & E3').
  assert (L : forall (m : list (call V SH MH)), m = [] \/ (exists q, m = [CElement q]) -> (List.length m <= 1)%nat).
  { intros m [->|[q ->]]; cbn; lia. }
  pose proof (L e E3). pose proof (L e' E3'). rewrite E1' in E1.
  destruct (Nat.le_gt_cases (List.length a) (List.length a')) as [K|K].
  - exists a, b. assert (P : exists u, a' = a ++ u).
    { exists (skipn (List.length a) a'). rewrite <- (firstn_skipn (List.length a) a') at 1. f_equal.
      apply (f_equal (firstn (List.length a))) in E1. rewrite !firstn_app, firstn_all in E1.
      replace (List.length a - List.length a')%nat with 0%nat in E1 by lia. replace (List.length a - List.length a)%nat with 0%nat in E1 by lia.
      cbn [firstn] in E1. rewrite !app_nil_r in E1. exact E1. }
    destruct P as [u ->]. exists (u ++ b'). rewrite app_assoc. split; [exact E2|]. split; [exact E2'|].
    rewrite E1', E1, app_length. lia.
  - assert (P : exists u, a = a' ++ u).
    { exists (skipn (List.length a') a). rewrite <- (firstn_skipn (List.length a') a) at 1. f_equal.
      apply (f_equal (firstn (List.length a'))) in E1. rewrite !firstn_app, firstn_all in E1.
      replace (List.length a' - List.length a)%nat with 0%nat in E1 by lia. replace (List.length a' - List.length a')%nat with 0%nat in E1 by lia.
      cbn [firstn] in E1. rewrite !app_nil_r in E1. symmetry. exact E1. }
    destruct P as [u ->]. exists a', (u ++ b), b'. rewrite app_assoc. split; [exact E2|]. split; [exact E2'|].
    rewrite E1', app_length. lia.
Qed.

(** ** A visitor that accepts everything *)
Definition yes {A} (a : A) : unit -> res A * unit := fun st => (Ok a, st).
Definition accept_all : iface unit unit unit unit := {|
  v_null := fun _ => yes tt; v_bool := fun _ _ => yes tt; v_str := fun _ _ => yes tt; v_neg := fun _ _ => yes tt;
  v_nonneg := fun _ _ => yes tt; v_float := fun _ _ => yes tt; v_seq := fun _ => yes tt; v_map := fun _ => yes tt;
  s_element := fun _ => yes tt; s_finish := fun _ => yes tt; s_drop := fun _ => yes tt;
  m_key := fun _ _ => yes tt; m_finish := fun _ => yes tt; m_drop := fun _ => yes tt |}.
(** The two exceptions are real: the number, *)
Theorem C68_numbers_refuted :
  calls_on accept_all true (bs "1") tt tt = [CNonneg tt 1] /\ calls_on accept_all true (bs "12") tt tt = [CNonneg tt 12].
Proof. split; vm_compute; reflexivity. Qed.
(** and the element. *)
Theorem C68_open_list_refuted :
  calls_on accept_all true (bs "[") tt tt = [CSeq tt (Some tt); CElement tt] /\
  calls_on accept_all true (bs "[]") tt tt = [CSeq tt (Some tt); CSeqFinish tt].
Proof. split; vm_compute; reflexivity. Qed.

(** ** Concrete case *)
Example ex_C68 :
  calls_on accept_all true (bs "{""a"":[1,true") tt tt =
    [CMap tt (Some tt); CKey tt (bs "a"); CSeq tt (Some tt); CElement tt; CNonneg tt 1; CElement tt; CBool tt true] /\
  calls_on accept_all true (bs "{""a"":[1,true],""b"":0}") tt tt =
    [CMap tt (Some tt); CKey tt (bs "a"); CSeq tt (Some tt); CElement tt; CNonneg tt 1; CElement tt; CBool tt true] ++
    [CSeqFinish tt; CKey tt (bs "b"); CNonneg tt 0; CMapFinish tt].
Proof. split; vm_compute; reflexivity. Qed.
Example ex_C68_boundary : text_ok (bs "{""a"":[1,true") /\ text_ok (bs "{""a"":[1,true" ++ bs "],""b"":0}") /\
  token_boundary (bs "{""a"":[1,true") (bs "],""b"":0}") /\ token_boundary (bs "[1") (bs "]").
Proof.
  split; [text_ok|]. split; [text_ok|]. split; intros a d c t E1 [= <- _] D; unfold digit_char; lia.
Qed.
