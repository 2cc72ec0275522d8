(** C73, all types: shuffled documents are read alike. *)
From Coq Require Import String ZArith List Bool Lia.
From Verif Require Import Base Utf8 F64 Lexer Grammar LexSpec Types Reading MapFacts RoundTrip ReorderSpec.
Import ListNotations.
Open Scope Z_scope.

Lemma shuffled_sym d d' : Shuffled d d' -> Shuffled d' d.
Proof.
  induction 1 as [d|a b c _ IH1 _ IH2|l1 d d' l2 _ IH|l1 k d d' l2 _ IH|l1 k1 d1 k2 d2 l2 H]; [constructor|eapply sh_trans; eassumption|constructor; exact IH|constructor; exact IH|].
  constructor. intros K v A B. exact (H K v B A).
Qed.

(** Two neighbours with different keys change places. *)
Lemma last_swap {K A} (l1 l2 : list (K * A)) k1 a k2 b k v : k1 <> k2 ->
  last_binding (l1 ++ (k1, a) :: (k2, b) :: l2) k v -> last_binding (l1 ++ (k2, b) :: (k1, a) :: l2) k v.
Proof.
  intros N. revert k1 a k2 b N. induction l1 as [|x l1 IH]; intros k1 a k2 b N (p & q & EQ & HF).
  - destruct p as [|y p]; cbn [app] in EQ.
    + injection EQ as E1 <- <-. subst k1. inversion HF as [|? ? Hn HF']; subst. exists [(k2, b)], l2. split; [reflexivity|exact HF'].
    + injection EQ as <- EQ. destruct p as [|z p]; cbn [app] in EQ.
      * injection EQ as E1 <- <-. subst k2. exists [], ((k1, a) :: l2). split; [reflexivity|]. constructor; [exact N|exact HF].
      * injection EQ as <- ->. exists ((k2, b) :: (k1, a) :: p), q. split; [reflexivity|exact HF].
  - destruct p as [|y p]; cbn [app] in EQ.
    + injection EQ as -> <-. exists [], (l1 ++ (k2, b) :: (k1, a) :: l2). split; [reflexivity|]. apply Forall_app in HF. destruct HF as [F1 F2].
      inversion F2 as [|? ? A1 F3]; subst. inversion F3 as [|? ? A2 F4]; subst. apply Forall_app. split; [exact F1|]. constructor; [exact A2|]. constructor; [exact A1|exact F4].
    + injection EQ as <- EQ. destruct (IH k1 a k2 b N) as (p' & q' & EQ' & HF'); [exists p, q; split; [exact EQ|exact HF]|].
      exists (x :: p'), q'. split; [cbn [app]; rewrite EQ'; reflexivity|exact HF'].
Qed.
Lemma in_swap {A} (l1 l2 : list A) x y z : In z (l1 ++ x :: y :: l2) -> In z (l1 ++ y :: x :: l2).
Proof. rewrite !in_app_iff. cbn [In]. tauto. Qed.
(** The value of one member changes. *)
Lemma last_set {K A} (P : A -> A -> Prop) (l1 l2 : list (K * A)) k0 a b k v : P a b -> (forall x, P x x) ->
  last_binding (l1 ++ (k0, a) :: l2) k v -> exists w, last_binding (l1 ++ (k0, b) :: l2) k w /\ P v w.
Proof.
  intros HP HR. revert v. induction l1 as [|x l1 IH]; intros v (p & q & EQ & HF).
  - destruct p as [|y p]; cbn [app] in EQ.
    + injection EQ as E1 <- <-. subst k0. exists b. split; [|exact HP]. exists [], l2. auto.
    + injection EQ as <- ->. exists v. split; [|apply HR]. exists ((k0, b) :: p), q. auto.
  - destruct p as [|y p]; cbn [app] in EQ.
    + injection EQ as -> <-. exists v. split; [|apply HR]. exists [], (l1 ++ (k0, b) :: l2). split; [reflexivity|]. apply Forall_app in HF. destruct HF as [F1 F2].
      inversion F2 as [|? ? A1 F3]; subst. apply Forall_app. split; [exact F1|]. constructor; [exact A1|exact F3].
    + injection EQ as <- EQ. destruct (IH v) as (w & (p' & q' & EQ' & HF') & Hw); [exists p, q; split; [exact EQ|exact HF]|].
      exists w. split; [|exact Hw]. exists (x :: p'), q'. split; [cbn [app]; rewrite EQ'; reflexivity|exact HF'].
Qed.
Lemma in_set {K A} (P : A -> A -> Prop) (l1 l2 : list (K * A)) k0 a b k v : P a b -> (forall x, P x x) ->
  In (k, v) (l1 ++ (k0, a) :: l2) -> exists w, In (k, w) (l1 ++ (k0, b) :: l2) /\ P v w.
Proof.
  intros HP HR. rewrite in_app_iff. cbn [In]. intros [I|[I|I]].
  - exists v. split; [apply in_or_app; left; exact I|apply HR].
  - injection I as -> <-. exists b. split; [apply in_elt|exact HP].
  - exists v. split; [apply in_or_app; right; right; exact I|apply HR].
Qed.
Lemma forall2_set {A B} (P : A -> B -> Prop) l1 a a' l2 m : Forall2 P (l1 ++ a :: l2) m -> (forall b, P a b -> P a' b) -> Forall2 P (l1 ++ a' :: l2) m.
Proof.
  intros H X. apply Forall2_app_inv_l in H. destruct H as (m1 & m2 & H1 & H2 & ->). inversion H2; subst. apply Forall2_app; [exact H1|]. constructor; auto.
Qed.
Lemma forall2_swap {A B} (P : A -> B -> Prop) l1 x y l2 m : Forall2 P (l1 ++ x :: y :: l2) m ->
  exists m1 u v m2, m = m1 ++ u :: v :: m2 /\ P x u /\ P y v /\ Forall2 P (l1 ++ y :: x :: l2) (m1 ++ v :: u :: m2).
Proof.
  intros H. apply Forall2_app_inv_l in H. destruct H as (m1 & m2 & H1 & H2 & ->). inversion H2 as [|? u ? m3 Hu H3]; subst. inversion H3 as [|? v ? m4 Hv H4]; subst.
  exists m1, u, v, m4. split; [reflexivity|]. split; [exact Hu|]. split; [exact Hv|]. apply Forall2_app; [exact H1|]. constructor; [exact Hv|]. constructor; assumption.
Qed.
Lemma mapof_swap {K A} (cmp : K -> K -> comparison) (m1 m2 : list (K * A)) k1 a k2 b m : k1 <> k2 ->
  MapOf cmp (m1 ++ (k1, a) :: (k2, b) :: m2) m -> MapOf cmp (m1 ++ (k2, b) :: (k1, a) :: m2) m.
Proof.
  intros N [HS HM]. split; [exact HS|]. intros k v. rewrite (HM k v). split; apply last_swap; congruence.
Qed.

Theorem shuffled_value d d' : Shuffled d d' -> forall j, JReads d j -> JReads d' j.
Proof.
  induction 1 as [d|a b c _ IH1 _ IH2|l1 d d' l2 _ IH|l1 k d d' l2 _ IH|l1 k1 d1 k2 d2 l2 H]; intros j R; auto.
  - inversion R; subst. constructor. eapply forall2_set; [eassumption|exact IH].
  - inversion R; subst. econstructor; [|eassumption]. eapply forall2_set; [eassumption|]. intros [k' j'] [E1 J]. split; [exact E1|]. cbn [snd] in *. auto.
  - inversion R as [| | | | | | |? kvs m HJ HM]; subst. apply forall2_swap in HJ. destruct HJ as (m1 & [x jx] & [y jy] & m2 & -> & [E1 _] & [E2 _] & HJ). cbn [fst snd] in *. subst x y.
    econstructor; [exact HJ|]. apply mapof_swap; [|exact HM]. intros ->. exact (H KString _ (kr_string k2) (kr_string k2)).
Qed.

Theorem shuffled_reads E d d' : Shuffled d d' -> forall T v, Reads E T d v -> Reads E T d' v.
Proof.
  induction 1 as [d|a b c _ IH1 _ IH2|l1 d d' l2 HD IH|l1 k d d' l2 HD IH|l1 k1 d1 k2 d2 l2 H]; intros T v R; auto.
  - remember (DArr (l1 ++ d :: l2)) as D eqn:ED. revert ED. induction R as [|b|s|sg b n HI HS HB|n z HN|n f HN|n z HN|n f HN|T x v R IHR|T|T x v ND R IHR|A B x1 x2 a b R1 IH1 R2 IH2|T l vs HF|T n l vs HL HF|h K T l kvs m HF HM|x j J|n z HN|n z HN|n f HN|l js J|l m J|id fs l vs Hid HR HMM HL HV|id ns k i Hid HV];
      intros ED; try discriminate ED; subst.
    + constructor. auto.
    + constructor; [discriminate|auto].
    + clear IH1 IH2. injection ED as ED. destruct l1 as [|y1 [|y2 [|y3 l1]]]; cbn [app] in *; try discriminate ED; injection ED; intros; subst; constructor; auto.
    + injection ED as ->. constructor. eapply forall2_set; [exact HF|]. auto.
    + injection ED as ->. constructor; [rewrite !app_length; reflexivity|]. eapply forall2_set; [exact HF|]. auto.
    + constructor. eapply shuffled_value; [constructor; exact HD|exact J].
    + injection ED as ->. constructor. eapply shuffled_value; [constructor; exact HD|exact J].
  - remember (DObj (l1 ++ (k, d) :: l2)) as D eqn:ED. revert ED. induction R as [|b|s|sg b n HI HS HB|n z HN|n f HN|n z HN|n f HN|T x v R IHR|T|T x v ND R IHR|A B x1 x2 a b R1 IH1 R2 IH2|T l vs HF|T n l vs HL HF|h K T l kvs m HF HM|x j J|n z HN|n z HN|n f HN|l js J|l m J|id fs l vs Hid HR HMM HL HV|id ns k0 i Hid HV];
      intros ED; try discriminate ED; subst.
    + constructor. auto.
    + constructor; [discriminate|auto].
    + injection ED as ->. econstructor; [|exact HM]. eapply forall2_set; [exact HF|]. intros [a w] [KA RW]. split; [exact KA|]. cbn [fst snd] in *. auto.
    + constructor. eapply shuffled_value; [constructor; exact HD|exact J].
    + injection ED as ->. constructor. eapply shuffled_value; [constructor; exact HD|exact J].
    + injection ED as ->. assert (R0 : forall x, Shuffled x x) by constructor. eapply rd_struct; [exact Hid| | |exact HL|].
      * apply Forall_app in HR. destruct HR as [F1 F2]. inversion F2 as [|? ? (j & J) F3]; subst. apply Forall_app. split; [exact F1|]. constructor; [|exact F3]. exists j. eapply shuffled_value; [exact HD|exact J].
      * intros k0 c i T I FA. rewrite in_app_iff in I. cbn [In] in I. destruct I as [I|[I|I]]; [apply (HMM k0 c i T); [apply in_or_app; left; exact I|exact FA]| |apply (HMM k0 c i T); [apply in_or_app; right; right; exact I|exact FA]].
        injection I as -> <-. destruct (HMM k0 d i T (in_elt _ _ _) FA) as (w & RW). exists w. auto.
      * intros i n T w Hi Hw. destruct (HV i n T w Hi Hw) as [(FA & c & LC & RC)|(AB & OP & ->)].
        -- left. split; [exact FA|]. destruct (last_set (fun x y => forall T v, Reads E T x v -> Reads E T y v) l1 l2 k d d' n c IH (fun x T v R => R) LC) as (w' & LW & Hw'). exists w'. split; [exact LW|auto].
        -- right. split; [|split; [exact OP|reflexivity]]. destruct AB as [AB|AB]; [left; exact AB|right]. intros c I.
           destruct (in_set (fun _ _ => True) l1 l2 k d' d n c Logic.I (fun _ => Logic.I) I) as (w' & I' & _). exact (AB w' I').
  - assert (NK : k1 <> k2) by (intros ->; exact (H KString _ (kr_string k2) (kr_string k2))).
    remember (DObj (l1 ++ (k1, d1) :: (k2, d2) :: l2)) as D eqn:ED. revert ED. induction R as [|b|s|sg b n HI HS HB|n z HN|n f HN|n z HN|n f HN|T x v R IHR|T|T x v ND R IHR|A B x1 x2 a b R1 IH1 R2 IH2|T l vs HF|T n l vs HL HF|h K T l kvs m HF HM|x j J|n z HN|n z HN|n f HN|l js J|l m J|id fs l vs Hid HR HMM HL HV|id ns k0 i Hid HV];
      intros ED; try discriminate ED; subst.
    + constructor. auto.
    + constructor; [discriminate|auto].
    + injection ED as ->. apply forall2_swap in HF. destruct HF as (m1 & [x vx] & [y vy] & m2 & -> & [KX _] & [KY _] & HF). cbn [fst snd] in *.
      econstructor; [exact HF|]. apply mapof_swap; [|exact HM]. intros ->. exact (H K y KX KY).
    + constructor. eapply shuffled_value; [constructor; exact H|exact J].
    + injection ED as ->. constructor. eapply shuffled_value; [constructor; exact H|exact J].
    + injection ED as ->. eapply rd_struct; [exact Hid| | |exact HL|].
      * rewrite Forall_forall in *. intros x I. apply HR, in_swap, I.
      * intros k0 c i T I FA. apply in_swap in I. exact (HMM k0 c i T I FA).
      * intros i n T w Hi Hw. destruct (HV i n T w Hi Hw) as [(FA & c & LC & RC)|(AB & OP & ->)].
        -- left. split; [exact FA|]. exists c. split; [apply last_swap; [exact NK|exact LC]|exact RC].
        -- right. split; [|split; [exact OP|reflexivity]]. destruct AB as [AB|AB]; [left; exact AB|right]. intros c I. apply in_swap in I. exact (AB c I).
Qed.
