(** Every tree that the specification of serialization allows a value to write (SerSpec.Writes)
    is written, for suitable orders of iteration of the HashMaps in it. *)
From Coq Require Import ZArith List Bool Lia Permutation Floats.SpecFloat.
From Verif Require Import Base Utf8 F64 Lexer Types Ser Reading HeapSeq FromStr SerSpec SerFacts RenderFacts WriteFacts.
Import ListNotations.
Open Scope nat_scope.

(** A permutation of a list, as a way to permute all lists. *)
Lemma permuter {A} (l l0 : list A) : Permutation l l0 -> exists p : list A -> list A, (forall x, Permutation x (p x)) /\ p l = l0.
Proof.
  induction 1 as [|x l l0 _ (p & P1 & P2)|x y l|l l0 l1 _ (p & P1 & P2) _ (q & Q1 & Q2)].
  - exists (fun x => x). auto.
  - exists (fun x => match x with a :: r => a :: p r | [] => [] end). split; [|rewrite P2; reflexivity].
    intros [|a r]; [constructor|]. constructor. apply P1.
  - exists (fun x => match x with a :: b :: r => b :: a :: r | _ => x end). split; [|reflexivity].
    intros [|a [|b r]]; [constructor|reflexivity|constructor].
  - exists (fun x => q (p x)). split; [|rewrite P2; exact Q2]. intros x. eapply Permutation_trans; [apply P1|apply Q1].
Qed.

Section All.
Variable E : env.
Variable K : nat.
Hypothesis HE : env_ok E = true.
Hypothesis HF : forall id fs, nth_error E id = Some (DStruct fs) -> Forall (fun f => maxw (snd f) < K) fs.
Hypothesis HK : 0 < K.
Notation order := (nat -> list (val * val) -> list (val * val)).
Notation I hm := (val_iface E hm K).

Definition agree (hm hm0 : order) (n n2 : nat) : Prop := forall m l, n <= m < n2 -> hm m l = hm0 m l.
(** For some orders of the HashMaps asked from [n] on, [P] holds. *)
Definition from_on (n : nat) (P : order -> nat -> Prop) : Prop :=
  exists n2 hm0, n <= n2 /\ orders hm0 /\ forall hm, agree hm hm0 n n2 -> P hm n2.

Lemma now n (P : order -> nat -> Prop) : (forall hm, P hm n) -> from_on n P.
Proof. intros H. exists n, (fun _ l => l). split; [lia|]. split; [intros m l; reflexivity|]. intros hm _. apply H. Qed.
Lemma then_on n (P Q : order -> nat -> Prop) : from_on n P -> (forall n1, from_on n1 (fun hm n2 => P hm n1 -> Q hm n2)) -> from_on n Q.
Proof.
  intros (n1 & hm1 & L1 & O1 & H1) H. destruct (H n1) as (n2 & hm2 & L2 & O2 & H2).
  exists n2, (fun m => if m <? n1 then hm1 m else hm2 m). split; [lia|]. split.
  - intros m l. destruct (m <? n1); [apply O1|apply O2].
  - intros hm A. apply H2; [|apply H1]; intros m l Hm; rewrite A by lia; destruct (m <? n1) eqn:EM; try reflexivity.
    + apply Nat.ltb_lt in EM. lia.
    + apply Nat.ltb_ge in EM. lia.
Qed.
Lemma weaken n (P Q : order -> nat -> Prop) : from_on n P -> (forall hm n2, P hm n2 -> Q hm n2) -> from_on n Q.
Proof. intros (n2 & hm0 & L & O & H) HQ. exists n2, hm0. auto. Qed.
(** One HashMap, iterated in the order wanted. *)
Lemma first n l l0 (P : order -> nat -> Prop) : Permutation l l0 -> from_on (S n) (fun hm n2 => hm n l = l0 -> P hm n2) -> from_on n P.
Proof.
  intros HP (n2 & hm0 & L & O & H). destruct (permuter _ _ HP) as (p & P1 & P2).
  exists n2, (fun m => if m =? n then p else hm0 m). split; [lia|]. split.
  - intros m x. destruct (m =? n); [apply P1|apply O].
  - intros hm A. apply H.
    + intros m x Hm. rewrite A by lia. destruct (m =? n) eqn:EM; [apply Nat.eqb_eq in EM; lia|reflexivity].
    + rewrite A by lia. rewrite Nat.eqb_refl. exact P2.
Qed.

Definition Av (v : val) : Prop := forall T t k0 n,
  has_type E T v -> ty_ok T = true -> maxw T < K -> wraps T < k0 -> Writes E T v t ->
  from_on n (fun hm n2 => exists f n1, ser_begin E hm k0 T v n = (Ok f, n1) /\ FragDescribes (I hm) f n1 t n2).
Lemma Av_describes v T t n : Av v -> has_type E T v -> ty_ok T = true -> maxw T < K -> Writes E T v t ->
  from_on n (fun hm n2 => Describes (I hm) (T, v) n t n2).
Proof.
  intros H HT HO HM HW. eapply weaken; [apply (H T t K n HT HO HM); [pose proof (wraps_maxw T); lia|exact HW]|].
  intros hm n2 (f & n1 & A & B). econstructor; [exact A|exact B].
Qed.
Lemma slice_on T l ts : ty_ok T = true -> maxw T < K -> Forall Av l -> Forall (has_type E T) l -> Forall2 (Writes E T) l ts -> forall n,
  from_on n (fun hm n2 => SeqDescribes (I hm) (QSlice T l) n ts n2).
Proof.
  intros HO HM HP HT HW. induction HW as [|v t l ts Hv _ IH]; intros n.
  - apply now. intros hm. apply (qd_nil (I hm) (QSlice T []) n (QSlice T []) n (Ok tt)); reflexivity.
  - inversion HP; inversion HT; subst. eapply then_on; [apply (Av_describes v T t n); assumption|]. intros n1. eapply weaken; [apply IH; assumption|].
    intros hm n2 B A. eapply (qd_cons (I hm) (QSlice T (v :: l)) n _ (QSlice T l) n); [reflexivity|exact A|exact B].
Qed.
Lemma map_on T l ts : ty_ok T = true -> maxw T < K -> Forall (fun kv => Av (snd kv)) l -> Forall (fun kv => has_type E T (snd kv)) l ->
  Forall2 (fun kv kt => fst kt = key_to_string (fst kv) /\ Writes E T (snd kv) (snd kt)) l ts -> forall n,
  from_on n (fun hm n2 => MapDescribes (I hm) (PMap T l) n ts n2).
Proof.
  intros HO HM HP HT HW. induction HW as [|[k v] [k' t] l ts [Hk Hv] _ IH]; intros n.
  - apply now. intros hm. apply (pd_nil (I hm) (PMap T []) n (PMap T []) n (Ok tt)); reflexivity.
  - inversion HP; inversion HT; subst. cbn [fst snd] in *. subst k'. eapply then_on; [apply (Av_describes v T t n); assumption|]. intros n1. eapply weaken; [apply IH; assumption|].
    intros hm n2 B A. eapply (pd_cons (I hm) (PMap T ((k, v) :: l)) n _ _ (PMap T l) n); [reflexivity|exact A|exact B].
Qed.
Lemma struct_on fs vs : Forall (fun f => ty_ok (snd f) = true /\ maxw (snd f) < K) fs -> Forall Av vs ->
  forall fs' vs' ts i n, skipn i fs = fs' -> skipn i vs = vs' -> Forall2 (fun f v => has_type E (snd f) v) fs' vs' ->
  Forall2 (fun fv kt => fst kt = fst (fst fv) /\ Writes E (snd (fst fv)) (snd fv) (snd kt)) (combine fs' vs') ts ->
  from_on n (fun hm n2 => MapDescribes (I hm) (PStruct fs vs i) n ts n2).
Proof.
  intros HFs HP fs'. induction fs' as [|[nm T] fs' IH]; intros vs' ts i n E1 E2 HT HW; (destruct vs' as [|v vs']; inversion HT as [|? ? ? ? HTv HT2]); cbn [combine] in HW.
  - inversion HW; subst. apply now. intros hm.
    apply (pd_nil (I hm) (PStruct fs vs i) n (PStruct fs vs (S i)) n (Ok tt)); [|reflexivity..]. cbn [i_map_next val_iface map_next fst snd]. rewrite (nth_skip_nil _ _ E1). reflexivity.
  - inversion HW as [|? [k t] ? ts' [Wk Wv] HW2]. destruct (nth_skip _ _ _ _ E1) as [N1 S1]. destruct (nth_skip _ _ _ _ E2) as [N2 S2]. cbn [fst snd] in *.
    assert (HI : In (nm, T) fs) by (eapply nth_error_In, N1). rewrite Forall_forall in HFs. destruct (HFs _ HI) as (G1 & G2). cbn [fst snd] in *.
    assert (HPv : Av v) by (rewrite Forall_forall in HP; apply HP; eapply nth_error_In, N2). subst k.
    eapply then_on; [apply (Av_describes v T t n); assumption|]. intros n1. eapply weaken; [exact (IH vs' ts' (S i) n1 S1 S2 HT2 HW2)|].
    intros hm n2 B A. eapply (pd_cons (I hm) (PStruct fs vs i) n nm (T, v) (PStruct fs vs (S i)) n); [|exact A|exact B].
    cbn [i_map_next val_iface map_next fst snd]. rewrite N1, N2. reflexivity.
Qed.
Lemma env_struct2 id fs : nth_error E id = Some (DStruct fs) -> Forall (fun f => ty_ok (snd f) = true /\ maxw (snd f) < K) fs.
Proof.
  intros H. pose proof (HF _ _ H) as H1. pose proof (nth_error_In _ _ H) as HI.
  pose proof HE as H2. unfold env_ok in H2. rewrite forallb_forall in H2. apply H2 in HI as H2'. cbn in H2'. rewrite forallb_forall in H2'.
  rewrite Forall_forall in *. intros f Hf. auto.
Qed.

Theorem every_tree v : Av v.
Proof.
  induction v as [|b|s|z|f|f|v IH| |v IH|a b IHa IHb|l IH|l IH|j|m|l|l|l IH|i] using val_ind'; intros T t k0 n HT HO HM Hk HW; inversion HT; subst; inversion HW; subst;
    (destruct k0 as [|k0]; [lia|]); cbn [ser_begin].
  - apply now. intros hm. do 2 eexists. split; [reflexivity|constructor].
  - apply now. intros hm. do 2 eexists. split; [reflexivity|constructor].
  - apply now. intros hm. do 2 eexists. split; [reflexivity|constructor].
  - cbn [ty_ok] in HO. pose proof (int64_id _ _ _ HO ltac:(eassumption)) as HI. destruct HI as [HI1 HI2]; rewrite HI2.
    apply now. intros hm. do 2 eexists. split; [reflexivity|constructor].
  - cbn [ty_ok] in HO. pose proof (int64_id _ _ _ HO ltac:(eassumption)) as HI. destruct HI as [HI1 HI2]; rewrite HI2.
    apply now. intros hm. do 2 eexists. split; [reflexivity|constructor].
  - apply now. intros hm. do 2 eexists. split; [reflexivity|constructor].
  - apply now. intros hm. do 2 eexists. split; [reflexivity|constructor].
  - cbn [wraps maxw ty_ok] in *. apply (IH T0 t k0 n); auto; lia.
  - apply now. intros hm. do 2 eexists. split; [reflexivity|constructor].
  - cbn [wraps maxw ty_ok] in *. apply (IH T0 t k0 n); auto; lia.
  - cbn [maxw ty_ok] in *. apply andb_true_iff in HO. destruct HO as [HO1 HO2].
    eapply then_on; [apply (Av_describes a A ta n IHa); [assumption|assumption|lia|assumption]|]. intros n1.
    eapply weaken; [apply (Av_describes b B tb n1 IHb); [assumption|assumption|lia|assumption]|]. intros hm n2 B1 A1.
    exists (FSeq (QTuple (A, a) (B, b) 0)), n. split; [reflexivity|].
    constructor. eapply (qd_cons (I hm) (QTuple (A, a) (B, b) 0) n _ (QTuple (A, a) (B, b) 1) n); [reflexivity|exact A1|].
    eapply (qd_cons (I hm) (QTuple (A, a) (B, b) 1) n1 _ (QTuple (A, a) (B, b) 2) n1); [reflexivity|exact B1|].
    apply (qd_nil (I hm) (QTuple (A, a) (B, b) 2) n2 (QTuple (A, a) (B, b) 3) n2 (Ok tt)); reflexivity.
  - cbn [maxw ty_ok] in *. eapply weaken; [apply (slice_on T0 l ts HO HM IH); assumption|]. intros hm n2 A. do 2 eexists. split; [reflexivity|constructor; exact A].
  - cbn [maxw ty_ok] in *. eapply weaken; [apply (slice_on T0 l ts HO HM IH); assumption|]. intros hm n2 A. do 2 eexists. split; [reflexivity|constructor; exact A].
  - cbn [maxw ty_ok] in *. apply andb_true_iff in HO. destruct HO as [_ HO]. destruct h.
    + match goal with HX : Permutation l ?x |- _ => rename HX into HP; rename x into l0 end. eapply first; [exact HP|].
      eapply weaken; [apply (map_on T0 l0 ts HO HM); try (eapply Permutation_Forall; [exact HP|assumption]); assumption|]. intros hm n2 A EQ.
      do 2 eexists. split; [reflexivity|]. rewrite EQ. constructor. exact A.
    + subst. eapply weaken; [apply (map_on T0 l0 ts HO HM); eassumption|]. intros hm n2 A. do 2 eexists. split; [reflexivity|constructor; exact A].
  - apply now. intros hm. do 2 eexists. split; [reflexivity|apply (json_describes E hm K HF HK j)].
  - apply now. intros hm. do 2 eexists. split; [reflexivity|apply (json_describes E hm K HF HK (JvNum m))].
  - apply now. intros hm. do 2 eexists. split; [reflexivity|apply (json_describes E hm K HF HK (JvArr l))].
  - apply now. intros hm. do 2 eexists. split; [reflexivity|apply (json_describes E hm K HF HK (JvObj l))].
  - match goal with HX : nth_error E _ = Some (DStruct fs) |- _ => rename HX into Hid end. assert (fs0 = fs) as -> by congruence.
    rewrite Hid. eapply weaken; [apply (struct_on fs l (env_struct2 _ _ Hid) IH fs l ts 0 n eq_refl eq_refl); assumption|].
    intros hm n2 A. do 2 eexists. split; [reflexivity|constructor; exact A].
  - match goal with HX : nth_error E _ = Some (DEnum ns) |- _ => rename HX into Hid end. assert (ns0 = ns) as -> by congruence.
    rewrite Hid. match goal with HX : nth_error ns i = _ |- _ => rewrite HX end. apply now. intros hm. do 2 eexists. split; [reflexivity|constructor].
Qed.
End All.
