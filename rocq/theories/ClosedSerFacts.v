(** The open and the closed model of serialization agree. *)
From Coq Require Import ZArith List Bool Lia Permutation Floats.SpecFloat.
From Verif Require Import Base Utf8 F64 Types Ser SerSpec OpenSer ClosedSerSpec WriteFacts.
Import ListNotations.
Open Scope Z_scope.

Notation I := (open_iface no_users).
(** In no world but one, a pure description. *)
Definition shows (c : oval) (t : stree) : Prop := stree_ok t = true -> Describes I c tt t tt.

Lemma shows_begin c f t : c_begin no_users c tt = (Ok f, tt) -> (stree_ok t = true -> FragDescribes I f tt t tt) -> shows c t.
Proof. intros E H HO. econstructor; [exact E|apply H, HO]. Qed.
Lemma shows_same c c' t : c_begin no_users c tt = c_begin no_users c' tt -> shows c' t -> shows c t.
Proof. intros E H HO. specialize (H HO). inversion H as [d st f st1 t0 st2 EB HF]; subst. econstructor; [cbn [i_begin I open_iface] in *; rewrite E; exact EB|exact HF]. Qed.
Lemma shows_u z : shows (CUnsigned z) (STU64 z).
Proof.
  intros HO. cbn in HO. apply andb_true_iff in HO. rewrite !Z.leb_le in HO. apply (ds_begin I (CUnsigned z) tt (FU64 z) tt); [|constructor].
  cbn. unfold wrap_u, u64_MAX in *. rewrite Z.mod_small; [reflexivity|]. change (2 ^ 64) with 18446744073709551616. lia.
Qed.
Lemma shows_i z : shows (CSigned z) (STI64 z).
Proof.
  intros HO. cbn in HO. apply andb_true_iff in HO. rewrite !Z.leb_le in HO. apply (ds_begin I (CSigned z) tt (FI64 z) tt); [|constructor].
  cbn. assert (wrap_s 64 z = z) as ->; [|reflexivity]. unfold wrap_s, i64_MIN, i64_MAX in *. change (2 ^ (64 - 1)) with 9223372036854775808. change (2 ^ 64) with 18446744073709551616.
  rewrite Z.mod_small; lia.
Qed.
Lemma slice_shows cs ts : Forall2 shows cs ts -> forallb stree_ok ts = true -> SeqDescribes I (OSlice cs) tt ts tt.
Proof.
  induction 1 as [|c t cs ts H _ IH]; intros HO.
  - apply (qd_nil I (OSlice []) tt (OSlice []) tt (Ok tt)); reflexivity.
  - cbn [forallb] in HO. apply andb_true_iff in HO. destruct HO as [HO1 HO2].
    eapply (qd_cons I (OSlice (c :: cs)) tt c (OSlice cs) tt t tt); [reflexivity|exact (H HO1)|exact (IH HO2)].
Qed.
Lemma shows_slice cs ts : Forall2 shows cs ts -> shows (CSlice cs) (STSeq ts).
Proof. intros H. eapply shows_begin; [reflexivity|]. intros HO. constructor. apply slice_shows; assumption. Qed.
Lemma shows_pair a b ta tb : shows a ta -> shows b tb -> shows (CPair a b) (STSeq [ta; tb]).
Proof.
  intros Ha Hb. eapply shows_begin; [reflexivity|]. intros HO. cbn [stree_ok forallb] in HO. rewrite andb_true_r in HO. apply andb_true_iff in HO. destruct HO as [O1 O2]. constructor.
  eapply (qd_cons I (OTuple a b 0) tt a (OTuple a b 1) tt ta tt); [reflexivity|exact (Ha O1)|].
  eapply (qd_cons I (OTuple a b 1) tt b (OTuple a b 2) tt tb tt); [reflexivity|exact (Hb O2)|].
  apply (qd_nil I (OTuple a b 2) tt (OTuple a b 3) tt (Ok tt)); reflexivity.
Qed.
Definition shows_member (kc : rstr * oval) (kt : bytes * stree) : Prop := fst kt = text (fst kc) /\ shows (snd kc) (snd kt).
Lemma shows_map cs ts : Forall2 shows_member cs ts -> shows (CMap cs) (STMap ts).
Proof.
  intros H. eapply shows_begin; [reflexivity|]. intros HO. constructor. cbn [stree_ok] in HO. revert HO.
  induction H as [|[k c] [k' t] cs ts [H1 H2] _ IH]; cbn [forallb fst snd] in *; intros HO.
  - apply (pd_nil I (OEntries []) tt (OEntries []) tt (Ok tt)); reflexivity.
  - apply andb_true_iff in HO. destruct HO as [HO1 HO2]. apply andb_true_iff in HO1. destruct HO1 as [_ HO1]. subst k'.
    eapply (pd_cons I (OEntries ((k, c) :: cs)) tt (text k) c (OEntries cs) tt t tt); [reflexivity|exact (H2 HO1)|exact (IH HO2)].
Qed.
Lemma fields_show fs : forall cs ts i, skipn i fs = cs -> Forall2 shows_member cs ts ->
  forallb (fun kt => str_ok (fst kt) && stree_ok (snd kt)) ts = true -> MapDescribes I (OFields fs i) tt ts tt.
Proof.
  intros cs ts i ES H. revert i ES. induction H as [|[k c] [k' t] cs ts [H1 H2] _ IH]; intros i ES HO; cbn [forallb fst snd] in *.
  - apply (pd_nil I (OFields fs i) tt (OFields fs (S i)) tt (Ok tt)); [|reflexivity..]. cbn [i_map_next open_iface o_map_next]. rewrite (nth_skip_nil _ _ ES). reflexivity.
  - apply andb_true_iff in HO. destruct HO as [HO1 HO2]. apply andb_true_iff in HO1. destruct HO1 as [_ HO1]. subst k'. destruct (nth_skip _ _ _ _ ES) as [N ES'].
    eapply (pd_cons I (OFields fs i) tt (text k) c (OFields fs (S i)) tt t tt); [|exact (H2 HO1)|exact (IH _ ES' HO2)].
    cbn [i_map_next open_iface o_map_next]. rewrite N. reflexivity.
Qed.
Lemma shows_struct cs ts : Forall2 shows_member cs ts -> shows (CStruct cs) (STMap ts).
Proof. intros H. eapply shows_begin; [reflexivity|]. intros HO. constructor. eapply fields_show; [reflexivity|exact H|exact HO]. Qed.

Lemma num_shows n c : EmbedsNum n c -> shows c (ntree n).
Proof. intros []; [apply shows_u|apply shows_i|]. eapply shows_begin; [reflexivity|constructor]. Qed.
Lemma json_shows j : forall c, EmbedsJson j c -> shows c (jtree j).
Proof.
  induction j as [|b|n|s|l IH|l IH] using jval_ind'; intros c H; inversion H; subst; cbn [jtree].
  - eapply shows_begin; [reflexivity|constructor].
  - eapply shows_begin; [reflexivity|constructor].
  - change (shows c (ntree n)). apply num_shows. assumption.
  - eapply shows_begin; [reflexivity|constructor].
  - apply shows_slice. match goal with HX : Forall2 _ l cs |- _ => rename HX into HF end. clear H. induction HF as [|j c l cs Hj _ IHF]; cbn [map]; [constructor|]. inversion IH; subst. constructor; auto.
  - apply shows_map. match goal with HX : Forall2 _ l cs |- _ => rename HX into HF end. clear H. induction HF as [|[k j] [k' c] l cs [H1 H2] _ IHF]; cbn [map]; [constructor|]. inversion IH; subst. cbn [fst snd] in *.
    constructor; [split; cbn [fst snd]; auto|auto].
Qed.

Section Env.
Variable E : env.
Definition member_of {A} (P : A -> Prop) (kv : bytes * A) : Prop := P (snd kv).
(** Every embedding shows what the value writes. *)
Theorem embeds_shows v : forall T c, Embeds E T v c -> exists t, Writes E T v t /\ shows c t.
Proof.
  induction v as [|b|s|z|f|f|v IH| |v IH|a b IHa IHb|l IH|l IH|j|m|l|l|l IH|i] using val_ind'; intros T c H; inversion H; subst.
  - eexists. split; [constructor|]. eapply shows_begin; [reflexivity|constructor].
  - eexists. split; [constructor|]. eapply shows_begin; [reflexivity|constructor].
  - eexists. split; [constructor|]. eapply shows_begin; [reflexivity|constructor].
  - eexists. split; [constructor|apply shows_u].
  - eexists. split; [constructor|apply shows_i].
  - eexists. split; [constructor|]. eapply shows_begin; [reflexivity|constructor].
  - eexists. split; [constructor|]. eapply shows_begin; [reflexivity|constructor].
  - destruct (IH _ _ ltac:(eassumption)) as (t & A & B). exists t. split; [constructor; exact A|]. eapply shows_same; [|exact B]. reflexivity.
  - eexists. split; [constructor|]. eapply shows_begin; [reflexivity|constructor].
  - destruct (IH _ _ ltac:(eassumption)) as (t & A & B). exists t. split; [constructor; exact A|]. eapply shows_same; [|exact B]. reflexivity.
  - destruct (IHa _ _ ltac:(eassumption)) as (ta & A1 & B1). destruct (IHb _ _ ltac:(eassumption)) as (tb & A2 & B2). eexists. split; [constructor; eassumption|]. apply shows_pair; assumption.
  - match goal with HX : Forall2 _ l cs |- _ => rename HX into HF end.
    enough (exists ts, Forall2 (Writes E T0) l ts /\ Forall2 shows cs ts) as (ts & A & B) by (eexists; split; [constructor; exact A|apply shows_slice, B]).
    clear H. induction HF as [|v c l cs Hv _ IHF]; [exists []; split; constructor|]. inversion IH as [|? ? IH1 IH2]; subst. destruct (IH1 _ _ Hv) as (t & A & B). destruct (IHF IH2) as (ts & A' & B'). exists (t :: ts). split; constructor; assumption.
  - match goal with HX : Forall2 _ l cs |- _ => rename HX into HF end.
    enough (exists ts, Forall2 (Writes E T0) l ts /\ Forall2 shows cs ts) as (ts & A & B) by (eexists; split; [constructor; exact A|apply shows_slice, B]).
    clear H. induction HF as [|v c l cs Hv _ IHF]; [exists []; split; constructor|]. inversion IH as [|? ? IH1 IH2]; subst. destruct (IH1 _ _ Hv) as (t & A & B). destruct (IHF IH2) as (ts & A' & B'). exists (t :: ts). split; constructor; assumption.
  - match goal with HX : Forall2 _ l0 cs |- _ => rename HX into HF end. match goal with HX : if h then _ else _ |- _ => rename HX into HP end.
    assert (IH' : Forall (fun kv : val * val => forall T c, Embeds E T (snd kv) c -> exists t, Writes E T (snd kv) t /\ shows c t) l0).
    { destruct h; [eapply Permutation_Forall; [exact HP|exact IH]|subst l0; exact IH]. }
    enough (exists ts, Forall2 (fun kv kt => fst kt = key_to_string (fst kv) /\ Writes E T0 (snd kv) (snd kt)) l0 ts /\ Forall2 shows_member cs ts) as (ts & A & B).
    { exists (STMap ts). split; [eapply wr_map; [exact HP|exact A]|apply shows_map, B]. }
    clear H HP IH. induction HF as [|[k v] [k' c] l0 cs [H1 H2] _ IHF]; [exists []; split; constructor|]. inversion IH' as [|? ? IH1 IH2]; subst. cbn [fst snd] in *.
    destruct (IH1 _ _ H2) as (t & A & B). destruct (IHF IH2) as (ts & A' & B'). exists ((key_to_string k, t) :: ts). split; constructor; auto; split; cbn [fst snd]; auto.
  - eexists. split; [constructor|]. apply json_shows. assumption.
  - eexists. split; [constructor|]. apply num_shows. assumption.
  - eexists. split; [constructor|]. apply json_shows. assumption.
  - eexists. split; [constructor|]. apply json_shows. assumption.
  - match goal with HX : Forall2 _ (combine fs l) cs |- _ => rename HX into HF end.
    match goal with HX : List.length l = _ |- _ => rename HX into HL end. match goal with HX : nth_error E _ = _ |- _ => rename HX into Hid end.
    assert (IH' : Forall (fun fv : (bytes * ty) * val => forall T c, Embeds E T (snd fv) c -> exists t, Writes E T (snd fv) t /\ shows c t) (combine fs l)).
    { rewrite Forall_forall in *. intros [f v] Hv. apply in_combine_r in Hv. exact (IH _ Hv). }
    enough (exists ts, Forall2 (fun fv kt => fst kt = fst (fst fv) /\ Writes E (snd (fst fv)) (snd fv) (snd kt)) (combine fs l) ts /\ Forall2 shows_member cs ts) as (ts & A & B).
    { exists (STMap ts). split; [eapply wr_struct; eassumption|apply shows_struct, B]. }
    clear H HL IH. induction HF as [|[[k T] v] [k' c] fl cs [H1 H2] _ IHF]; [exists []; split; constructor|]. inversion IH' as [|? ? IH1 IH2]; subst. cbn [fst snd] in *.
    destruct (IH1 _ _ H2) as (t & A & B). destruct (IHF IH2) as (ts & A' & B'). exists ((text k', t) :: ts). split; constructor; auto; split; cbn [fst snd]; auto.
  - eexists. split; [eapply wr_enum; eassumption|]. eapply shows_begin; [reflexivity|constructor].
Qed.

(** Every way to write a value is shown by an embedding of it. *)
Lemma num_embeds n : exists c, EmbedsNum n c.
Proof. destruct n; eexists; constructor. Qed.
Lemma json_embeds j : stree_ok (jtree j) = true -> exists c, EmbedsJson j c.
Proof.
  induction j as [|b|n|s|l IH|l IH] using jval_ind'; cbn [jtree stree_ok]; intros HO.
  - eexists. constructor.
  - eexists. constructor.
  - destruct (num_embeds n) as [c H]. exists c. constructor. exact H.
  - exists (CStr (mk_rstr s HO)). apply (ej_str (mk_rstr s HO)).
  - enough (exists cs, Forall2 EmbedsJson l cs) as [cs H] by (exists (CSlice cs); constructor; exact H).
    induction IH as [|j l Hj _ IHl]; [exists []; constructor|]. cbn [map forallb] in HO. apply andb_true_iff in HO. destruct HO as [H1 H2].
    destruct (Hj H1) as [c Hc]. destruct (IHl H2) as [cs Hcs]. exists (c :: cs). constructor; assumption.
  - enough (exists cs, Forall2 (fun kj (kc : rstr * oval) => text (fst kc) = fst kj /\ EmbedsJson (snd kj) (snd kc)) l cs) as [cs H] by (exists (CMap cs); constructor; exact H).
    induction IH as [|[k j] l Hj _ IHl]; [exists []; constructor|]. cbn [map forallb fst snd] in *. apply andb_true_iff in HO. destruct HO as [H1 H2]. apply andb_true_iff in H1. destruct H1 as [HK H1].
    destruct (Hj H1) as [c Hc]. destruct (IHl H2) as [cs Hcs]. exists ((mk_rstr k HK, c) :: cs). constructor; [split; [reflexivity|exact Hc]|exact Hcs].
Qed.
Theorem writes_embeds v : forall T t, Writes E T v t -> stree_ok t = true -> exists c, Embeds E T v c /\ shows c t.
Proof.
  induction v as [|b|s|z|f|f|v IH| |v IH|a b IHa IHb|l IH|l IH|j|m|l|l|l IH|i] using val_ind'; intros T t H HO; inversion H; subst.
  - eexists. split; [constructor|]. eapply shows_begin; [reflexivity|constructor].
  - eexists. split; [constructor|]. eapply shows_begin; [reflexivity|constructor].
  - exists (CStr (mk_rstr s HO)). split; [apply (em_string E (mk_rstr s HO))|]. eapply shows_begin; [reflexivity|intros _; apply (fd_str I s tt)].
  - eexists. split; [constructor|apply shows_u].
  - eexists. split; [constructor|apply shows_i].
  - eexists. split; [constructor|]. eapply shows_begin; [reflexivity|constructor].
  - eexists. split; [constructor|]. eapply shows_begin; [reflexivity|constructor].
  - destruct (IH _ _ ltac:(eassumption) HO) as (c & A & B). exists (CRef c). split; [constructor; exact A|]. eapply shows_same; [|exact B]. reflexivity.
  - eexists. split; [constructor|]. eapply shows_begin; [reflexivity|constructor].
  - destruct (IH _ _ ltac:(eassumption) HO) as (c & A & B). exists (COption (Some c)). split; [constructor; exact A|]. eapply shows_same; [|exact B]. reflexivity.
  - cbn [stree_ok forallb] in HO. rewrite andb_true_r in HO. apply andb_true_iff in HO. destruct HO as [O1 O2].
    destruct (IHa _ _ ltac:(eassumption) O1) as (ca & A1 & B1). destruct (IHb _ _ ltac:(eassumption) O2) as (cb & A2 & B2). exists (CPair ca cb). split; [constructor; assumption|]. apply shows_pair; assumption.
  - match goal with HX : Forall2 _ l ts |- _ => rename HX into HF end. cbn [stree_ok] in HO.
    enough (exists cs, Forall2 (Embeds E T0) l cs /\ Forall2 shows cs ts) as (cs & A & B) by (eexists; split; [constructor; exact A|apply shows_slice, B]).
    clear H. induction HF as [|v t l ts Hv _ IHF]; [exists []; split; constructor|]. inversion IH as [|? ? IH1 IH2]; subst. cbn [forallb] in HO. apply andb_true_iff in HO. destruct HO as [O1 O2].
    destruct (IH1 _ _ Hv O1) as (c & A & B). edestruct IHF as (cs & A' & B'); [eassumption|eassumption|]. exists (c :: cs). split; constructor; assumption.
  - match goal with HX : Forall2 _ l ts |- _ => rename HX into HF end. cbn [stree_ok] in HO.
    enough (exists cs, Forall2 (Embeds E T0) l cs /\ Forall2 shows cs ts) as (cs & A & B) by (eexists; split; [constructor; exact A|apply shows_slice, B]).
    clear H. induction HF as [|v t l ts Hv _ IHF]; [exists []; split; constructor|]. inversion IH as [|? ? IH1 IH2]; subst. cbn [forallb] in HO. apply andb_true_iff in HO. destruct HO as [O1 O2].
    destruct (IH1 _ _ Hv O1) as (c & A & B). edestruct IHF as (cs & A' & B'); [eassumption|eassumption|]. exists (c :: cs). split; constructor; assumption.
  - match goal with HX : Forall2 _ l0 ts |- _ => rename HX into HF end. match goal with HX : if h then _ else _ |- _ => rename HX into HP end. cbn [stree_ok] in HO.
    assert (IH' : Forall (fun kv : val * val => forall T t, Writes E T (snd kv) t -> stree_ok t = true -> exists c, Embeds E T (snd kv) c /\ shows c t) l0).
    { destruct h; [eapply Permutation_Forall; [exact HP|exact IH]|subst l0; exact IH]. }
    enough (exists cs, Forall2 (fun kv (kc : rstr * oval) => text (fst kc) = key_to_string (fst kv) /\ Embeds E T0 (snd kv) (snd kc)) l0 cs /\ Forall2 shows_member cs ts) as (cs & A & B).
    { exists (CMap cs). split; [eapply em_map; [exact HP|exact A]|apply shows_map, B]. }
    clear H HP IH. induction HF as [|[k v] [k' t] l0 ts [H1 H2] _ IHF]; [exists []; split; constructor|]. inversion IH' as [|? ? IH1 IH2]; subst. cbn [fst snd forallb] in *.
    apply andb_true_iff in HO. destruct HO as [O1 O2]. apply andb_true_iff in O1. destruct O1 as [OK O1].
    destruct (IH1 _ _ H2 O1) as (c & A & B). edestruct IHF as (cs & A' & B'); [eassumption|eassumption|]. exists ((mk_rstr _ OK, c) :: cs). split; constructor; auto; split; cbn [fst snd text]; auto.
  - destruct (json_embeds _ HO) as [c Hc]. exists c. split; [constructor; exact Hc|apply json_shows, Hc].
  - destruct (num_embeds m) as [c Hc]. exists c. split; [constructor; exact Hc|apply num_shows, Hc].
  - destruct (json_embeds _ HO) as [c Hc]. exists c. split; [constructor; exact Hc|apply json_shows, Hc].
  - destruct (json_embeds _ HO) as [c Hc]. exists c. split; [constructor; exact Hc|apply json_shows, Hc].
  - match goal with HX : Forall2 _ (combine fs l) ts |- _ => rename HX into HF end. cbn [stree_ok] in HO.
    match goal with HX : List.length l = _ |- _ => rename HX into HL end. match goal with HX : nth_error E _ = _ |- _ => rename HX into Hid end.
    assert (IH' : Forall (fun fv : (bytes * ty) * val => forall T t, Writes E T (snd fv) t -> stree_ok t = true -> exists c, Embeds E T (snd fv) c /\ shows c t) (combine fs l)).
    { rewrite Forall_forall in *. intros [f v] Hv. apply in_combine_r in Hv. exact (IH _ Hv). }
    enough (exists cs, Forall2 (fun fv (kc : rstr * oval) => text (fst kc) = fst (fst fv) /\ Embeds E (snd (fst fv)) (snd fv) (snd kc)) (combine fs l) cs /\ Forall2 shows_member cs ts) as (cs & A & B).
    { exists (CStruct cs). split; [eapply em_struct; eassumption|apply shows_struct, B]. }
    clear H HL IH. induction HF as [|[[k T] v] [k' t] fl ts [H1 H2] _ IHF]; [exists []; split; constructor|]. inversion IH' as [|? ? IH1 IH2]; subst. cbn [fst snd forallb] in *. subst k'.
    apply andb_true_iff in HO. destruct HO as [O1 O2]. apply andb_true_iff in O1. destruct O1 as [OK O1].
    destruct (IH1 _ _ H2 O1) as (c & A & B). edestruct IHF as (cs & A' & B'); [eassumption|eassumption|]. exists ((mk_rstr _ OK, c) :: cs). split; constructor; auto; split; cbn [fst snd text]; auto.
  - cbn [stree_ok] in HO. match goal with HX : nth_error ns i = Some _ |- _ => rename HX into HN end.
    exists (CVariant (mk_rstr s HO)). split; [eapply (em_enum E id ns i (mk_rstr s HO)); eassumption|]. eapply shows_begin; [reflexivity|intros _; apply (fd_str I s tt)].
Qed.
End Env.
