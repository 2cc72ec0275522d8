(** The builders of the crate are safe: instances of ClientFacts for sequences and maps. *)
From Coq Require Import String ZArith List Bool Lia Floats.SpecFloat.
From Verif Require Import Base Utf8 F64 Lexer Driver Grammar LexSpec Types Impls Tree DriverFacts Denote
  HeapFacts HeapSeq HeapMap HeapMain Reading MapFacts TypedFacts NumFacts ClientFacts.
Import ListNotations.
Open Scope Z_scope.

Section Inst.
Variable E : env.
Variable k : nat.
Hypothesis fitsE : forall id fs, nth_error E id = Some (DStruct fs) -> Forall (fun f => fits k (snd f)) fs.
Hypothesis Hk : (0 < k)%nat.
Hypothesis HE : env_ok E = true.

Definition okty (t : ty) : Prop := fits k t /\ ty_ok t = true.
Notation ht := (has_type E).
Notation ot := (otyped E).

(** ** Sequences *)
Definition sq_wt (T : ty) (o : obj) : Prop :=
  match o with
  | OVec t _ vec e => T = TVec t /\ okty t /\ Forall (ht t) vec /\ ot t e
  | OArr t n _ a alen e => T = TArr t n /\ okty t /\ Forall (ot t) a /\ ot t e /\
      List.length a = n /\ (alen <= n)%nat /\ all_init (firstn alen a) = true
  | OTup ta tb _ a b => T = TPair ta tb /\ okty ta /\ okty tb /\ ot ta a /\ ot tb b
  | OJArr iv _ a e => T = (if iv then TValue else TArray) /\ forallb jval_ok a = true /\ ot TValue e
  | _ => False
  end.
Lemma ot_json e : ot TValue e -> json_slot e.
Proof. destruct e as [v|]; [|exact (fun _ => Logic.I)]. intros H. cbn in H. inversion H; subst. cbn. discriminate. Qed.
Lemma sq_wt_ok T o : sq_wt T o -> sq_ok o.
Proof.
  destruct o; cbn [sq_wt]; try contradiction; intros H; (split; [cbn [sq_drop_ok]; tauto|]); try exact Logic.I.
  apply ot_json. tauto.
Qed.
Lemma upd_Forall {A} (P : A -> Prop) l i a : Forall P l -> P a -> Forall P (upd l i a).
Proof. intros H Ha. revert i. induction H as [|x l Hx H IH]; intros [|i]; cbn [upd]; constructor; auto. Qed.
Lemma arr_shift_wt t n a alen e a' alen' : Forall (ot t) a -> ot t e -> List.length a = n -> (alen <= n)%nat -> all_init (firstn alen a) = true ->
  arr_shift a alen e = Some (a', alen') ->
  Forall (ot t) a' /\ List.length a' = n /\ (alen' <= n)%nat /\ all_init (firstn alen' a') = true.
Proof.
  intros HA He HL HN HI HS. split.
  - unfold arr_shift in HS. destruct e as [v|]; [|injection HS as <- <-; exact HA]. destruct (Nat.ltb alen (List.length a)); [|discriminate]. injection HS as <- <-.
    apply upd_Forall; assumption.
  - unfold arr_shift in HS. destruct e as [v|]; [|injection HS as <- <-; auto]. destruct (Nat.ltb_spec alen (List.length a)) as [L|]; [|discriminate]. injection HS as <- <-.
    rewrite upd_length. split; [exact HL|]. split; [lia|]. rewrite firstn_upd by exact L. rewrite all_init_app, HI. reflexivity.
Qed.
Lemma read_all_typed t l vs : Forall (ot t) l -> read_all l = Some vs -> Forall (ht t) vs /\ List.length vs = List.length l.
Proof.
  intros H. revert vs. induction H as [|[v|] l Hv H IH]; intros vs; cbn [read_all]; [intros [= <-]; split; [constructor|reflexivity]| |discriminate].
  destruct (read_all l) as [vs'|]; [|discriminate]. intros [= <-]. destruct (IH vs' eq_refl) as [A B]. split; [constructor; assumption|cbn; lia].
Qed.
Lemma jarr_add_ok a e : forallb jval_ok a = true -> ot TValue e -> forallb jval_ok (jarr_add a e) = true.
Proof.
  intros HA He. destruct e as [v|]; [|exact HA]. cbn in He. inversion He as [| | | | | | | | | | | | |j HJ| | | | | ]; subst. cbn [jarr_add]. rewrite forallb_app, HA. cbn [forallb andb]. rewrite HJ. reflexivity.
Qed.

Lemma sq_el_core T o (key : unit) : sq_wt T o -> True -> exists r o', sq_wt T o' /\ obj_out o' = obj_out o /\
  (forall q A R, seq_element (S q) (BhAt (List.length A)) (A ++ Some o :: R) =
     (match r with Some (Some (i, t)) => Ok (VhPlace (mkplace (List.length A) i 0) t) | Some None => Ok VhIgnore | None => Err end, A ++ Some o' :: R)) /\
  match r with
  | Some (Some (i, t)) => okty t /\ (exists s, get_slot o' i = Some s) /\
      forall v, ht t v -> sq_wt T (set_slot o' i (Some v)) /\ obj_out (set_slot o' i (Some v)) = obj_out o
  | _ => True
  end.
Proof.
  intros HW _. exists (match fst (sq_el o) with Some x => Some (Some x) | None => None end), (snd (sq_el o)).
  pose proof (sq_wt_ok T o HW) as HO. pose proof (sq_el_ok o HO) as (HO' & HOUT & HS).
  assert (HWT : sq_wt T (snd (sq_el o))).
  { destruct o; cbn [sq_wt] in HW; try contradiction; cbn [sq_el].
    - destruct HW as (-> & A & B & C). cbn [snd sq_wt]. repeat (split; auto). destruct element; cbn [vec_shift]; [|exact B]. apply Forall_app. auto.
    - destruct HW as (-> & A & B & C & D & F & G). destruct (arr_shift array alen element) as [[a' alen']|] eqn:ES; cbn [snd sq_wt].
      + destruct (arr_shift_wt t n array alen element a' alen' B C D F G ES) as (K1 & K2 & K3 & K4). split; [reflexivity|]. split; [exact A|]. cs.
      + split; [reflexivity|]. split; [exact A|]. split; [exact B|]. cs.
    - destruct a, b; exact HW.
    - destruct HW as (A & B & C). cbn [snd sq_wt]. split; [exact A|]. split; [apply jarr_add_ok; assumption|exact Logic.I]. }
  split; [exact HWT|]. split; [exact HOUT|]. split.
  - intros q A R. rewrite (seq_element_core (S q) A o R HO ltac:(lia)). destruct (fst (sq_el o)) as [[i t]|]; reflexivity.
  - destruct (fst (sq_el o)) as [[i t]|] eqn:EF; [|exact Logic.I]. split; [|split; [exact HS|]].
    + destruct o; cbn [sq_wt sq_el] in *; try contradiction.
      * injection EF as <- <-. tauto.
      * destruct (arr_shift array alen element) as [[a' alen']|]; [|discriminate]. injection EF as <- <-. tauto.
      * destruct a, b; try discriminate; injection EF as <- <-; tauto.
      * injection EF as <- <-. split; [exact Hk|reflexivity].
    + intros v Hv. rewrite <- HOUT. split; [|apply sq_set_ok, HO'].
      destruct o; cbn [sq_wt sq_el] in *; try contradiction.
      * injection EF as <- <-. cbn [snd set_slot sq_wt] in *. tauto.
      * destruct (arr_shift array alen element) as [[a' alen']|]; [|discriminate]. injection EF as <- <-. cbn [snd set_slot sq_wt] in *. tauto.
      * destruct a, b; try discriminate; injection EF as <- <-; cbn [snd set_slot sq_wt] in *; tauto.
      * injection EF as <- <-. cbn [snd set_slot sq_wt] in *. tauto.
Qed.

Lemma sq_fin_core T o : sq_wt T o -> exists r o', sq_wt T o' /\ obj_out o' = obj_out o /\
  (forall q A R, pvalid (obj_out o) A -> seq_finish (S q) (BhAt (List.length A)) (A ++ Some o :: R) =
     match r with Some v => (Ok tt, wr (obj_out o) (Some v) A ++ Some o' :: R) | None => (Err, A ++ Some o' :: R) end) /\
  match r with Some v => ht T v | None => True end.
Proof.
  intros HW. exists (fst (sq_fin o)), (snd (sq_fin o)). pose proof (sq_wt_ok T o HW) as HO.
  assert (HX : sq_wt T (snd (sq_fin o)) /\ obj_out (snd (sq_fin o)) = obj_out o /\ match fst (sq_fin o) with Some v => ht T v | None => True end).
  { destruct o; cbn [sq_wt] in HW; try contradiction; cbn [sq_fin].
    - destruct HW as (-> & A & B & C). cbn [fst snd sq_wt obj_out]. split; [repeat (split; auto); constructor|]. split; [reflexivity|]. constructor.
      destruct element; cbn [vec_shift]; [|exact B]. apply Forall_app. auto.
    - destruct HW as (-> & A & B & C & D & F & G). destruct (arr_shift array alen element) as [[a' alen']|] eqn:ES.
      + destruct (arr_shift_wt t n array alen element a' alen' B C D F G ES) as (K1 & K2 & K3 & K4).
        destruct (Nat.ltb_spec alen' n) as [L|L]; cbn [fst snd sq_wt obj_out]; [split; [|split; [reflexivity|exact Logic.I]]; split; [reflexivity|]; split; [exact A|]; cs|].
        assert (alen' = n) as -> by lia. rewrite firstn_all2 in K4 by lia. destruct (all_init_read _ K4) as (vs & EV). rewrite EV. cbn [fst snd sq_wt obj_out].
        split; [|split; [reflexivity|]].
        * split; [reflexivity|]. split; [exact A|]. split; [apply Forall_forall; intros x Hx; apply repeat_spec in Hx; subst x; exact Logic.I|]. split; [exact Logic.I|].
          split; [apply repeat_length|]. split; [lia|reflexivity].
        * destruct (read_all_typed t a' vs K1 EV) as [J1 J2]. constructor; [lia|exact J1].
      + cbn [fst snd sq_wt obj_out]. split; [|split; [reflexivity|exact Logic.I]]. split; [reflexivity|]. split; [exact A|]. split; [exact B|]. cs.
    - destruct HW as (-> & A & B & C & D). cbn [fst snd sq_wt obj_out]. split; [repeat (split; auto)|]. split; [reflexivity|]. destruct a, b; try exact Logic.I. constructor; assumption.
    - destruct HW as (-> & A & B). cbn [fst snd sq_wt obj_out]. split; [repeat (split; auto)|]. split; [reflexivity|]. pose proof (jarr_add_ok array element A B) as J.
      destruct isval; constructor; exact J. }
  destruct HX as (X1 & X2 & X3). split; [exact X1|]. split; [exact X2|]. split; [|exact X3].
  intros q A R HP. destruct (seq_finish_core (S q) A o R HO ltac:(lia) HP) as [-> _]. reflexivity.
Qed.
Lemma sq_drp_core T o : sq_wt T o -> forall q A R, seq_drop (S q) (BhAt (List.length A)) (A ++ Some o :: R) = (Ok tt, A ++ None :: R).
Proof. intros HW q A R. apply seq_drop_core; [apply (sq_wt_ok T o HW)|lia]. Qed.

(** ** Maps *)
Definition mp_wt (T : ty) (o : obj) : Prop :=
  match o with
  | OMap K t _ m ko vo => (exists hash, T = TMap hash K t) /\ okty t /\ sorted_keys key_cmp m = true /\
      Forall (fun kv => key_ok K (fst kv) = true) m /\ Forall (fun kv => ht t (snd kv)) m /\
      match ko with Some x => key_ok K x = true | None => True end /\ ot t vo
  | OJObj iv _ m ko vo => T = (if iv then TValue else TObject) /\ jval_ok (JvObj m) = true /\
      match ko with Some x => str_ok x = true | None => True end /\ ot TValue vo
  | OStruct fs _ fields => (exists id, T = TNamed id /\ nth_error E id = Some (DStruct fs)) /\ Forall2 (fun f x => ot (snd f) x) fs fields
  | _ => False
  end.
Lemma forall2_len {A B} (R : A -> B -> Prop) l l' : Forall2 R l l' -> List.length l = List.length l'.
Proof. induction 1; cbn; congruence. Qed.
Lemma mp_wt_ok T o : mp_wt T o -> mp_ok o.
Proof.
  destruct o; cbn [mp_wt]; try contradiction; intros H; (split; [exact Logic.I|]); try exact Logic.I.
  - apply ot_json. tauto.
  - destruct H as [_ H]. apply forall2_len in H. auto.
Qed.
Lemma key_kinds K x : key_ok K x = true -> key_kind K x.
Proof. destruct K, x; cbn; try discriminate; intros _; eauto. Qed.
Lemma map_shift_wt K t m ko vo : sorted_keys key_cmp m = true -> Forall (fun kv => key_ok K (fst kv) = true) m -> Forall (fun kv => ht t (snd kv)) m ->
  match ko with Some x => key_ok K x = true | None => True end -> ot t vo ->
  sorted_keys key_cmp (map_shift m ko vo) = true /\ Forall (fun kv => key_ok K (fst kv) = true) (map_shift m ko vo) /\ Forall (fun kv => ht t (snd kv)) (map_shift m ko vo).
Proof.
  intros A B C D F. destruct ko as [x|]; [|auto]. destruct vo as [v|]; [|auto]. cbn [map_shift otyped] in *.
  assert (HB : keysP (fun y => key_ok K y = true) m) by exact B.
  assert (HK : keysP (key_kind K) m) by (unfold keysP in *; rewrite Forall_forall in *; intros y Hy; apply key_kinds, HB, Hy).
  destruct (minsert_spec key_cmp (key_kind K) (fun a b => key_cmp_eq K a b) (fun a => key_cmp_refl K a) (fun a b => key_cmp_anti K a b) (fun a b c => key_cmp_trans K a b c) x v m (key_kinds K x D) HK A) as [S I2].
  split; [exact S|]. split.
  - apply (minsert_keysP key_cmp (fun y => key_ok K y = true) x v m D B).
  - apply Forall_forall. intros [k1 v1] HI. apply I2 in HI. cbn [snd]. destruct HI as [[_ ->]|[_ HI]]; [exact F|]. rewrite Forall_forall in C. apply (C _ HI).
Qed.
Lemma jobj_add_wt m ko vo : jval_ok (JvObj m) = true -> match ko with Some x => str_ok x = true | None => True end -> ot TValue vo -> jval_ok (JvObj (jobj_add m ko vo)) = true.
Proof.
  intros A B C. destruct ko as [x|]; [|exact A]. destruct vo as [v|]; [|exact A]. cbn [otyped] in C. inversion C as [| | | | | | | | | | | | |j HJ| | | | | ]; subst. cbn [jobj_add].
  cbn [jval_ok] in *. apply andb_true_iff in A. destruct A as [A1 A2].
  destruct (minsert_spec bytes_cmp (fun _ => True) (fun a b _ _ => bytes_cmp_eq a b) (fun a _ => bytes_cmp_refl a) (fun a b _ _ => bytes_cmp_anti a b) (fun a b c _ _ _ => bytes_cmp_trans a b c) x j m Logic.I) as [S I2]; [apply Forall_forall; auto|exact A1|].
  rewrite S. cbn [andb]. apply forallb_forall. intros [k1 v1] HI. apply I2 in HI. cbn [fst snd]. destruct HI as [[-> ->]|[_ HI]]; [rewrite B, HJ; reflexivity|].
  rewrite forallb_forall in A2. apply (A2 _ HI).
Qed.
Lemma forall2_upd fs (l : list (option val)) i n t x : Forall2 (fun f x => ot (snd f) x) fs l -> nth_error fs i = Some (n, t) -> ot t x -> Forall2 (fun (f : bytes * ty) x => ot (snd f) x) fs (upd l i x).
Proof.
  intros H. revert i. induction H as [|f y fs l Hy H IH]; intros [|i]; cbn [nth_error upd]; intros HN Hx; try discriminate.
  - injection HN as ->. constructor; assumption.
  - constructor; auto.
Qed.
Lemma env_fields id fs : nth_error E id = Some (DStruct fs) -> Forall (fun f => okty (snd f)) fs.
Proof.
  intros HN. apply Forall_forall. intros f Hf. split.
  - pose proof (fitsE id fs HN) as HF. rewrite Forall_forall in HF. apply HF, Hf.
  - unfold env_ok in HE. rewrite forallb_forall in HE. apply nth_error_In in HN. apply HE in HN. rewrite forallb_forall in HN. apply HN, Hf.
Qed.
Lemma set_struct fs p l i x : set_slot (OStruct fs p l) i x = OStruct fs p (upd l i x).
Proof. destruct i; reflexivity. Qed.

Lemma mp_el_core T o key : mp_wt T o -> str_ok key = true -> exists r o', mp_wt T o' /\ obj_out o' = obj_out o /\
  (forall q A R, map_key (S q) (BhAt (List.length A)) key (A ++ Some o :: R) =
     (match r with Some (Some (i, t)) => Ok (VhPlace (mkplace (List.length A) i 0) t) | Some None => Ok VhIgnore | None => Err end, A ++ Some o' :: R)) /\
  match r with
  | Some (Some (i, t)) => okty t /\ (exists s, get_slot o' i = Some s) /\
      forall v, ht t v -> mp_wt T (set_slot o' i (Some v)) /\ obj_out (set_slot o' i (Some v)) = obj_out o
  | _ => True
  end.
Proof.
  intros HW Hkey. exists (fst (mp_key o key)), (snd (mp_key o key)).
  pose proof (mp_wt_ok T o HW) as HO. pose proof (mp_key_ok o key HO) as (HO' & HOUT & HS).
  assert (HWT : mp_wt T (snd (mp_key o key))).
  { destruct o; cbn [mp_wt] in HW; try contradiction; cbn [mp_key].
    - destruct HW as (X & A & B & C & D & F & G). destruct (map_shift_wt _ _ _ _ _ B C D F G) as (K1 & K2 & K3).
      destruct (key_from_str k0 key) as [kv|] eqn:EK; cbn [snd mp_wt]; (split; [exact X|]; split; [exact A|]; cs); cbn; auto. split; [|exact Logic.I]. apply (key_from_str_ok _ _ _ Hkey EK).
    - destruct HW as (X & A & B & C). cbn [snd mp_wt]. split; [exact X|]. split; [apply jobj_add_wt; assumption|]. split; [exact Hkey|exact Logic.I].
    - destruct (find_name key (map fst fs) 0) as [i|]; [|exact HW]. destruct (nth_error fs i) as [[n t]|]; exact HW. }
  split; [exact HWT|]. split; [exact HOUT|]. split.
  - intros q A R. rewrite (map_key_core key (S q) A o R HO ltac:(lia)). destruct (fst (mp_key o key)) as [[[i t]|]|]; reflexivity.
  - destruct (fst (mp_key o key)) as [[[i t]|]|] eqn:EF; try exact Logic.I. split; [|split; [exact HS|]].
    + destruct o; cbn [mp_wt mp_key] in *; try contradiction.
      * destruct (key_from_str k0 key); [|discriminate]. injection EF as <- <-. tauto.
      * injection EF as <- <-. split; [exact Hk|reflexivity].
      * destruct (find_name key (map fst fs) 0) as [j|]; [|discriminate]. destruct (nth_error fs j) as [[n t']|] eqn:EN; [|discriminate]. injection EF as <- <-.
        destruct HW as [(id & _ & HN) _]. apply env_fields in HN. rewrite Forall_forall in HN. apply (HN (n, t')). eapply nth_error_In. exact EN.
    + intros v Hv. rewrite <- HOUT. split; [|apply mp_set_ok, HO'].
      destruct o; cbn [mp_wt mp_key] in *; try contradiction.
      * destruct (key_from_str k0 key); [|discriminate]. injection EF as <- <-. cbn [snd set_slot mp_wt] in *. tauto.
      * injection EF as <- <-. cbn [snd set_slot mp_wt] in *. tauto.
      * destruct (find_name key (map fst fs) 0) as [j|]; [|discriminate]. destruct (nth_error fs j) as [[n t']|] eqn:EN; [|discriminate]. injection EF as <- <-.
        cbn [snd] in *. rewrite set_struct. cbn [mp_wt]. destruct HW as [X Y]. split; [exact X|]. apply (forall2_upd _ _ _ _ _ _ Y EN). exact Hv.
Qed.
Lemma read_fields fs l vs : Forall2 (fun f x => ot (snd f) x) fs l -> read_all l = Some vs -> Forall2 (fun (f : bytes * ty) v => ht (snd f) v) fs vs.
Proof.
  intros H. revert vs. induction H as [|f [v|] fs l Hv H IH]; intros vs; cbn [read_all]; [intros [= <-]; constructor| |discriminate].
  destruct (read_all l); [|discriminate]. intros [= <-]. constructor; [exact Hv|]. apply IH. reflexivity.
Qed.
Lemma taken_fields fs l : Forall2 (fun f x => ot (snd f) x) fs l -> Forall2 (fun (f : bytes * ty) x => ot (snd f) x) fs (snd (take_fields l)).
Proof.
  induction 1 as [|f [v|] fs l Hv H IH]; cbn [take_fields]; [constructor| |constructor; assumption].
  destruct (take_fields l) as [r rest]. cbn [snd] in *. constructor; [exact Logic.I|exact IH].
Qed.
Lemma mp_fin_core T o : mp_wt T o -> exists r o', mp_wt T o' /\ obj_out o' = obj_out o /\
  (forall q A R, pvalid (obj_out o) A -> map_finish (S q) (BhAt (List.length A)) (A ++ Some o :: R) =
     match r with Some v => (Ok tt, wr (obj_out o) (Some v) A ++ Some o' :: R) | None => (Err, A ++ Some o' :: R) end) /\
  match r with Some v => ht T v | None => True end.
Proof.
  intros HW. exists (fst (mp_fin o)), (snd (mp_fin o)). pose proof (mp_wt_ok T o HW) as HO.
  assert (HX : mp_wt T (snd (mp_fin o)) /\ obj_out (snd (mp_fin o)) = obj_out o /\ match fst (mp_fin o) with Some v => ht T v | None => True end).
  { destruct o; cbn [mp_wt] in HW; try contradiction; cbn [mp_fin].
    - destruct HW as (X & A & B & C & D & F & G). destruct (map_shift_wt _ _ _ _ _ B C D F G) as (K1 & K2 & K3). cbn [fst snd mp_wt obj_out].
      split; [split; [exact X|]; split; [exact A|]; repeat (split; [solve [constructor|reflexivity|exact Logic.I]|]); exact Logic.I|]. split; [reflexivity|]. destruct X as (hs & ->). constructor; assumption.
    - destruct HW as (-> & A & B & C). cbn [fst snd mp_wt obj_out]. split; [repeat (split; [reflexivity|]); split; exact Logic.I|]. split; [reflexivity|]. pose proof (jobj_add_wt _ _ _ A B C) as J. destruct isval; constructor; exact J.
    - destruct HW as [X Y]. cbn [fst snd mp_wt obj_out]. split; [split; [exact X|apply taken_fields, Y]|]. split; [reflexivity|]. destruct (read_all fields) as [vs|] eqn:ER; [|exact Logic.I]. cbn [option_map].
      destruct X as (id & -> & HN). eapply ht_struct; [exact HN|]. apply (read_fields _ _ _ Y ER). }
  destruct HX as (X1 & X2 & X3). split; [exact X1|]. split; [exact X2|]. split; [|exact X3].
  intros q A R HP. destruct (map_finish_core (S q) A o R HO ltac:(lia) HP) as [-> _]. reflexivity.
Qed.
Lemma mp_drp_core T o : mp_wt T o -> forall q A R, map_drop (S q) (BhAt (List.length A)) (A ++ Some o :: R) = (Ok tt, A ++ None :: R).
Proof. intros HW q A R. apply map_drop_core; [apply (mp_wt_ok T o HW)|lia]. Qed.
End Inst.
