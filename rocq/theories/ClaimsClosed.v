(** C56, continued: the impls over arbitrary type parameters (UserTypes.v) and the impls of
    the closed universe of types (Impls.v: a heap of builders), which were modelled
    independently of each other, agree wherever both apply. *)
From Coq Require Import String ZArith List Bool Lia.
From Verif Require Import Base Utf8 Lexer Driver Grammar LexSpec Types Impls Tree TreeFacts DriverFacts Denote FromStr RunText MapFacts UserTypes UserSpec UserFacts UserMain UserText ClaimsUser.
Import ListNotations.
Open Scope nat_scope.

(** T is the type [tau] of the closed universe: it is regular, has the same default, and
    reads the same from every parse tree; [f] is the value of the universe that a value of
    type A stands for. *)
Definition models {A} (E : env) (T : utype unit A) (f : A -> val) (tau : ty) : Prop :=
  regular T /\
  (exists o, u_default T tt = (Ok o, tt) /\ option_map f o = default_slot tau) /\
  forall t, match de E t tau with
            | Some v => exists a, f a = v /\ reads T t tt None = (Ok tt, (tt, Some a))
            | None => exists o, reads T t tt None = (Err, (tt, o))
            end.

(** ** Types without components *)
Definition scalar_ty (tau : ty) : bool :=
  match tau with TUnit | TBool | TString | TInt _ _ | TF32 | TF64 | TNumber => true | _ => false end.
Definition leaf_ops (tau : ty) : iface (unit * (option val * unit)) unit Empty_set Empty_set :=
  let w ev st := match leaf_prim [] tau ev with
                 | Ok v => (Ok tt, (tt, (Some v, tt)))
                 | Err => (Err, st)
                 | Fault e => (Fault e, st)
                 end in
  {| v_null := fun _ => w ENull; v_bool := fun _ b => w (EBool b); v_str := fun _ s => w (EStr s);
     v_neg := fun _ n => w (ENeg n); v_nonneg := fun _ n => w (ENonneg n); v_float := fun _ x => w (EFloat x);
     v_seq := fun _ st => (Err, st); v_map := fun _ st => (Err, st);
     s_element := fun m : Empty_set => match m with end; s_finish := fun m : Empty_set => match m with end; s_drop := fun m : Empty_set => match m with end;
     m_key := fun m : Empty_set => match m with end; m_finish := fun m : Empty_set => match m with end; m_drop := fun m : Empty_set => match m with end |}.
Definition uleaf (tau : ty) : utype unit val := {|
  u_ops := leaf_ops tau; u_begin := fun g o => (Ok tt, (tt, (o, tt))); u_default := no_default; u_idle := tt |}.

Lemma leaf_no_fault E tau ev e : leaf_prim E tau ev <> Fault e.
Proof.
  destruct tau, ev; cbn [leaf_prim]; try discriminate; try (destruct signed; try discriminate; destruct (_ <=? _)%Z; discriminate).
  destruct (nth_error E id) as [[]|]; try discriminate. destruct find_name; discriminate.
Qed.
Lemma leaf_reads tau t o : scalar_ty tau = true ->
  reads (uleaf tau) t tt o = match t with
                             | PLeaf ev => match leaf_prim [] tau ev with Ok v => (Ok tt, (tt, Some v)) | _ => (Err, (tt, o)) end
                             | _ => (Err, (tt, o))
                             end.
Proof.
  intros HS. destruct t as [|ev|l c|l c]; try reflexivity.
  pose proof (leaf_no_fault [] tau ev) as N.
  destruct ev; unfold reads; cbn [uleaf u_begin feed u_ops leaf_ops v_null v_bool v_str v_neg v_nonneg v_float];
    try (destruct (leaf_prim [] tau _) as [v| |x]; [reflexivity|reflexivity|destruct (N x); reflexivity]).
  all: destruct tau; try discriminate HS; try reflexivity; destruct signed; reflexivity.
Qed.
Theorem C56_scalars_model_closed E tau : scalar_ty tau = true -> models E (uleaf tau) (fun v => v) tau.
Proof.
  intros HS. split; [|split].
  - split; [intros [[]|[]]|]. split.
    + intros t g g' o. destruct g. rewrite leaf_reads by exact HS. destruct t as [|ev|l c|l c]; try (intros K; discriminate K).
      destruct (leaf_prim [] tau ev); intros K; [injection K as <- <-; discriminate|discriminate..].
    + intros t [] o1 o2. rewrite !leaf_reads by exact HS. destruct t as [|ev|l c|l c]; try (split; [reflexivity|split; [reflexivity|intros K; discriminate K]]).
      destruct (leaf_prim [] tau ev); try (split; [reflexivity|split; [reflexivity|intros K; discriminate K]]). repeat split.
  - exists None. split; [reflexivity|]. destruct tau; try discriminate; reflexivity.
  - intros t. rewrite leaf_reads by exact HS.
    assert (D : de E t tau = match t with PLeaf ev => opt (leaf_prim [] tau ev) | _ => None end).
    { destruct tau; try discriminate HS; destruct t as [|ev|l c|l c]; try reflexivity; destruct c; reflexivity. }
    rewrite D. destruct t as [|ev|l c|l c]; eauto. destruct (leaf_prim [] tau ev); cbn [opt]; eauto.
Qed.

(** ** Containers *)
Section Containers.
Variable E : env.
Context {A : Type} (T : utype unit A) (f : A -> val) (tau : ty).
Hypothesis HT : models E T f tau.

Lemma all_closed items : forall acc,
  match mapM (fun x => de E x tau) items with
  | Some vs => exists l, map f l = vs /\ UserSpec.read_all (reads T) items tt acc = (Ok (acc ++ l), tt)
  | None => UserSpec.read_all (reads T) items tt acc = (Err, tt)
  end.
Proof.
  destruct HT as (_ & _ & HD). induction items as [|t items IH]; intros acc; cbn [mapM UserSpec.read_all].
  - exists []. rewrite app_nil_r. split; reflexivity.
  - specialize (HD t). destruct (de E t tau) as [v|].
    + destruct HD as (a & Ha & ->). cbn [olist]. specialize (IH (acc ++ [a])). destruct (mapM _ items) as [vs|]; [|exact IH].
      destruct IH as (l & Hl & ->). exists (a :: l). rewrite <- app_assoc. cbn. split; congruence.
    + destruct HD as (o & ->). reflexivity.
Qed.
Theorem C56_vec_models_closed : models E (uvec T) (fun l => VSeq (map f l)) (TVec tau).
Proof.
  pose proof HT as ((HQ & _) & _ & _). split; [apply C56_containers_are_regular, HQ|]. split; [exists None; split; reflexivity|].
  intros t. rewrite reads_vec. destruct t as [|ev|items c|ms c]; cbn [de de_wrap is_null read_vec].
  - eauto.
  - destruct ev; cbn; eauto.
  - pose proof (all_closed items []) as K. cbn [de_seq]. destruct c.
    + destruct (mapM (fun x => de E x tau) items) as [vs|]; cbn [option_map].
      * destruct K as (l & <- & ->). cbn. eauto.
      * rewrite K. cbn. eauto.
    + destruct (mapM (fun x => de E x tau) items) as [vs|]; [destruct K as (l & _ & ->)|rewrite K]; cbn; eauto.
  - destruct c; cbn; eauto.
Qed.

Lemma upto_closed n items : forall acc,
  (UserSpec.read_upto (reads T) n items tt acc = (Err, tt) /\ (mapM (fun x => de E x tau) items = None \/ n < List.length acc + List.length items)) \/
  (exists l, mapM (fun x => de E x tau) items = Some (map f l) /\ UserSpec.read_upto (reads T) n items tt acc = (Ok (acc ++ l), tt)).
Proof.
  destruct HT as (_ & _ & HD). induction items as [|t items IH]; intros acc; cbn [mapM UserSpec.read_upto].
  - right. exists []. rewrite app_nil_r. split; reflexivity.
  - destruct (n <? List.length acc)%nat eqn:B; [left; split; [reflexivity|right; cbn [List.length]; apply Nat.ltb_lt in B; lia]|].
    specialize (HD t). destruct (de E t tau) as [v|].
    + destruct HD as (a & Ha & ->). cbn [olist]. destruct (IH (acc ++ [a])) as [[K1 K2]|(l & K1 & K2)].
      * left. split; [exact K1|]. rewrite app_length in K2. cbn [List.length] in K2 |- *. destruct K2 as [K2|K2]; [left; rewrite K2; reflexivity|right; lia].
      * right. exists (a :: l). rewrite K1, K2, <- app_assoc. cbn. split; congruence.
    + destruct HD as (o & ->). left. split; [reflexivity|left; reflexivity].
Qed.
Lemma mapM_length {X Y} (g : X -> option Y) l l' : mapM g l = Some l' -> List.length l = List.length l'.
Proof.
  revert l'. induction l as [|x l IH]; intros l'; cbn [mapM]; [intros [= <-]; reflexivity|].
  destruct (g x); [|discriminate]. destruct (mapM g l) as [r|]; [|discriminate]. intros [= <-]. cbn. f_equal. apply IH. reflexivity.
Qed.
Theorem C56_array_models_closed n : models E (uarr T n) (fun l => VSeq (map f l)) (TArr tau n).
Proof.
  pose proof HT as ((HQ & _) & _ & _). split; [apply C56_containers_are_regular, HQ|]. split; [exists None; split; reflexivity|].
  intros t. rewrite reads_arr. destruct t as [|ev|items c|ms c]; cbn [de de_wrap is_null read_arr].
  - eauto.
  - destruct ev; cbn; eauto.
  - cbn [de_seq]. destruct (upto_closed n items []) as [[K1 K2]|(l & K1 & K2)].
    + rewrite K1. cbn [fst snd rmap store].
      enough (N : (if c then if List.length items =? n then option_map VSeq (mapM (fun x => de E x tau) items) else None else None) = None) by (rewrite N; eauto).
      destruct c; [|reflexivity]. destruct (Nat.eqb_spec (List.length items) n) as [H|H]; [|reflexivity].
      destruct K2 as [->|K2]; [reflexivity|cbn [List.length] in K2; lia].
    + rewrite K1, K2. cbn [fst snd rmap app]. apply mapM_length in K1. rewrite map_length in K1. rewrite <- K1.
      destruct (List.length items =? n); destruct c; cbn; eauto.
  - destruct c; cbn; eauto.
Qed.

Lemma de_opt t : de E t (TOption tau) = if is_null t then Some VNone else option_map VSome (de E t tau).
Proof. destruct t; reflexivity. Qed.
Lemma de_box t : de E t (TBox tau) = option_map VBox (de E t tau).
Proof. destruct t; reflexivity. Qed.
Lemma de_broken t : broken t = true -> forall ty, de E t ty = None.
Proof.
  intros B ty. destruct t as [|ev| |]; try discriminate; cbn [de is_null].
  - induction ty; cbn [de_wrap]; rewrite ?IHty; reflexivity.
  - destruct ev; try discriminate; induction ty; cbn [de_wrap]; rewrite ?IHty; try reflexivity; destruct signed; reflexivity.
Qed.
Definition emb_opt (o : option A) : val := match o with Some a => VSome (f a) | None => VNone end.
Theorem C56_option_models_closed : models E (uopt T) emb_opt (TOption tau).
Proof.
  pose proof HT as ((HQ & HF & _) & _ & HD). split; [apply C56_containers_are_regular, HQ|]. split; [exists (Some None); split; reflexivity|].
  intros t. rewrite reads_opt, de_opt. unfold read_opt. destruct (broken t) eqn:B.
  - rewrite (de_broken t B). destruct t as [|[]| |]; try discriminate; cbn; eauto.
  - specialize (HD t). destruct (is_null t) eqn:N.
    + destruct t as [|[]| |]; try discriminate. exists None. split; reflexivity.
    + assert (EQ : match t with
                   | PLeaf ENull => (Ok tt, (tt, Some None))
                   | _ => let '(r, (g', o')) := reads T t tt None in (r, (g', Some o'))
                   end = let '(r, (g', o')) := reads T t tt None in (r, (g', Some o'))) by (destruct t as [|[]| |]; try discriminate N; reflexivity).
      rewrite EQ. destruct (de E t tau) as [v|]; cbn [option_map].
      * destruct HD as (a & <- & ->). exists (Some a). split; reflexivity.
      * destruct HD as (o & ->). eauto.
Qed.
Theorem C56_box_models_closed : models E (ubox T) (fun a => VBox (f a)) (TBox tau).
Proof.
  pose proof HT as ((HQ & HF & _) & _ & HD). split; [apply C56_containers_are_regular, HQ|]. split; [exists None; split; reflexivity|].
  intros t. rewrite reads_box, de_box. unfold read_box. destruct (broken t) eqn:B.
  - rewrite (de_broken t B). cbn. eauto.
  - specialize (HD t). destruct (de E t tau) as [v|]; cbn [option_map].
    + destruct HD as (a & <- & ->). eauto.
    + destruct HD as (o & ->). eauto.
Qed.

(** Keys of the closed universe, in maps kept as key-sorted lists. *)
Definition closed_parse (K : kty) (k : bytes) (g : unit) : res val * unit :=
  match key_from_str K k with Some key => (Ok key, g) | None => (Err, g) end.
Definition closed_insert (k : val) (a : A) (m : list (val * val)) : list (val * val) := minsert key_cmp k (f a) m.
Lemma entries_closed K ms : forall m,
  match mapM (fun m : bytes * ptree => match key_from_str K (fst m), de E (snd m) tau with Some k, Some v => Some (k, v) | _, _ => None end) ms with
  | Some kvs => read_entries (reads T) (closed_parse K) closed_insert ms tt m = (Ok (fold_left (fun m kv => minsert key_cmp (fst kv) (snd kv) m) kvs m), tt)
  | None => read_entries (reads T) (closed_parse K) closed_insert ms tt m = (Err, tt)
  end.
Proof.
  destruct HT as (_ & _ & HD). induction ms as [|[k t] ms IH]; intros m; cbn [mapM read_entries fst snd]; [reflexivity|].
  assert (P : closed_parse K k tt = match key_from_str K k with Some key => (Ok key, tt) | None => (Err, tt) end) by reflexivity.
  destruct (key_from_str K k) as [key|]; rewrite P; [|reflexivity].
  specialize (HD t). destruct (de E t tau) as [v|].
  - destruct HD as (a & <- & ->). specialize (IH (closed_insert key a m)). destruct (mapM _ ms); exact IH.
  - destruct HD as (o & ->). reflexivity.
Qed.
Theorem C56_map_models_closed hash K : models E (umap (closed_parse K) [] closed_insert T) VMap (TMap hash K tau).
Proof.
  pose proof HT as ((HQ & _) & _ & _). split; [apply C56_containers_are_regular, HQ|]. split; [exists None; split; reflexivity|].
  intros t. rewrite reads_map. destruct t as [|ev|items c|ms c]; cbn [de de_wrap is_null read_map].
  - eauto.
  - destruct ev; cbn; eauto.
  - destruct c; cbn; eauto.
  - cbn [de_map]. pose proof (entries_closed K ms []) as H. destruct (mapM _ ms) as [kvs|]; rewrite H; destruct c; cbn; eauto.
Qed.
End Containers.

Theorem C56_pair_models_closed E A B (TA : utype unit A) (TB : utype unit B) fa fb a b :
  models E TA fa a -> models E TB fb b ->
  models E (upair TA TB) (fun p => VPair (fa (fst p)) (fb (snd p))) (TPair a b).
Proof.
  intros ((HQA & HFA & _) & _ & HA) ((HQB & HFB & _) & _ & HB).
  split; [apply C56_containers_are_regular; assumption|]. split; [exists None; split; reflexivity|].
  intros t. rewrite reads_pair. destruct t as [|ev|items c|ms c]; cbn [de de_wrap is_null read_pair].
  - eauto.
  - destruct ev; cbn; eauto.
  - cbn [de_seq].
    assert (N : forall r, (exists o, store (@None (A * B)) c (rmap (fun p => match p with (Some a, Some b) => Some (a, b) | _ => None end) (fst r), snd r) = (Err, (tt, o))) ->
      read_two (reads TA) (reads TB) items tt None None = r ->
      exists o, store None c (let r := read_two (reads TA) (reads TB) items tt None None in (rmap (fun p => match p with (Some a, Some b) => Some (a, b) | _ => None end) (fst r), snd r)) = (Err, (tt, o))) by (intros r H <-; exact H).
    destruct items as [|x [|y [|z items]]]; cbn [read_two].
    + destruct c; cbn; eauto.
    + replace (if c then None else None) with (@None val) by (destruct c; reflexivity). specialize (HA x). destruct (de E x a).
      * destruct HA as (w & _ & ->). destruct c; cbn; eauto.
      * destruct HA as (o & ->). destruct c; cbn; eauto.
    + specialize (HA x). destruct (de E x a).
      * destruct HA as (w & <- & ->). specialize (HB y). destruct (de E y b).
        -- destruct HB as (u & <- & ->). destruct c; cbn; [exists (w, u); split; reflexivity|eauto].
        -- destruct HB as (o & ->). destruct c; cbn; eauto.
      * destruct HA as (o & ->). destruct c; cbn; eauto.
    + replace (if c then None else None) with (@None val) by (destruct c; reflexivity). specialize (HA x). destruct (de E x a).
      * destruct HA as (w & <- & ->). specialize (HB y). destruct (de E y b).
        -- destruct HB as (u & <- & ->). destruct c; cbn; eauto.
        -- destruct HB as (o & ->). destruct c; cbn; eauto.
      * destruct HA as (o & ->). destruct c; cbn; eauto.
  - destruct c; cbn; eauto.
Qed.

(** ** Structs *)
Record cfield := mk_cfield { c_field : ufield unit; c_emb : f_ty c_field -> val; c_ty : ty }.
Fixpoint emb_vals (cs : list cfield) : fvals (map c_field cs) -> list val :=
  match cs with
  | [] => fun _ => []
  | c :: cs' => fun vs => c_emb c (fst vs) :: emb_vals cs' (snd vs)
  end.
Fixpoint emb_slots (cs : list cfield) : fopts (map c_field cs) -> list (option val) :=
  match cs with
  | [] => fun _ => []
  | c :: cs' => fun vs => option_map (c_emb c) (fst vs) :: emb_slots cs' (snd vs)
  end.
Definition closed_fields (cs : list cfield) : list (bytes * ty) := map (fun c => (f_name (c_field c), c_ty c)) cs.
Definition models_field E (c : cfield) : Prop := models E (f_u (c_field c)) (c_emb c) (c_ty c).

Lemma defaults_closed E cs : Forall (models_field E) cs ->
  exists ps, defaults (map c_field cs) tt = (Ok ps, tt) /\ emb_slots cs ps = map (fun f => default_slot (snd f)) (closed_fields cs).
Proof.
  induction 1 as [|c cs (_ & (o & H1 & H2) & _) _ (ps & IH1 & IH2)]; cbn [map defaults emb_slots closed_fields]; [exists tt; split; reflexivity|].
  rewrite H1, IH1. cbn [fst snd rmap]. exists (o, ps). split; [reflexivity|]. cbn [fst snd]. rewrite IH2, H2. reflexivity.
Qed.
Lemma some_closed cs ps : option_map (emb_vals cs) (all_some (map c_field cs) ps) = Impls.read_all (emb_slots cs ps).
Proof.
  induction cs as [|c cs IH]; cbn [map all_some emb_vals emb_slots Impls.read_all]; [reflexivity|].
  destruct ps as [[a|] ps]; cbn [fst snd option_map]; [|reflexivity]. rewrite <- IH. destruct (all_some (map c_field cs) ps); reflexivity.
Qed.
Lemma find_shift k ns i : find_name k ns (S i) = option_map S (find_name k ns i).
Proof. revert i. induction ns as [|n ns IH]; intros i; cbn [find_name]; [reflexivity|]. destruct (bytes_eqb k n); [reflexivity|apply IH]. Qed.
Lemma field_closed E k t cs : Forall (models_field E) cs -> forall ps,
  match find_name k (map fst (closed_fields cs)) 0 with
  | Some i => exists n ty, nth_error (closed_fields cs) i = Some (n, ty) /\
      match de E t ty with
      | Some v => exists ps', read_field (map c_field cs) k t tt ps = Some (Ok tt, (tt, ps')) /\ emb_slots cs ps' = upd (emb_slots cs ps) i (Some v)
      | None => exists ps', read_field (map c_field cs) k t tt ps = Some (Err, (tt, ps'))
      end
  | None => read_field (map c_field cs) k t tt ps = None
  end.
Proof.
  induction 1 as [|c cs ((_ & HF & HO) & _ & HD) _ IH]; intros ps; cbn [closed_fields map find_name fst]; [reflexivity|].
  destruct ps as [o ps]. cbn [map read_field fst snd]. fold (closed_fields cs).
  destruct (list_eq_dec Z.eq_dec k (f_name (c_field c))) as [EQ|NE].
  - rewrite EQ. rewrite (proj2 (bytes_eqb_eq _ _) eq_refl). exists (f_name (c_field c)), (c_ty c). split; [reflexivity|].
    specialize (HD t). destruct (HO t tt None o) as (O1 & O2 & O3). destruct (de E t (c_ty c)) as [v|].
    + destruct HD as (a & <- & EA). rewrite EA in O1, O2, O3. cbn [fst snd] in *. specialize (O3 eq_refl).
      destruct (reads (f_u (c_field c)) t tt o) as [r s]. cbn [fst snd] in *. subst r s. exists (Some a, ps). split; reflexivity.
    + destruct HD as (p & EA). rewrite EA in O1, O2. cbn [fst snd] in *.
      destruct (reads (f_u (c_field c)) t tt o) as [r [[] q]]. cbn [fst snd] in *. subst r. eauto.
  - destruct (bytes_eqb k (f_name (c_field c))) eqn:BE; [apply bytes_eqb_eq in BE; contradiction|].
    specialize (IH ps). fold (closed_fields cs). rewrite find_shift. destruct (find_name k (map fst (closed_fields cs)) 0) as [i|]; cbn [option_map].
    + destruct IH as (n & ty & H1 & H2). exists n, ty. split; [exact H1|]. destruct (de E t ty) as [v|].
      * destruct H2 as (ps' & -> & H2). exists (o, ps'). split; [reflexivity|]. cbn [emb_slots fst snd upd]. rewrite H2. reflexivity.
      * destruct H2 as (ps' & ->). eauto.
    + rewrite IH. reflexivity.
Qed.
Lemma fields_closed E cs ms : Forall (models_field E) cs -> forall ps,
  match de_fields (de E) (closed_fields cs) ms (emb_slots cs ps) with
  | Some st => exists ps', read_fields (map c_field cs) ms tt ps = (Ok ps', tt) /\ emb_slots cs ps' = st
  | None => read_fields (map c_field cs) ms tt ps = (Err, tt)
  end.
Proof.
  intros H. induction ms as [|[k t] ms IH]; intros ps; cbn [de_fields read_fields]; [eauto|].
  pose proof (field_closed E k t cs H ps) as K. destruct (find_name k (map fst (closed_fields cs)) 0) as [i|].
  - destruct K as (n & ty & -> & K). destruct (de E t ty) as [v|].
    + destruct K as (ps' & -> & <-). apply IH.
    + destruct K as (ps' & ->). reflexivity.
  - rewrite K, whole_complete. destruct (complete t); [apply IH|reflexivity].
Qed.
Theorem C56_struct_models_closed E id cs : nth_error E id = Some (DStruct (closed_fields cs)) -> Forall (models_field E) cs ->
  models E (ustruct (map c_field cs)) (fun vs => VStruct (emb_vals cs vs)) (TNamed id).
Proof.
  intros HE H. split; [apply C56_containers_are_regular; clear - H; induction H as [|c cs ((HQ & _) & _) _ IH]; constructor; assumption|].
  split; [exists None; split; reflexivity|].
  intros t. rewrite reads_struct. destruct t as [|ev|items c|ms c]; cbn [de de_wrap is_null read_struct].
  - eauto.
  - destruct ev; cbn; rewrite ?HE; cbn; eauto.
  - destruct c; cbn; eauto.
  - cbn [de_map]. rewrite HE. destruct (defaults_closed E cs H) as (ps & -> & <-).
    pose proof (fields_closed E cs ms H ps) as K. destruct (de_fields (de E) (closed_fields cs) ms (emb_slots cs ps)) as [st|]; cbn [obind].
    + destruct K as (ps' & -> & <-). cbn [fst snd rmap]. rewrite <- some_closed. destruct (all_some (map c_field cs) ps'); destruct c; cbn; eauto.
    + rewrite K. destruct c; cbn; eauto.
Qed.

(** Hence from_str is the same function. *)
Theorem C56_agrees_with_closed_model E A (T : utype unit A) f tau oc k s :
  models E T f tau -> text_ok s -> wrap_depth E tau < k ->
  rmap f (fst (user_from_str T oc s tt)) = from_str E k oc tau s.
Proof.
  intros ((HQ & _) & _ & HD) Hs Hk. rewrite (from_str_total E k oc tau s Hs Hk), (C56_from_str _ _ T oc s tt Hs HQ).
  unfold read_text, text_val. destruct (pv s) as [t o]. specialize (HD t). destruct (de E t tau) as [v|].
  - destruct HD as (a & <- & ->). destruct o as [r|]; [destruct (skip_ws r)|]; reflexivity.
  - destruct HD as (o' & ->). reflexivity.
Qed.

(** struct S { a: Option<Vec<u8>>, b: Box<(String, [i16; 2])>, c: HashMap<u8, bool> } is
    covered. *)
Definition ex_cs : list cfield :=
  [ {| c_field := {| f_name := bs "a"; f_u := uopt (uvec (uleaf (TInt false 8))) |};
       c_emb := emb_opt (fun l => VSeq (map (fun v => v) l)); c_ty := TOption (TVec (TInt false 8)) |};
    {| c_field := {| f_name := bs "b"; f_u := ubox (upair (uleaf TString) (uarr (uleaf (TInt true 16)) 2)) |};
       c_emb := fun a => VBox (VPair (fst a) (VSeq (map (fun v => v) (snd a)))); c_ty := TBox (TPair TString (TArr (TInt true 16) 2)) |};
    {| c_field := {| f_name := bs "c"; f_u := umap (closed_parse (KInt false 8)) [] (closed_insert (fun v => v)) (uleaf TBool) |};
       c_emb := VMap; c_ty := TMap true (KInt false 8) TBool |} ].
Example ex_models : models [DStruct (closed_fields ex_cs)] (ustruct (map c_field ex_cs)) (fun vs => VStruct (emb_vals ex_cs vs)) (TNamed 0).
Proof.
  apply C56_struct_models_closed; [reflexivity|]. repeat apply Forall_cons; [| | |constructor].
  - apply (C56_option_models_closed _ _ _ (TVec _)), C56_vec_models_closed, C56_scalars_model_closed. reflexivity.
  - apply (C56_box_models_closed _ _ _ (TPair _ _)). refine (C56_pair_models_closed _ _ _ _ _ (fun v => v) (fun l => VSeq (map (fun v => v) l)) _ _ _ _).
    + apply C56_scalars_model_closed. reflexivity.
    + apply C56_array_models_closed, C56_scalars_model_closed. reflexivity.
  - apply C56_map_models_closed, C56_scalars_model_closed. reflexivity.
Qed.
