(** C59: the derives on generic items. *)
From Coq Require Import String ZArith List Bool Lia.
From Verif Require Import Base Types Derive DeriveSpec Generics GenericsSpec.
Import ListNotations.
Open Scope nat_scope.

Section Proofs.
Context {B W C D Ty Lt Cn : Type}.
Variable M : world B W C Ty Lt Cn.
Notation arg := (garg Ty Lt Cn).
Notation subst := (bytes -> option arg).
Notation param := (gparam B C D).
Notation gens := (generics B W C D).
Notation input := (ginput B W C D).

Lemma in_order_id (ps : list param) : lifetimes_first ps -> in_order ps = ps.
Proof.
  unfold in_order. induction ps as [|p ps IH]; intros H; [reflexivity|].
  assert (O : Forall (fun p : param => match p with GLifetime _ _ => False | _ => True end) ps ->
    filter is_lifetime ps = [] /\ filter (fun p => negb (is_lifetime p)) ps = ps).
  { clear. induction 1 as [|p ps H F [I1 I2]]; [split; reflexivity|]. destruct p; [destruct H| |]; cbn [filter is_lifetime negb]; rewrite I1, I2; split; reflexivity. }
  destruct p; cbn [filter is_lifetime negb lifetimes_first app] in *; [rewrite IH by exact H; reflexivity|..]; destruct (O H) as [-> ->]; reflexivity.
Qed.
Lemma ty_names (ps : list param) : map pname ps = map param_name ps.
Proof. apply map_ext. intros []; reflexivity. Qed.
Lemma param_name_no_default (p : param) : param_name (no_default p) = param_name p.
Proof. destruct p; reflexivity. Qed.
Lemma param_name_push l (p : param) : param_name (push_bound l p) = param_name p.
Proof. destruct p; reflexivity. Qed.
Lemma meets_no_default s (p : param) a : meets M s (no_default p) a <-> meets M s p a.
Proof. destruct p; reflexivity. Qed.
Lemma names_no_default (ps : list param) : map param_name (map no_default ps) = map param_name ps.
Proof. rewrite map_map. apply map_ext. apply param_name_no_default. Qed.
Lemma names_push l (ps : list param) : map param_name (map (push_bound l) ps) = map param_name ps.
Proof. rewrite map_map. apply map_ext. apply param_name_push. Qed.
Lemma Forall2_map_l {X Y Z} (f : X -> Y) (R : Y -> Z -> Prop) l l' : Forall2 R (map f l) l' <-> Forall2 (fun x z => R (f x) z) l l'.
Proof.
  split; revert l'; induction l as [|x l IH]; intros l' H; inversion H; subst; constructor; auto.
Qed.
Lemma Forall2_iff {X Y} (R R' : X -> Y -> Prop) l l' : (forall x y, In x l -> (R x y <-> R' x y)) -> Forall2 R l l' <-> Forall2 R' l l'.
Proof.
  intros H. split; intros F; induction F; constructor; try (apply H; [left; reflexivity|assumption]); apply IHF; intros; apply H; right; assumption.
Qed.
Lemma given_no_default (ps : list param) (args : list arg) s : given (map no_default ps) args s <-> given ps args s.
Proof.
  unfold given. rewrite names_no_default, Forall2_map_l. rewrite (Forall2_iff _ (fun p a => s (param_name p) = Some a)); [reflexivity|].
  intros p a _. rewrite param_name_no_default. reflexivity.
Qed.
Lemma given_inj (ps : list param) (qs args : list arg) s : given ps qs s -> Forall2 (fun x a => s x = Some a) (map param_name ps) args -> qs = args.
Proof.
  intros [H _]. rewrite Forall2_map_l. revert args. induction H as [|p a ps qs H F IH]; intros args H'; inversion H'; subst; [reflexivity|]. f_equal; [congruence|]. auto.
Qed.
Lemma applies_admits (ps : list param) w (args : list arg) : applies M (map no_default ps) (map param_name ps) w args <-> admits M ps w args.
Proof.
  unfold applies, admits. split.
  - intros (qs & s & G & F & Wh & N). apply -> given_no_default in G. rewrite <- (given_inj _ _ _ _ G N). exists s. split; [exact G|]. split; [|exact Wh].
    rewrite Forall2_map_l in F. eapply Forall2_iff; [|exact F]. intros p a _. symmetry. apply meets_no_default.
  - intros (s & G & F & Wh). exists args, s. split; [apply given_no_default, G|]. split; [|split; [exact Wh|rewrite Forall2_map_l; apply G]].
    rewrite Forall2_map_l. eapply Forall2_iff; [|exact F]. intros p a _. apply meets_no_default.
Qed.
(** The bounds T: trait for the type parameters. *)
Lemma bounds_hold (ps : list param) (args : list arg) s t : given ps args s -> Forall2 (meets M s) ps args ->
  Forall (pred_holds M s) (map (fun x => WImpl x t) (type_params ps) : list (wpred W)) <-> all_implement M t args.
Proof.
  intros [G _] F. unfold all_implement. revert G. induction F as [|p a ps args Hm F IH]; intros G; [split; [intros _ ty []|constructor]|].
  inversion G as [|? ? ? ? E G']; subst. specialize (IH G').
  destruct p as [l b|x b d|x c d]; destruct a as [y|ty|n]; try contradiction Hm; cbn [type_params map].
  1, 3: rewrite IH; split; intros H ty; [intros [E'|I']; [discriminate E'|auto]|intros I'; apply H; right; exact I'].
  rewrite Forall_cons_iff, IH. cbn [pred_holds param_name] in *. split.
  - intros [(ty' & E1 & H1) H2] ty2 [E'|I']; [|auto]. injection E' as ->. rewrite E in E1. injection E1 as <-. exact H1.
  - intros H. split; [exists ty; split; [exact E|apply H; left; reflexivity]|intros ty2 I'; apply H; right; exact I'].
Qed.
Lemma where_split s (g : gens) t : where_holds M s (Some (where_clause_with_bound g t)) <->
  where_holds M s (g_where g) /\ Forall (pred_holds M s) (map (fun x => WImpl x t) (type_params (g_params g))).
Proof. unfold where_clause_with_bound. cbn [where_holds]. rewrite Forall_app. destruct (g_where g); [reflexivity|]. cbn. intuition. Qed.
Lemma bounded_applies (g : gens) t (args : list arg) : lifetimes_first (g_params g) ->
  applies M (impl_generics g) (ty_generics g) (Some (where_clause_with_bound g t)) args <-> instance M g args /\ all_implement M t args.
Proof.
  intros L. unfold impl_generics, ty_generics. rewrite ty_names. rewrite in_order_id by exact L. rewrite applies_admits. unfold instance, admits. split.
  - intros (s & G & F & Wh). apply where_split in Wh. destruct Wh as [W1 W2]. split; [exists s; auto|]. eapply bounds_hold; eassumption.
  - intros [(s & G & F & Wh) H]. exists s. split; [exact G|]. split; [exact F|]. apply where_split. split; [exact Wh|]. eapply bounds_hold; eassumption.
Qed.
Lemma plain_applies (g : gens) (args : list arg) : lifetimes_first (g_params g) ->
  applies M (impl_generics g) (ty_generics g) (g_where g) args <-> instance M g args.
Proof. intros L. unfold impl_generics, ty_generics. rewrite ty_names. rewrite in_order_id by exact L. apply applies_admits. Qed.

(** One impl of the trait among the items. *)
Lemma the_impl items t self (args : list arg) ps names w :
  In (IImpl ps t self names w) items -> (forall ps' names' w', In (IImpl ps' t self names' w') items -> (ps', names', w') = (ps, names, w)) ->
  available M items t self args <-> applies M (D := D) ps names w args.
Proof.
  intros HI HU. split.
  - intros (ps' & n' & w' & H & A). injection (HU _ _ _ H) as -> -> ->. exact A.
  - intros A. exists ps, names, w. auto.
Qed.
Ltac one_impl := intros; repeat match goal with H : In _ _ |- _ => cbn [In] in H; repeat (destruct H as [H|H]; [first [discriminate H | injection H; intros; subst; reflexivity]|]); destruct H end.

(** No type parameters, no where clause: an impl without generics. *)
Lemma enum_applies (g : gens) t (args : list arg) : legal g -> g_lt g = false -> g_where g = None ->
  applies (D := D) M [] [] None args <-> instance M g args /\ all_implement M t args.
Proof.
  intros (_ & _ & _ & L) H H'. pose proof (applies_admits [] None args) as A. cbn [map] in A. rewrite A. unfold instance. rewrite (L H), H'. split; [|intros [K _]; exact K].
  intros K. split; [exact K|]. destruct K as (s & [G _] & _). inversion G. intros ty [].
Qed.
Lemma ser_enum_plain (i : input) c : derive_ser (plain i) = Ok (SerEnum c) -> g_lt (gi_generics i) = false /\ g_where (gi_generics i) = None.
Proof.
  unfold derive_ser, ser_enum, ser_struct, plain. cbn [i_data has_generics has_where]. destruct (gi_data i) as [[fs| |]|vs|]; try (intros H; discriminate H).
  - destruct (collect _ fs); intros H; discriminate H.
  - destruct (g_lt _); [intros H; discriminate H|]. destruct (g_where _); [intros H; discriminate H|]. split; reflexivity.
Qed.
Lemma de_enum_plain (i : input) c : derive_de (plain i) = Ok (DeEnum c) -> g_lt (gi_generics i) = false /\ g_where (gi_generics i) = None.
Proof.
  unfold derive_de, de_enum, de_struct, plain. cbn [i_data has_generics has_where]. destruct (gi_data i) as [[fs| |]|vs|]; try (intros H; discriminate H).
  - destruct (collect _ fs); intros H; discriminate H.
  - destruct (g_lt _); [intros H; discriminate H|]. destruct (g_where _); [intros H; discriminate H|]. split; reflexivity.
Qed.

(** A supported item: an instance of it implements the trait if and only if all its type
    arguments do. Lifetime and const arguments play no role, and the impl never asks for
    more than the item's own bounds. *)
Theorem C59_serialize (i : input) c : legal (gi_generics i) -> derive_ser (plain i) = Ok c ->
  forall args, available M (expand_ser i) TSerialize (gi_ident i) args <-> instance M (gi_generics i) args /\ all_implement M TSerialize args.
Proof.
  intros L H args. unfold expand_ser. rewrite H. destruct c as [arms|arms].
  - rewrite <- bounded_applies by apply L. apply the_impl; [left; reflexivity|one_impl].
  - destruct (ser_enum_plain i _ H) as [H1 H2]. rewrite <- (enum_applies _ TSerialize args L H1 H2). apply the_impl; [left; reflexivity|one_impl].
Qed.
Theorem C59_deserialize (i : input) c : legal (gi_generics i) -> derive_de (plain i) = Ok c ->
  forall args, available M (expand_de i) TDeserialize (gi_ident i) args <-> instance M (gi_generics i) args /\ all_implement M TDeserialize args.
Proof.
  intros L H args. unfold expand_de. rewrite H. destruct c as [slots ka tk ct|arms].
  - rewrite <- bounded_applies by apply L. apply the_impl; [right; left; reflexivity|one_impl].
  - destruct (de_enum_plain i _ H) as [H1 H2]. rewrite <- (enum_applies _ TDeserialize args L H1 H2). apply the_impl; [right; left; reflexivity|one_impl].
Qed.
(** An item the derive rejects: there is a compile_error!, and all its instances count as
    implementing the trait, whatever their arguments (so that the error is the only one). *)
Theorem C59_fallback (i : input) : legal (gi_generics i) ->
  (derive_ser (plain i) = Err -> In ICompileError (expand_ser i) /\
     forall args, available M (expand_ser i) TSerialize (gi_ident i) args <-> instance M (gi_generics i) args) /\
  (derive_de (plain i) = Err -> In ICompileError (expand_de i) /\
     forall args, available M (expand_de i) TDeserialize (gi_ident i) args <-> instance M (gi_generics i) args) /\
  (forall c, derive_ser (plain i) = Ok c -> ~ In ICompileError (expand_ser i)) /\
  (forall c, derive_de (plain i) = Ok c -> ~ In ICompileError (expand_de i)).
Proof.
  intros L. split; [|split; [|split]].
  - intros H. unfold expand_ser. rewrite H. split; [left; reflexivity|]. intros args. rewrite <- plain_applies by apply L. apply the_impl; [right; left; reflexivity|one_impl].
  - intros H. unfold expand_de. rewrite H. split; [left; reflexivity|]. intros args. rewrite <- plain_applies by apply L. apply the_impl; [right; left; reflexivity|one_impl].
  - intros c H. unfold expand_ser. rewrite H. destruct c; intros HI; cbn [In ser_struct_items ser_enum_items de_struct_items de_enum_items] in HI; repeat (destruct HI as [HI|HI]; [discriminate HI|]); exact HI.
  - intros c H. unfold expand_de. rewrite H. destruct c; intros HI; cbn [In ser_struct_items ser_enum_items de_struct_items de_enum_items] in HI; repeat (destruct HI as [HI|HI]; [discriminate HI|]); exact HI.
Qed.

(** The lifetime '__a in front. *)
Lemma lt_a_static : lt_a <> bs "'static".
Proof. discriminate. Qed.
Lemma lifetime_agree (g : gens) (s s' : subst) l : (forall x, in_scope g x -> s x = s' x) -> in_scope g l \/ l = bs "'static" -> lifetime M s l = lifetime M s' l.
Proof.
  intros H [I0| ->]; [|reflexivity]. unfold lifetime. rewrite (H l I0). reflexivity.
Qed.
Lemma at_agree (g : gens) (s s' : subst) l P : (forall x, in_scope g x -> s x = s' x) -> in_scope g l \/ l = bs "'static" -> at_lifetime M s l P -> at_lifetime M s' l P.
Proof. intros H I0. unfold at_lifetime. rewrite (lifetime_agree g s s' l H I0). auto. Qed.
Lemma meets_agree (g : gens) (s s' : subst) p a : scoped M g -> closed g -> (forall x, in_scope g x -> s x = s' x) -> In p (g_params g) ->
  meets M s p a -> meets M s' p a.
Proof.
  intros HS [HC _] H HI. specialize (HC p HI). destruct (HS s s' H) as (S1 & _ & _). destruct p as [l b|x b d|x c d]; destruct a as [y|ty|n]; cbn [meets]; auto.
  - intros F. rewrite Forall_forall in *. intros l' Hl. exact (at_agree g s s' l' _ H (HC l' Hl) (F l' Hl)).
  - intros F. rewrite Forall_forall in *. intros b' Hb. specialize (F b' Hb). destruct b' as [l'|b']; [exact (at_agree g s s' l' _ H (HC l' Hb) F)|auto].
Qed.
Lemma where_agree (g : gens) (s s' : subst) : scoped M g -> closed g -> (forall x, in_scope g x -> s x = s' x) ->
  where_holds M s (g_where g) -> where_holds M s' (g_where g).
Proof.
  intros HS [_ HC] H. destruct (g_where g) as [ps|] eqn:E; [|auto]. cbn [where_holds]. rewrite !Forall_forall. intros F w Hw. specialize (F w Hw).
  destruct (HS s s' H) as (_ & S2 & _). destruct w as [w|x t]; cbn [pred_holds] in *; [auto|]. rewrite <- H; [exact F|]. eapply HC; [reflexivity|exact Hw].
Qed.
Lemma meets_push (s : subst) l (p : param) a : meets M s (push_bound l p) a <-> meets M s p a /\
  match a with ALife x => at_lifetime M s l (lt_outlives M x) | AType ty => at_lifetime M s l (ty_outlives M ty) | AConst _ => True end.
Proof.
  destruct p as [y b|x b d|x c d]; destruct a as [z|ty|n]; cbn [push_bound meets]; try tauto; rewrite Forall_app, Forall_cons_iff; intuition.
Qed.
Lemma lifetimes_first_push l (ps : list param) : lifetimes_first ps -> lifetimes_first (map (push_bound l) ps).
Proof.
  induction ps as [|p ps IH]; [auto|]. destruct p; cbn [map push_bound lifetimes_first]; [exact IH|..]; intros H; rewrite Forall_map; eapply Forall_impl; [|exact H| |exact H]; intros []; auto.
Qed.
(** Under '__a = a: the bounds of the item, and everything outlives a. *)
Lemma wrapper_admits (g : gens) (a0 : arg) (args : list arg) s : legal g -> closed g -> scoped M g -> ~ in_scope g lt_a ->
  given (GLifetime lt_a [] :: map (push_bound lt_a) (g_params g)) (a0 :: args) s ->
  Forall2 (meets M s) (GLifetime lt_a [] :: map (push_bound lt_a) (g_params g)) (a0 :: args) -> where_holds M s (g_where g) ->
  exists a s0, a0 = ALife a /\ given (g_params g) args s0 /\ Forall2 (meets M s0) (g_params g) args /\ where_holds M s0 (g_where g) /\ all_outlive M a args /\
    (forall x, in_scope g x -> s0 x = s x) /\ lifetime M s lt_a = Some a.
Proof.
  intros L HC HS NI [G1 G2] F Wh. inversion G1 as [|? ? ? ? E G1']; subst. inversion F as [|? ? ? ? M1 F']; subst. destruct a0 as [a| |]; try contradiction M1.
  exists a, (fun x => if list_eq_dec Z.eq_dec x lt_a then None else s x). cbn [param_name] in E.
  assert (AG : forall x, in_scope g x -> (if list_eq_dec Z.eq_dec x lt_a then None else s x) = s x) by (intros x Hx; destruct (list_eq_dec Z.eq_dec x lt_a); [subst; contradiction|reflexivity]).
  assert (LA : lifetime M s lt_a = Some a) by (unfold lifetime; destruct (list_eq_dec Z.eq_dec lt_a (bs "'static")) as [K|_]; [destruct (lt_a_static K)|rewrite E; reflexivity]).
  rewrite Forall2_map_l in G1', F'. split; [reflexivity|]. split; [|split; [|split; [|split; [|split; [exact AG|exact LA]]]]].
  - split.
    + eapply Forall2_iff; [|exact G1']. intros p b Hp. cbv beta. rewrite param_name_push, AG by (apply in_map, Hp). reflexivity.
    + intros x Hx. destruct (list_eq_dec Z.eq_dec x lt_a); [reflexivity|]. apply G2. cbn [map param_name In]. rewrite names_push. intros [K|K]; [congruence|contradiction].
  - assert (K : forall p b, In p (g_params g) -> meets M s (push_bound lt_a p) b -> meets M (fun x => if list_eq_dec Z.eq_dec x lt_a then None else s x) p b).
    { intros p b Hp Hm. apply meets_push in Hm. eapply (meets_agree g s); try eassumption; [|apply Hm]. intros x Hx. symmetry. apply AG, Hx. }
    clear - F' K. induction F'; constructor; [apply K; [left; reflexivity|assumption]|]. apply IHF'. intros; apply K; [right|]; assumption.
  - eapply (where_agree g s); try eassumption. intros x Hx. symmetry. apply AG, Hx.
  - intros b Hb. clear - F' Hb LA. induction F' as [|p b' ps bs' Hm F IH]; [destruct Hb|]. destruct Hb as [->|Hb]; [|exact (IH Hb)]. apply meets_push in Hm. destruct Hm as [_ Hm].
    destruct b as [z|ty|n]; [..|exact Logic.I]; destruct Hm as (a' & E & Hm); rewrite LA in E; injection E as ->; exact Hm.
Qed.
Lemma admits_wrapper (g : gens) a (args : list arg) s0 : legal g -> closed g -> scoped M g -> ~ in_scope g lt_a ->
  given (g_params g) args s0 -> Forall2 (meets M s0) (g_params g) args -> where_holds M s0 (g_where g) -> all_outlive M a args ->
  exists s, given (GLifetime lt_a [] :: map (push_bound lt_a) (g_params g)) (ALife a :: args) s /\
  Forall2 (meets M s) (GLifetime lt_a [] :: map (push_bound lt_a) (g_params g)) (ALife a :: args) /\ where_holds M s (g_where g).
Proof.
  intros L HC HS NI [G1 G2] F Wh AO. exists (fun x => if list_eq_dec Z.eq_dec x lt_a then Some (ALife a) else s0 x).
  set (s := fun x => if list_eq_dec Z.eq_dec x lt_a then Some (ALife a) else s0 x).
  assert (AG : forall x, in_scope g x -> s0 x = s x) by (intros x Hx; unfold s; destruct (list_eq_dec Z.eq_dec x lt_a); [subst; contradiction|reflexivity]).
  assert (LA : lifetime M s lt_a = Some a) by reflexivity.
  split; [|split].
  - split.
    + constructor; [reflexivity|]. rewrite Forall2_map_l. eapply Forall2_iff; [|exact G1]. intros p b Hp. cbv beta. rewrite param_name_push, <- AG by (apply in_map, Hp). reflexivity.
    + intros x Hx. cbn [map param_name In] in Hx. rewrite names_push in Hx. unfold s. destruct (list_eq_dec Z.eq_dec x lt_a); [destruct Hx; left; congruence|]. apply G2. intros K. apply Hx. right. exact K.
  - constructor; [constructor|]. rewrite Forall2_map_l.
    assert (K : forall p b, In p (g_params g) -> In b args -> meets M s0 p b -> meets M s (push_bound lt_a p) b).
    { intros p b Hp Hb Hm. apply meets_push. split; [eapply (meets_agree g s0); eassumption|]. specialize (AO b Hb). destruct b; [exists a; split; [exact LA|exact AO]..|exact Logic.I]. }
    clear - F K. induction F; constructor; [apply K; [left; reflexivity|left; reflexivity|assumption]|]. apply IHF. intros; apply K; [right|right|]; assumption.
  - eapply (where_agree g s0); eassumption.
Qed.
Lemma impl_wrapper (g : gens) : lifetimes_first (g_params g) ->
  in_order (g_params (with_lifetime_bound g lt_a)) = GLifetime lt_a [] :: map (push_bound lt_a) (g_params g).
Proof. intros L. apply in_order_id. cbn [with_lifetime_bound g_params lifetimes_first]. apply lifetimes_first_push, L. Qed.
Lemma wrapper_applies (g : gens) t (a0 : arg) (args : list arg) : legal g -> closed g -> scoped M g -> ~ in_scope g lt_a ->
  applies M (impl_generics (with_lifetime_bound g lt_a)) (ty_generics (with_lifetime_bound g lt_a)) (Some (where_clause_with_bound g t)) (a0 :: args) <->
  exists a, a0 = ALife a /\ instance M g args /\ all_implement M t args /\ all_outlive M a args.
Proof.
  intros L HC HS NI. assert (LF : lifetimes_first (g_params g)) by apply L. unfold impl_generics, ty_generics. rewrite ty_names. rewrite impl_wrapper by exact LF. rewrite applies_admits. split.
  - intros (s & G & F & Wh). apply where_split in Wh. destruct Wh as [W1 W2].
    destruct (wrapper_admits g a0 args s L HC HS NI G F W1) as (a & s0 & -> & G0 & F0 & W0 & AO & AG & LA). exists a. split; [reflexivity|]. split; [exists s0; auto|]. split; [|exact AO].
    eapply bounds_hold; try eassumption. rewrite Forall_forall in *. intros w Hw. specialize (W2 w Hw). apply in_map_iff in Hw. destruct Hw as (x & <- & Hx). cbn [pred_holds] in *.
    rewrite AG; [exact W2|]. clear - Hx. unfold in_scope. induction (g_params g) as [|p ps IH]; [destruct Hx|]. destruct p; cbn [type_params map In param_name] in *; [right; auto|destruct Hx; [left; assumption|right; auto]|right; auto].
  - intros (a & -> & (s0 & G & F & Wh) & AI & AO). destruct (admits_wrapper g a args s0 L HC HS NI G F Wh AO) as (s & G' & F' & W'). exists s. split; [exact G'|]. split; [exact F'|]. apply where_split. split; [exact W'|].
    pose proof (bounds_hold _ _ s t G' F') as BH. cbn [type_params] in BH.
    assert (E : type_params (map (push_bound lt_a) (g_params g)) = type_params (g_params g)) by (clear; induction (g_params g) as [|p ps IH]; [reflexivity|]; destruct p; cbn [map push_bound type_params]; [exact IH|f_equal; exact IH|exact IH]).
    rewrite E in BH. apply BH. intros ty [K|K]; [discriminate K|]. apply AI, K.
Qed.
Lemma wrapper_not_nil (g : gens) w : lifetimes_first (g_params g) ->
  ~ applies (D := D) M (impl_generics (with_lifetime_bound g lt_a)) (ty_generics (with_lifetime_bound g lt_a)) w [].
Proof.
  intros L. unfold impl_generics, ty_generics. rewrite ty_names. rewrite impl_wrapper by exact L. rewrite applies_admits. intros (s & [G _] & _). inversion G.
Qed.

(** The helper types of a derived struct. The iterator behind &'a S<args> (the builder of an
    S<args> that borrows for 'a) is available exactly for the instances that implement the
    trait and live as long as 'a, as they do behind such a reference. *)
Definition helper (items : list (item B W C D)) (t : trait) (name : bytes) (trt : trait) (g : gens) : Prop :=
  forall a0 args, available M items t name (a0 :: args) <->
    exists a, a0 = ALife a /\ instance M g args /\ all_implement M trt args /\ all_outlive M a args.
Theorem C59_helpers (i : input) : legal (gi_generics i) -> closed (gi_generics i) -> scoped M (gi_generics i) -> ~ in_scope (gi_generics i) lt_a ->
  (forall arms, derive_ser (plain i) = Ok (SerStruct arms) -> helper (expand_ser i) TSerMap (bs "__Map") TSerialize (gi_generics i)) /\
  (forall slots ka tk ct, derive_de (plain i) = Ok (DeStruct slots ka tk ct) -> helper (expand_de i) TDeMap (bs "__State") TDeserialize (gi_generics i)) /\
  (forall c, derive_de (plain i) = Ok c -> forall args,
     available M (expand_de i) TVisitor (bs "__Visitor") args <-> available M (expand_de i) TDeserialize (gi_ident i) args).
Proof.
  intros L HC HS NI. split; [|split].
  - intros arms H a0 args. unfold expand_ser. rewrite H. rewrite <- wrapper_applies by assumption. apply the_impl; [right; right; left; reflexivity|one_impl].
  - intros slots ka tk ct H a0 args. unfold expand_de. rewrite H. rewrite <- wrapper_applies by assumption. apply the_impl; [do 4 right; left; reflexivity|one_impl].
  - intros c H args. rewrite (C59_deserialize i c L H). unfold expand_de. rewrite H. destruct c as [slots ka tk ct|arms].
    + rewrite <- bounded_applies by apply L. apply the_impl; [right; right; left; reflexivity|one_impl].
    + destruct (de_enum_plain i _ H) as [H1 H2]. rewrite <- (enum_applies _ TDeserialize args L H1 H2). apply the_impl; [right; right; left; reflexivity|one_impl].
Qed.

(** The helper structs are well-formed whenever their own bounds hold, if the item is. *)
Lemma named (s : subst) names args : named_args s names = Some args <-> Forall2 (fun x a => s x = Some a) names args.
Proof.
  revert args. induction names as [|x r IH]; intros args; cbn [named_args]; [split; [intros [= <-]; constructor|intros H; inversion H; reflexivity]|].
  split.
  - destruct (s x) as [a|] eqn:E; [|intros H; discriminate H]. destruct (named_args s r) as [l|] eqn:E2; [|intros H; discriminate H]. intros [= <-]. constructor; [exact E|]. apply IH. reflexivity.
  - intros H. inversion H as [|? a ? l E F]; subst. rewrite E. apply IH in F. rewrite F. reflexivity.
Qed.
Definition fields_ok (g : gens) (ps : list param) (w : option (list (wpred W))) (fs : list (bytes * hty)) : Prop :=
  forall args s, given ps args s -> Forall2 (meets M s) ps args -> where_holds M s w -> Forall (fun f => h_ok M g s (snd f)) fs.
Definition item_ok (i : input) : Prop :=
  forall args s, given (g_params (gi_generics i)) args s -> Forall2 (meets M s) (g_params (gi_generics i)) args -> where_holds M s (g_where (gi_generics i)) ->
    Forall (field_ok M s) (idents (gi_data i)).
Lemma de_slots i slots ka tk ct : derive_de i = Ok (DeStruct slots ka tk ct) -> map fst slots = idents (i_data i).
Proof.
  unfold derive_de, de_enum, de_struct. destruct (i_data i) as [[fs| |]|vs|]; try (intros H; discriminate H).
  - destruct (collect _ fs); intros H; try discriminate H. injection H as <- _ _ _. cbn [idents]. clear. induction fs; [reflexivity|]. cbn. f_equal. exact IHfs.
  - destruct (has_generics i || has_where i); [intros H; discriminate H|]. destruct (collect unit_variant vs); [|intros H; discriminate H..]. cbn [bind]. destruct (collect _ vs); intros H; discriminate H.
Qed.
Lemma self_ok (g : gens) (args : list arg) s : lifetimes_first (g_params g) -> Forall2 (fun p a => s (param_name p) = Some a) (g_params g) args ->
  named_args s (ty_generics g) = Some args.
Proof. intros L H. apply named. unfold ty_generics. rewrite ty_names. rewrite in_order_id by exact L. apply Forall2_map_l, H. Qed.

Theorem C59_helper_structs (i : input) : legal (gi_generics i) -> closed (gi_generics i) -> scoped M (gi_generics i) -> ~ in_scope (gi_generics i) lt_a -> item_ok i ->
  forall name ps w fs, In (IStruct name ps w fs) (expand_ser i) \/ In (IStruct name ps w fs) (expand_de i) -> fields_ok (gi_generics i) ps w fs.
Proof.
  intros L HC HS NI OK name ps w fs H. assert (LF : lifetimes_first (g_params (gi_generics i))) by apply L.
  (* the wrappers *)
  assert (WR : forall a0 args s, given (impl_generics (with_lifetime_bound (gi_generics i) lt_a)) (a0 :: args) s ->
     Forall2 (meets M s) (impl_generics (with_lifetime_bound (gi_generics i) lt_a)) (a0 :: args) -> where_holds M s (g_where (gi_generics i)) ->
     h_ok M (gi_generics i) s (HRef lt_a (HSelf (ty_generics (gi_generics i)))) /\ Forall (field_ok M s) (idents (gi_data i))).
  { intros a0 args s G F Wh. unfold impl_generics in G, F. rewrite impl_wrapper in G, F by exact LF. apply -> given_no_default in G. rewrite Forall2_map_l in F.
    apply (Forall2_iff _ (meets M s)) in F; [|intros p a _; apply meets_no_default].
    destruct (wrapper_admits _ _ _ _ L HC HS NI G F Wh) as (a & s0 & -> & G0 & F0 & W0 & AO & AG & LA).
    assert (NA : named_args s (ty_generics (gi_generics i)) = Some args).
    { apply self_ok; [exact LF|]. destruct G0 as [G0 _]. eapply Forall2_iff; [|exact G0]. intros p b Hp. cbv beta. rewrite AG by (apply in_map, Hp). reflexivity. }
    split.
    - cbn [h_ok]. split; [exists args; split; [exact NA|exists s0; auto]|]. exists a. split; [exact LA|]. cbn [h_outlives]. exists args. auto.
    - specialize (OK args s0 G0 F0 W0). eapply Forall_impl; [|exact OK]. intros f. destruct (HS s0 s AG) as (_ & _ & S3). apply S3. }
  (* the visitor *)
  assert (VI : forall args s, given (impl_generics (gi_generics i)) args s ->
     Forall2 (meets M s) (impl_generics (gi_generics i)) args -> where_holds M s (g_where (gi_generics i)) ->
     h_ok M (gi_generics i) s (HSelf (ty_generics (gi_generics i)))).
  { intros args s G F Wh. unfold impl_generics in G, F. rewrite in_order_id in G, F by exact LF. apply -> given_no_default in G. rewrite Forall2_map_l in F.
    apply (Forall2_iff _ (meets M s)) in F; [|intros p a _; apply meets_no_default]. exists args. split; [apply self_ok; [exact LF|apply G]|]. exists s. auto. }
  assert (NE : forall (args : list arg) (s : subst), given (impl_generics (with_lifetime_bound (gi_generics i) lt_a)) args s -> exists a0 args', args = a0 :: args').
  { intros args s G. unfold impl_generics in G. rewrite impl_wrapper in G by exact LF. destruct G as [G _]. inversion G; subst. eauto. }
  destruct H as [H|H].
  - unfold expand_ser in H. destruct (derive_ser (plain i)) as [[arms|arms]| |x]; cbn [ser_struct_items ser_enum_items fallback_ser In] in H;
      repeat (destruct H as [H|H]; [try discriminate H|]); try contradiction H.
    injection H as <- <- <- <-. intros args s G F Wh. destruct (NE _ _ G) as (a0 & args' & ->). destruct (WR a0 args' s G F Wh) as [K _]. constructor; [exact K|]. constructor; [exact Logic.I|constructor].
  - unfold expand_de in H. destruct (derive_de (plain i)) as [[slots ka tk ct|arms]| |x] eqn:E; cbn [de_struct_items de_enum_items fallback_de In] in H;
      repeat (destruct H as [H|H]; [try discriminate H|]); try contradiction H; injection H as <- <- <- <-; intros args s G F Wh.
    + constructor; [|constructor]. exact (VI args s G F Wh).
    + destruct (NE _ _ G) as (a0 & args' & ->). destruct (WR a0 args' s G F Wh) as [K1 K2]. rewrite (de_slots _ _ _ _ _ E). cbn [plain i_data]. apply Forall_app. split; [|constructor; [exact K1|constructor]].
      apply Forall_map. eapply Forall_impl; [|exact K2]. intros f K. exact K.
    + destruct (de_enum_plain i _ E) as [H1 H2]. destruct L as (_ & _ & _ & LL). specialize (LL H1). constructor; [|constructor]. cbn [snd h_ok]. exists []. split; [reflexivity|].
      unfold instance. rewrite LL, H2. inversion F; subst. exists s. split; [exact G|]. split; [constructor|exact Logic.I].
Qed.

(** The generated headers are legal Rust: distinct names, lifetimes first, no defaults. *)
Theorem C59_headers (i : input) : legal (gi_generics i) -> ~ in_scope (gi_generics i) lt_a ->
  forall ps, (exists t self names w, In (IImpl ps t self names w) (expand_ser i ++ expand_de i)) \/ (exists name w fs, In (IStruct name ps w fs) (expand_ser i ++ expand_de i)) ->
  NoDup (map param_name ps) /\ lifetimes_first ps /\ Forall (fun p => match p with GLifetime _ _ => True | GType _ _ d => d = None | GConst _ _ d => d = None end) ps.
Proof.
  intros L NI ps H. assert (LF : lifetimes_first (g_params (gi_generics i))) by apply L.
  assert (ND : forall ps : list param, Forall (fun p : param => match p with GLifetime _ _ => True | GType _ _ d => d = None | GConst _ _ d => d = None end) (map no_default ps)).
  { intros l. apply Forall_map, Forall_forall. intros [] _; reflexivity. }
  assert (LD : forall ps : list param, lifetimes_first ps -> lifetimes_first (map no_default ps)).
  { intros l. induction l as [|p l IH]; [auto|]. destruct p; cbn [map no_default lifetimes_first]; [exact IH|..]; intros K; rewrite Forall_map; eapply Forall_impl; [|exact K| |exact K]; intros []; auto. }
  assert (K : ps = impl_generics (gi_generics i) \/ ps = impl_generics (with_lifetime_bound (gi_generics i) lt_a) \/ ps = []).
  { unfold expand_ser, expand_de in H.
    destruct (derive_ser (plain i)) as [[arms|arms]| |x]; destruct (derive_de (plain i)) as [[slots ka tk ct|arms']| |y];
      destruct H as [(t & self & names & w & H)|(name & w & fs & H)]; apply in_app_iff in H; destruct H as [H|H]; cbn [ser_struct_items ser_enum_items fallback_ser de_struct_items de_enum_items fallback_de In] in H;
      repeat (destruct H as [H|H]; [first [discriminate H | injection H; intros; subst; auto; fail]|]); destruct H. }
  destruct K as [->|[->| ->]]; [..|split; [constructor|split; [exact Logic.I|constructor]]]; unfold impl_generics; (split; [|split; [|apply ND]]).
  - rewrite names_no_default, in_order_id by exact LF. apply L.
  - apply LD. rewrite in_order_id by exact LF. exact LF.
  - rewrite names_no_default, impl_wrapper by exact LF. cbn [map param_name]. rewrite names_push. constructor; [exact NI|apply L].
  - apply LD. rewrite impl_wrapper by exact LF. cbn [lifetimes_first]. apply lifetimes_first_push, LF.
Qed.
(** The fields of the helper structs have distinct names, except that the builder has two
    called __out if the item has a field of that name. *)
Theorem C59_helper_field_names (i : input) : NoDup (idents (gi_data i)) ->
  (forall name ps w fs, In (IStruct name ps w fs) (expand_ser i) -> NoDup (map fst fs)) /\
  ((forall name ps w fs, In (IStruct name ps w fs) (expand_de i) -> NoDup (map fst fs)) <->
   ~ (In (bs "__out") (idents (gi_data i)) /\ exists slots ka tk ct, derive_de (plain i) = Ok (DeStruct slots ka tk ct))).
Proof.
  intros ND. split.
  - intros name ps w fs H. unfold expand_ser in H. destruct (derive_ser (plain i)) as [[arms|arms]| |x]; cbn [ser_struct_items ser_enum_items fallback_ser In] in H;
      repeat (destruct H as [H|H]; [try discriminate H|]); try contradiction H.
    injection H as <- <- <- <-. constructor; [intros [K|[]]; discriminate K|]. constructor; [intros []|constructor].
  - assert (NM : forall fs : list bytes, NoDup fs -> NoDup (map fst (map (fun f => (f, HOption (HField f))) fs ++ [(bs "__out", HRef lt_a (HOption (HSelf (ty_generics (gi_generics i)))))])) <-> ~ In (bs "__out") fs).
    { intros fs N. rewrite map_app, map_map. cbn [map fst]. rewrite map_id. split.
      - intros K IN. apply NoDup_remove in K. rewrite app_nil_r in K. destruct K as [_ K]. contradiction.
      - intros K. apply NoDup_Add with (a := bs "__out") (l := fs); [|split; assumption]. rewrite <- (app_nil_r fs) at 1. apply Add_app. }
    split.
    + intros H [IN (slots & ka & tk & ct & E)]. revert IN. pose proof (de_slots _ _ _ _ _ E) as ES. cbn [plain i_data] in ES. rewrite <- ES in ND |- *. apply NM; [exact ND|].
      apply (H (bs "__State") (impl_generics (with_lifetime_bound (gi_generics i) lt_a)) (g_where (gi_generics i))). unfold expand_de. rewrite E. do 3 right. left. reflexivity.
    + intros H name ps w fs HI. unfold expand_de in HI. destruct (derive_de (plain i)) as [[slots ka tk ct|arms]| |x] eqn:E; cbn [de_struct_items de_enum_items fallback_de In] in HI;
      repeat (destruct HI as [HI|HI]; [try discriminate HI|]); try contradiction HI; injection HI as <- <- <- <-.
      1, 3: constructor; [intros []|constructor].
      pose proof (de_slots _ _ _ _ _ E) as ES. cbn [plain i_data] in ES. rewrite <- ES in ND, H. apply NM; [exact ND|]. intros IN. apply H. split; [exact IN|]. eauto.
Qed.
End Proofs.

(** An example:
      struct S<'b, T: 'b + Clone = u8, const N: usize> where Vec<T>: Debug { x: &'b [T; N], r#in: T }
    in a world with two lifetimes ('static and a shorter one) and the types u8, Rc<u8> (not
    Serialize), &'short u8 (Serialize, not 'static). *)
Inductive ex_ty := XU8 | XRc | XShortRef.
Definition ex_world : world unit unit unit ex_ty bool nat := {|
  lt_static := true;
  lt_outlives := fun x y => x = true \/ y = false;
  ty_outlives := fun t l => l = true -> t <> XShortRef;
  implements := fun t tr => match t, tr with XU8, _ => True | XShortRef, TSerialize => True | _, _ => False end;
  has_type := fun _ _ => True;
  user_bound := fun _ _ _ => True;
  user_pred := fun s _ => exists t, s (bs "T") = Some (AType t);
  field_ok := fun s f => if list_eq_dec Z.eq_dec f (bs "x") then exists l t n, s (bs "'b") = Some (ALife l) /\ s (bs "T") = Some (AType t) /\ s (bs "N") = Some (AConst n) /\ (l = true -> t <> XShortRef)
                         else exists t, s (bs "T") = Some (AType t)
|}.
Definition ex_generics : generics unit unit unit unit :=
  mkgenerics true [GLifetime (bs "'b") []; GType (bs "T") [BLifetime (bs "'b"); BUser tt] (Some tt); GConst (bs "N") tt None] (Some [WUser tt]).
Definition ex_input : ginput unit unit unit unit :=
  mkginput [] (bs "S") ex_generics (DataStruct (FieldsNamed [mkfield [] (bs "x") TUnit; mkfield [] (bs "r#in") TUnit])).
Definition ex_subst (l : bool) (t : ex_ty) (n : nat) : bytes -> option (garg ex_ty bool nat) := fun x =>
  if list_eq_dec Z.eq_dec x (bs "'b") then Some (ALife l) else if list_eq_dec Z.eq_dec x (bs "T") then Some (AType t)
  else if list_eq_dec Z.eq_dec x (bs "N") then Some (AConst n) else None.
Example ex_input_ok :
  legal (gi_generics ex_input) /\ closed (gi_generics ex_input) /\ scoped ex_world (gi_generics ex_input) /\ ~ in_scope (gi_generics ex_input) lt_a /\
  item_ok ex_world ex_input /\ (exists arms, derive_ser (plain ex_input) = Ok (SerStruct arms)) /\ (exists slots ka tk ct, derive_de (plain ex_input) = Ok (DeStruct slots ka tk ct)).
Proof.
  split; [|split; [|split; [|split; [|split; [|split]]]]].
  - split; [repeat (constructor; [cbn [map param_name In]; intros K; repeat (destruct K as [K|K]; [discriminate K|]); exact K|]); constructor|].
    split; [cbn [map param_name In g_params gi_generics ex_input ex_generics]; intros K; repeat (destruct K as [K|K]; [discriminate K|]); exact K|].
    split; [|intros K; discriminate K]. cbn. constructor; [exact Logic.I|constructor].
  - split.
    + intros p H. repeat (destruct H as [<-|H]; [|]); [..|destruct H]; [intros l []|intros l [K|[K|[]]]; [injection K as <-; left; left; reflexivity|discriminate K]|exact Logic.I].
    + intros ps x t [= <-] [K|[]]. discriminate K.
  - intros s s' H. split; [intros t b _; exact Logic.I|].
    assert (HT : s (bs "T") = s' (bs "T")) by (apply H; right; left; reflexivity). assert (HB : s (bs "'b") = s' (bs "'b")) by (apply H; left; reflexivity). assert (HN : s (bs "N") = s' (bs "N")) by (apply H; right; right; left; reflexivity).
    cbn [ex_world user_pred field_ok]. rewrite HT, HB, HN. split; auto.
  - cbn [in_scope map param_name In g_params gi_generics ex_input ex_generics]. intros K; repeat (destruct K as [K|K]; [discriminate K|]); exact K.
  - intros args s [G _] F _. inversion G as [|? a1 ? r1 E1 G1]; subst. inversion G1 as [|? a2 ? r2 E2 G2]; subst. inversion G2 as [|? a3 ? r3 E3 G3]; subst. clear G G1 G2. inversion G3; subst.
    inversion F as [|? ? ? ? M1 F1]; subst. inversion F1 as [|? ? ? ? M2 F2]; subst. inversion F2 as [|? ? ? ? M3 F3]; subst.
    destruct a1 as [l| |]; try contradiction M1. destruct a2 as [|t|]; try contradiction M2. destruct a3 as [| |n]; try contradiction M3. change (s (bs "'b") = Some (ALife l)) in E1. change (s (bs "T") = Some (AType t)) in E2. change (s (bs "N") = Some (AConst n)) in E3.
    inversion M2 as [|? ? H2 _]; subst. destruct H2 as (a & Ha & H2).
    change (match s (bs "'b") with Some (ALife a) => Some a | _ => None end = Some a) in Ha. rewrite E1 in Ha. injection Ha as <-.
    constructor; [|constructor; [|constructor]]; [exists l, t, n; auto|exists t; exact E2].
  - eexists. reflexivity.
  - do 4 eexists. reflexivity.
Qed.
Lemma ex_instance l t n : (l = true -> t <> XShortRef) -> instance ex_world ex_generics [ALife l; AType t; AConst n].
Proof.
  intros H. exists (ex_subst l t n). split; [split; [repeat (constructor; [reflexivity|]); constructor|]|].
  - intros x Hx. unfold ex_subst. repeat (destruct (list_eq_dec _ _ _); [subst; destruct Hx; cbn; auto 6|]). reflexivity.
  - split; [|constructor; [exists t; reflexivity|constructor]]. constructor; [constructor|]. constructor; [|constructor; [exact Logic.I|constructor]].
    constructor; [exists l; split; [reflexivity|exact H]|]. constructor; [exact Logic.I|constructor].
Qed.
(** S<'short, &'short u8, 3>: Serialize, but not Deserialize; S<'static, Rc<u8>, 0> is neither. *)
Example ex_available :
  available ex_world (expand_ser ex_input) TSerialize (bs "S") [ALife false; AType XShortRef; AConst 3] /\
  ~ available ex_world (expand_de ex_input) TDeserialize (bs "S") [ALife false; AType XShortRef; AConst 3] /\
  ~ available ex_world (expand_ser ex_input) TSerialize (bs "S") [ALife true; AType XRc; AConst 0].
Proof.
  destruct ex_input_ok as (L & _ & _ & _ & _ & (arms & HS) & (sl & ka & tk & ct & HD)).
  split; [|split].
  - apply (C59_serialize ex_world ex_input _ L HS). split; [apply ex_instance; intros K; discriminate K|].
    intros ty [K|[K|[K|[]]]]; try discriminate K. injection K as <-. exact Logic.I.
  - intros K. apply (C59_deserialize ex_world ex_input _ L HD) in K. destruct K as [_ K]. exact (K XShortRef (or_intror (or_introl eq_refl))).
  - intros K. apply (C59_serialize ex_world ex_input _ L HS) in K. destruct K as [_ K]. exact (K XRc (or_intror (or_introl eq_refl))).
Qed.
(** Behind a &'short reference S<'static, u8, 2> has an iterator; S<'short, ..> has none behind a
    &'static reference. *)
Example ex_helper :
  available ex_world (expand_ser ex_input) TSerMap (bs "__Map") [ALife false; ALife true; AType XU8; AConst 2] /\
  ~ available ex_world (expand_ser ex_input) TSerMap (bs "__Map") [ALife true; ALife false; AType XU8; AConst 2].
Proof.
  destruct ex_input_ok as (L & HC & HS & NI & _ & (arms & HD) & _).
  destruct (C59_helpers ex_world ex_input L HC HS NI) as (H & _ & _). specialize (H arms HD). split.
  - apply H. exists false. split; [reflexivity|]. split; [apply ex_instance; discriminate|]. split.
    + intros ty [K|[K|[K|[]]]]; try discriminate K. injection K as <-. exact Logic.I.
    + intros a [<-|[<-|[<-|[]]]]; [left; reflexivity|intros K; discriminate K|exact Logic.I].
  - intros K. apply H in K. destruct K as (a & [= <-] & _ & _ & AO). destruct (AO _ (or_introl eq_refl)) as [K|K]; discriminate K.
Qed.
(** A field called __out, and a rejected item. *)
Definition ex_out : ginput unit unit unit unit :=
  mkginput [] (bs "S") (mkgenerics false [] None) (DataStruct (FieldsNamed [mkfield [] (bs "__out") TUnit])).
Example ex_out_clash : exists name ps w fs, In (IStruct name ps w fs) (expand_de ex_out) /\ ~ NoDup (map fst fs).
Proof.
  exists (bs "__State"). do 3 eexists. split; [do 3 right; left; reflexivity|]. intros K. inversion K as [|? ? N _]; subst. apply N. left. reflexivity.
Qed.
Definition ex_bad : ginput unit unit unit unit := mkginput [] (bs "S") ex_generics (DataEnum []).
Example ex_bad_available : derive_ser (plain ex_bad) = Err /\ available ex_world (expand_ser ex_bad) TSerialize (bs "S") [ALife true; AType XRc; AConst 0].
Proof.
  split; [reflexivity|]. destruct ex_input_ok as (L & _). destruct (C59_fallback ex_world ex_bad L) as (H & _). apply (H eq_refl). apply ex_instance. discriminate.
Qed.
