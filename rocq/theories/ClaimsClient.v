(** C52: every safe client of the Deserialize impls. *)
From Coq Require Import String ZArith List Bool Lia.
From Verif Require Import Base Utf8 F64 Lexer Driver Types Impls Reading HeapMain FromStr ClientSpec ClientFacts ClientInst ClientVis ClientMain.
Import ListNotations.
Open Scope Z_scope.

Definition client_setting E k T := ty_ok T = true /\ env_ok E = true /\ (wrap_depth E T < k)%nat.
(** The client's run reaches s. *)
Definition reaches E k T ops s := Forall (arg_ok E T) ops /\ exists rs, crun E k T ops c_init = Some (rs, s).

Definition Gb_any (h : heap) : Prop := True.
Definition Gb_free (h : heap) : Prop := Forall (fun c => c = None) h.
Lemma free_app a b : Gb_free a -> Gb_free b -> Gb_free (a ++ b).
Proof. intros. apply Forall_app. auto. Qed.

Lemma crun_inv E k T (Gb : heap -> Prop) : client_setting E k T -> Gb [] -> (forall a b, Gb a -> Gb b -> Gb (a ++ b)) -> Gb [None] ->
  forall ops s rs s', Forall (arg_ok E T) ops -> ((exists op, In op ops /\ forgets op = true) -> forall h : heap, Gb h) ->
  SInv E k T Gb (c_open s) (c_heap s) -> crun E k T ops s = Some (rs, s') -> SInv E k T Gb (c_open s') (c_heap s').
Proof.
  intros (HT & HE & Hk) G1 G2 G3. induction ops as [|op ops IH]; intros s rs s' HA HF HI; cbn [crun].
  - intros [= <- <-]. exact HI.
  - inversion HA; subst. destruct (cstep E k T op s) as [[r s1]|] eqn:ES; [|discriminate]. destruct (crun E k T ops s1) as [[rs' s2]|] eqn:ER; [|discriminate]. intros [= <- <-].
    assert (HI1 : SInv E k T Gb (c_open s1) (c_heap s1)).
    { eapply cstep_ok; eauto. intros H. apply HF. exists op. split; [left; reflexivity|exact H]. }
    apply (IH s1 rs' s2); auto. intros (o & A & B). apply HF. exists o. split; [right; exact A|exact B].
Qed.

(** Whatever the client does next in a reachable state succeeds, returns an Error, or - only
    when it finishes again a builder it had finished - panics. *)
Theorem C52_no_undefined_behaviour E k T ops s op r s' :
  client_setting E k T -> reaches E k T ops s -> arg_ok E T op -> cstep E k T op s = Some (r, s') ->
  match r with
  | Ok _ => True
  | Err => match op with CpDone | CpForget | CpBegin | CpSet _ => False | _ => True end
  | Fault f => f = FPanic /\ op = CpFinish /\ exists b below, c_open s = (b, true) :: below
  end.
Proof.
  intros HS (HA & rs & HR) HO HC.
  assert (HI : SInv E k T Gb_any (c_open s) (c_heap s)).
  { eapply (crun_inv E k T Gb_any HS) with (s := c_init); eauto; try exact Logic.I; unfold Gb_any; auto. apply init_ok. exact Logic.I. }
  destruct HS as (HT & HE & Hk).
  assert (A : allowed op s r).
  { eapply (cstep_ok E k T Hk HT HE Gb_any); eauto; unfold Gb_any; auto. }
  destruct r as [u| |[]]; cbn [allowed] in A; tauto.
Qed.

(** Between two borrows, `out` is empty or holds a value of its type: strings UTF-8,
    integers in range, arrays full, map keys distinct. *)
Theorem C52_out_well_typed E k T ops s v :
  client_setting E k T -> reaches E k T ops s -> c_open s = [] -> c_out s = Some v -> has_type E T v.
Proof.
  intros HS (HA & rs & HR) HO HC.
  assert (HI : SInv E k T Gb_any (c_open s) (c_heap s)).
  { eapply (crun_inv E k T Gb_any HS) with (s := c_init); eauto; try exact Logic.I; unfold Gb_any; auto. apply init_ok. exact Logic.I. }
  rewrite HO in HI. destruct HI as (x & M & HH & _ & HX). unfold c_out in HC. rewrite HH in HC. subst x. exact HX.
Qed.

(** A client that forgets nothing leaks nothing. *)
Theorem C52_all_released E k T ops s :
  client_setting E k T -> reaches E k T ops s -> forallb (fun op => negb (forgets op)) ops = true -> c_open s = [] -> c_released s.
Proof.
  intros HS (HA & rs & HR) HF HO.
  assert (HI : SInv E k T Gb_free (c_open s) (c_heap s)).
  { eapply (crun_inv E k T Gb_free HS) with (s := c_init); eauto; [constructor|apply free_app|repeat constructor| |apply init_ok; constructor].
    intros (op & A & B). rewrite forallb_forall in HF. apply HF in A. rewrite B in A. discriminate. }
  rewrite HO in HI. destruct HI as (x & M & HH & HM & _). exists x, M. auto.
Qed.

(** The handles can always be given up, innermost first: dropping never fails. *)
Theorem C52_can_always_close E k T ops s :
  client_setting E k T -> reaches E k T ops s ->
  exists h, crun E k T (repeat CpDone (List.length (c_open s))) s = Some (repeat (Ok tt) (List.length (c_open s)), mkc h []).
Proof.
  intros HS (HA & rs & HR).
  assert (HI : SInv E k T Gb_any (c_open s) (c_heap s)).
  { eapply (crun_inv E k T Gb_any HS) with (s := c_init); eauto; try exact Logic.I; unfold Gb_any; auto. apply init_ok. exact Logic.I. }
  destruct HS as (HT & HE & Hk). clear HA HR rs ops. destruct s as [h st]. cbn [c_open c_heap] in *.
  revert h HI. induction st as [|[b d] st IH]; intros h HI; cbn [List.length repeat crun]; [exists h; reflexivity|].
  destruct (cstep E k T CpDone (mkc h ((b, d) :: st))) as [[r [h1 st1]]|] eqn:EC; [|destruct b; discriminate].
  assert (st1 = st) as -> by (destruct b; cbn [cstep c_open c_heap] in EC; apply some_inj in EC; injection EC; auto).
  destruct (cstep_ok E k T Hk HT HE Gb_any Logic.I (fun _ _ _ _ => Logic.I) Logic.I CpDone (mkc h ((b, d) :: st)) r (mkc h1 st) HI Logic.I ltac:(discriminate) EC) as [H1 H2].
  assert (r = Ok tt) as -> by (destruct r as [[]| |[]]; cbn [allowed] in H2; try contradiction; [reflexivity|destruct H2; discriminate]).
  destruct (IH h1 H1) as [h2 ->]. exists h2. reflexivity.
Qed.

(** *** Examples *)
Definition ex_run E T ops := match crun E 8 T ops c_init with Some (rs, s) => Some (rs, c_out s, c_open s) | None => None end.
Definition u8 := TInt false 8.
Definition ex_env : env := [DStruct [(bs "a", u8); (bs "b", TOption (TBox (TVec u8)))]].

(** Option<Box<Vec<u8>>>: a second finish() panics, the builder can still be dropped, and the
    value written by the first is intact. *)
Example C52_ex_double_finish :
  client_setting [] 8 (TOption (TBox (TVec u8))) /\
  ex_run [] (TOption (TBox (TVec u8))) [CpBegin; CpSeq; CpElement; CpVisit (ENonneg 7); CpDone; CpFinish; CpElement; CpVisit ENull; CpDone; CpFinish; CpDone; CpDone] =
    Some ([Ok tt; Ok tt; Ok tt; Ok tt; Ok tt; Ok tt; Ok tt; Ok tt; Ok tt; Fault FPanic; Ok tt; Ok tt], Some (VSome (VBox (VSeq [VInt 7]))), []).
Proof. split; [split; [reflexivity|split; [reflexivity|cbn; lia]]|vm_compute; reflexivity]. Qed.

(** A [u8; 2] builder may be finished too early, refilled after a finish(), and dropped half full. *)
Example C52_ex_array :
  ex_run [] (TArr u8 2) [CpBegin; CpSeq; CpElement; CpVisit (ENonneg 1); CpDone; CpFinish; CpElement; CpVisit (ENonneg 2); CpVisit (ENonneg 3); CpDone; CpFinish;
    CpElement; CpVisit (ENonneg 9); CpDone; CpElement; CpDone; CpDone; CpDone] =
    Some ([Ok tt; Ok tt; Ok tt; Ok tt; Ok tt; Err; Ok tt; Ok tt; Ok tt; Ok tt; Ok tt; Ok tt; Ok tt; Ok tt; Ok tt; Ok tt; Ok tt; Ok tt], Some (VSeq [VInt 1; VInt 3]), []).
Proof. vm_compute. reflexivity. Qed.

(** A struct: a field set twice, an unknown key, a builder forgotten half-way. *)
Example C52_ex_struct :
  client_setting ex_env 8 (TNamed 0) /\
  ex_run ex_env (TNamed 0) [CpBegin; CpMap; CpKey (bs "a"); CpVisit (ENonneg 300); CpVisit (ENonneg 4); CpDone; CpKey (bs "zz"); CpMap; CpFinish; CpDone; CpDone;
    CpKey (bs "b"); CpSeq; CpElement; CpVisit (ENonneg 5); CpForget; CpForget; CpSeq; CpFinish; CpDone; CpDone; CpFinish; CpFinish; CpDone; CpDone] =
    Some ([Ok tt; Ok tt; Ok tt; Err; Ok tt; Ok tt; Ok tt; Ok tt; Ok tt; Ok tt; Ok tt; Ok tt; Ok tt; Ok tt; Ok tt; Ok tt; Ok tt; Ok tt; Ok tt; Ok tt; Ok tt; Ok tt; Err; Ok tt; Ok tt],
      Some (VStruct [VInt 4; VSome (VBox (VSeq []))]), []).
Proof. split; [split; [reflexivity|split; [reflexivity|cbn; lia]]|vm_compute; reflexivity]. Qed.

(** Visitor::negative trusts its caller to pass negative numbers: 300i64 as i8. Well-typed,
    but not the number passed. *)
Example C52_ex_negative_wraps :
  ex_run [] (TInt true 8) [CpBegin; CpVisit (ENeg 300); CpDone] = Some ([Ok tt; Ok tt; Ok tt], Some (VInt 44), []).
Proof. vm_compute. reflexivity. Qed.
