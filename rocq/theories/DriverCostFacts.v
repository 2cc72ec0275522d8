(** DriverCost.v computes the functions of Driver.v and Ser.v, in linearly many steps. *)
From Coq Require Import String ZArith List Bool Lia Floats.SpecFloat.
From Verif Require Import Base Utf8 Utf8Facts F64 Lexer LexCost LexCostFacts Driver Types Ser DriverCost.
Import ListNotations.
Open Scope nat_scope.

Section Facts.
Context {St V SH MH : Type}.
Variable I : iface St V SH MH.
Variable oc : bool.
Variable inp : bytes.
Notation len := (len inp).

(** ** Erasure *)
Lemma unwind_erase {A} ls : forall st, fst (@unwind' _ _ _ _ I A ls st) = unwind I ls st.
Proof.
  induction ls as [|l ls IH]; intros st; [reflexivity|]. cbn [unwind' unwind more fst].
  destruct (drop_layer I l st) as [[u| |e] st']; cbn [fst]; [apply IH|apply IH|]. destruct e; reflexivity.
Qed.
Lemma on_fault_erase {A} e ls st : fst (@on_fault' _ _ _ _ I A e ls st) = on_fault I e ls st.
Proof. destruct e; try reflexivity. apply unwind_erase. Qed.
Lemma fail_erase {A} ls : forall st, fst (@fail' _ _ _ _ I A ls st) = fail I ls st.
Proof.
  induction ls as [|l ls IH]; intros st; [reflexivity|]. cbn [fail' fail more fst].
  destruct (drop_layer I l st) as [[u| |e] st']; cbn [fst]; [apply IH|apply IH|apply on_fault_erase].
Qed.
Lemma fail_in_erase {A} l ls st : fst (@fail_in' _ _ _ _ I A l ls st) = fail_in I l ls st.
Proof.
  unfold fail_in', fail_in. cbn [more fst]. destruct (drop_layer I l st) as [[u| |e] st']; [apply fail_erase|apply fail_erase|apply on_fault_erase].
Qed.

Lemma inner_erase f : forall d ac v l stack st, fst (inner' I inp f d ac v l stack st) = inner I inp f d ac v l stack st.
Proof.
  induction f as [|f IH]; intros d ac v l stack st; [reflexivity|]. cbn [inner' inner]. cbv zeta. cbn [more fst]. rewrite <- (ws_erase inp d).
  destruct (fst (parse_whitespace' inp d)) as [[o d1]| |e]; [|apply fail_in_erase|apply on_fault_erase].
  destruct (_ && ac); [reflexivity|]. destruct (_ || _).
  - cbn [more fst]. destruct (close_layer I _ l st) as [[u| |e] st1]; [|apply fail_in_erase|apply on_fault_erase].
    cbn [more fst]. destruct (drop_layer I l st1) as [[u1| |e] st2]; [| |apply on_fault_erase];
      (destruct stack as [|[v' l'] stack']; [reflexivity|apply IH]).
  - destruct ac; [apply fail_in_erase|reflexivity].
Qed.
Lemma open_erase d v l stack st : fst (open_item' I oc inp d v l stack st) = open_item I oc inp d v l stack st.
Proof.
  unfold open_item', open_item. cbv zeta. destruct l as [s|m]; cbn [more fst].
  - destruct (s_element I s st) as [[u| |e] st1]; [reflexivity|apply fail_in_erase|apply on_fault_erase].
  - rewrite <- (ws_erase inp d). destruct (fst (parse_whitespace' inp d)) as [[o d1]| |e]; [|apply fail_in_erase|apply on_fault_erase].
    destruct (match o with Some c => (c =? 34)%Z | None => false end); [|apply fail_in_erase].
    cbn [more fst]. rewrite <- (str_erase oc inp (bump d1)).
    destruct (fst (parse_str' oc inp (bump d1))) as [[key d2]| |e]; [|apply fail_in_erase|apply on_fault_erase].
    cbn [more fst]. destruct (m_key I m key st) as [[u| |e] st1]; [|apply fail_in_erase|apply on_fault_erase].
    cbn [more fst]. rewrite <- (ws_erase inp d2). destruct (fst (parse_whitespace' inp d2)) as [[o2 d3]| |e]; [|apply fail_in_erase|apply on_fault_erase].
    destruct (match o2 with Some c => (c =? 58)%Z | None => false end); [reflexivity|apply fail_in_erase].
Qed.
Lemma after_erase d ac v l stack st : fst (after_value' I oc inp d ac v l stack st) = after_value I oc inp d ac v l stack st.
Proof.
  unfold after_value', after_value. cbv zeta. cbn [more fst]. rewrite <- inner_erase.
  destruct (fst (inner' I inp (S len) d ac v l stack st)) as [[[d1 v1 l1 stack1|d1]| |e] st1]; try reflexivity.
  cbn [more fst]. rewrite <- open_erase. destruct (fst (open_item' I oc inp d1 v1 l1 stack1 st1)) as [[[[d2 v2] stack2]| |e] st2]; reflexivity.
Qed.
Lemma turn_erase d v stack st : fst (turn' I oc inp d v stack st) = turn I oc inp d v stack st.
Proof.
  unfold turn', turn. cbv zeta. cbn [more fst]. rewrite <- (event_erase oc inp d).
  destruct (fst (event_next' oc inp d)) as [[ev d1]| |e]; [|apply fail_erase|apply on_fault_erase].
  cbn [more fst]. destruct (dispatch I v ev st) as [[[l|]| |e] st1]; [apply after_erase| |apply fail_erase|apply on_fault_erase].
  destruct stack as [|[v' l'] stack']; [reflexivity|apply after_erase].
Qed.
Lemma outer_erase f : forall d v stack st, fst (outer_loop' I oc inp f d v stack st) = outer_loop I oc inp f d v stack st.
Proof.
  induction f as [|f IH]; intros d v stack st; [reflexivity|]. cbn [outer_loop' outer_loop]. cbv zeta. cbn [more fst]. rewrite <- turn_erase.
  destruct (fst (turn' I oc inp d v stack st)) as [[[d1 v1 stack1|d1]| |e] st1]; try reflexivity. apply IH.
Qed.
Lemma from_str_erase v st : fst (from_str_impl' I oc inp v st) = from_str_impl I oc inp v st.
Proof. apply outer_erase. Qed.

(** ** Bounds *)
Lemma unwind_le {A} ls : forall st, snd (@unwind' _ _ _ _ I A ls st) <= length ls.
Proof.
  induction ls as [|l ls IH]; intros st; cbn [unwind' more snd length]; [lia|].
  destruct (drop_layer I l st) as [[u| |e] st']; [pose proof (IH st'); lia|pose proof (IH st'); lia|]. destruct e; cbn [snd]; lia.
Qed.
Lemma on_fault_le {A} e ls st : snd (@on_fault' _ _ _ _ I A e ls st) <= length ls.
Proof. destruct e; cbn [on_fault' snd]; try lia. apply unwind_le. Qed.
Lemma fail_le {A} ls : forall st, snd (@fail' _ _ _ _ I A ls st) <= length ls.
Proof.
  induction ls as [|l ls IH]; intros st; cbn [fail' more snd length]; [lia|].
  destruct (drop_layer I l st) as [[u| |e] st']; [pose proof (IH st'); lia|pose proof (IH st'); lia|].
  pose proof (@on_fault_le A e (rev ls) st') as H. rewrite rev_length in H. lia.
Qed.
Lemma fail_in_le {A} l ls st : snd (@fail_in' _ _ _ _ I A l ls st) <= S (length ls).
Proof.
  unfold fail_in'. cbn [more snd]. destruct (drop_layer I l st) as [[u| |e] st']; [pose proof (@fail_le A ls st'); lia|pose proof (@fail_le A ls st'); lia|].
  pose proof (@on_fault_le A e ls st'). lia.
Qed.
Lemma unwind_no {A} ls : forall st (x : A), fst (fst (@unwind' _ _ _ _ I A ls st)) <> Ok x.
Proof.
  induction ls as [|l ls IH]; intros st x; cbn [unwind' more fst]; [discriminate|].
  destruct (drop_layer I l st) as [[u| |e] st']; [apply IH|apply IH|]. destruct e; discriminate.
Qed.
Lemma on_fault_no {A} e ls st (x : A) : fst (fst (@on_fault' _ _ _ _ I A e ls st)) <> Ok x.
Proof. destruct e; try discriminate. apply unwind_no. Qed.
Lemma fail_no {A} ls : forall st (x : A), fst (fst (@fail' _ _ _ _ I A ls st)) <> Ok x.
Proof.
  induction ls as [|l ls IH]; intros st x; cbn [fail' more fst]; [discriminate|].
  destruct (drop_layer I l st) as [[u| |e] st']; [apply IH|apply IH|apply on_fault_no].
Qed.
Lemma fail_in_no {A} l ls st (x : A) : fst (fst (@fail_in' _ _ _ _ I A l ls st)) <> Ok x.
Proof.
  unfold fail_in'. cbn [more fst]. destruct (drop_layer I l st) as [[u| |e] st']; [apply fail_no|apply fail_no|apply on_fault_no].
Qed.

(** [n] steps were taken before [r], since position [p]. [g]: the position in the result;
    [h]: the number of open layers in it. Giving up costs one step per open layer. *)
Definition upto {A} (g h : A -> nat) (a b p n : nat) (r : res A * St * nat) : Prop :=
  match fst (fst r) with
  | Ok x => p <= g x <= len /\ h x <= g x /\ n + snd r + a * p <= a * g x + b
  | _ => n + snd r + a * p <= a * len + b + len + 1
  end.
Lemma upto_more {A} (g h : A -> nat) a b p n m r : upto g h a b p (n + m) r -> upto g h a b p n (more m r).
Proof. unfold upto, more. cbn [fst snd]. destruct (fst (fst r)); lia. Qed.
Lemma upto_no {A} (g h : A -> nat) a b p n r : (forall x, fst (fst r) <> Ok x) -> n + snd r + a * p <= a * len + b + len + 1 -> upto g h a b p n r.
Proof. intros H L. unfold upto. destruct (fst (fst r)) as [x| |]; [exfalso; exact (H x eq_refl)|exact L|exact L]. Qed.

Lemma lex_len {A} (g : A -> nat) a b p (c : counted A) : within inp g a b p c -> match fst c with Ok x => p <= g x <= len /\ snd c + a * p <= a * g x + b | _ => snd c + a * p <= a * len + b end.
Proof. intros H. exact H. Qed.

Notation gp := (fun x => pos (snd x)).

(** The inner loop. *)
Definition ipos (o : @inner_out V SH MH) : nat := match o with IBreak d _ _ _ => pos d | IOuter d => pos d end.
Definition idep (o : @inner_out V SH MH) : nat := match o with IBreak _ _ _ stack => S (length stack) | IOuter _ => 0 end.

Lemma inner_upto f : forall d ac v l stack st, pos d <= len -> S (length stack) <= pos d ->
  upto ipos idep 4 2 (pos d) 0 (inner' I inp f d ac v l stack st).
Proof.
  induction f as [|f IH]; intros d ac v l stack st L DP; cbn [inner'].
  { apply upto_no; [discriminate|]. cbn [snd]. lia. }
  cbv zeta. apply upto_more. pose proof (ws_within inp d L) as W. apply lex_len in W.
  pose proof (ws_erase inp d) as WE. set (n := snd (parse_whitespace' inp d)) in *. clearbody n.
  assert (LM : length (map snd stack) = length stack) by apply map_length.
  destruct (fst (parse_whitespace' inp d)) as [[o d1]| |e].
  2:{ apply upto_no; [apply fail_in_no|]. pose proof (@fail_in_le (@inner_out V SH MH) l (map snd stack) st). lia. }
  2:{ apply upto_no; [apply on_fault_no|]. pose proof (@on_fault_le (@inner_out V SH MH) e (l :: map snd stack) st) as B. cbn [length] in B. lia. }
  cbn [snd] in W. destruct W as [W1 W2].
  assert (NX : forall c, o = Some c -> S (pos d1) <= len). { intros c ->. exact (ws_some inp d c d1 (eq_sym WE)). }
  assert (FI : upto ipos idep 4 2 (pos d) (0 + n) (fail_in' I l (map snd stack) st)).
  { apply upto_no; [apply fail_in_no|]. pose proof (@fail_in_le (@inner_out V SH MH) l (map snd stack) st). lia. }
  set (c := match o with Some c => c | None => 0%Z end).
  assert (NC : c <> 0%Z -> S (pos d1) <= len). { subst c. destruct o as [c|]; [intros _; exact (NX c eq_refl)|contradiction]. }
  destruct ((c =? 44)%Z && ac) eqn:CM.
  { unfold upto. cbn [fst snd ipos idep bump pos]. apply andb_prop in CM. destruct CM as [CM _]. apply Z.eqb_eq in CM.
    specialize (NC ltac:(rewrite CM; discriminate)). lia. }
  destruct ((c =? 93)%Z || (c =? 125)%Z) eqn:CB.
  - assert (NC' : S (pos d1) <= len).
    { apply NC. intros E. rewrite E in CB. discriminate. }
    apply upto_more. destruct (close_layer I c l st) as [[u| |e] st1].
    + apply upto_more.
      assert (NX2 : forall st2, upto ipos idep 4 2 (pos d) (0 + n + 1 + 1)
                  match stack with [] => (Ok (IOuter (bump d1)), st2, 0%nat) | (v', l') :: stack' => inner' I inp f (bump d1) true v' l' stack' st2 end).
      { intros st2. destruct stack as [|[v' l'] stack'].
        - unfold upto. cbn [fst snd ipos idep bump pos]. lia.
        - cbn [length] in DP. pose proof (IH (bump d1) true v' l' stack' st2 NC' ltac:(cbn [bump pos]; lia)) as K. unfold upto in *. cbn [bump pos] in *.
          destruct (fst (fst (inner' I inp f (bump d1) true v' l' stack' st2))); cbn [bump pos] in *; lia. }
      destruct (drop_layer I l st1) as [[u1| |e] st2]; [apply NX2|apply NX2|].
      apply upto_no; [apply on_fault_no|]. pose proof (@on_fault_le (@inner_out V SH MH) e (map snd stack) st2). lia.
    + apply upto_no; [apply fail_in_no|]. pose proof (@fail_in_le (@inner_out V SH MH) l (map snd stack) st1). lia.
    + apply upto_no; [apply on_fault_no|]. pose proof (@on_fault_le (@inner_out V SH MH) e (l :: map snd stack) st1) as B. cbn [length] in B. lia.
  - destruct ac; [exact FI|]. unfold upto. cbn [fst snd ipos idep]. lia.
Qed.

Definition opos (o : lex * V * list (V * layer SH MH)) : nat := pos (fst (fst o)).
Definition odep (o : lex * V * list (V * layer SH MH)) : nat := length (snd o).

Lemma open_upto d v l stack st : pos d <= len -> S (length stack) <= pos d ->
  upto opos odep 12 15 (pos d) 0 (open_item' I oc inp d v l stack st).
Proof.
  intros L DP. unfold open_item'. cbv zeta.
  assert (LM : length (map snd stack) = length stack) by apply map_length.
  assert (FI : forall st n, n + 12 * pos d <= 12 * len + 15 -> upto opos odep 12 15 (pos d) n (fail_in' I l (map snd stack) st)).
  { intros s n B. apply upto_no; [apply fail_in_no|]. pose proof (@fail_in_le (lex * V * list (V * layer SH MH)) l (map snd stack) s). lia. }
  assert (OF : forall e st n, n + 12 * pos d <= 12 * len + 15 -> upto opos odep 12 15 (pos d) n (on_fault' I e (l :: map snd stack) st)).
  { intros e s n B. apply upto_no; [apply on_fault_no|]. pose proof (@on_fault_le (lex * V * list (V * layer SH MH)) e (l :: map snd stack) s) as C. cbn [length] in C. lia. }
  destruct l as [s|m]; apply upto_more.
  - destruct (s_element I s st) as [[u| |e] st1]; [|apply FI; lia|apply OF; lia].
    unfold upto. unfold opos, odep; cbn [fst snd length]. lia.
  - pose proof (ws_within inp d L) as W. apply lex_len in W. pose proof (ws_erase inp d) as WE. set (n := snd (parse_whitespace' inp d)) in *. clearbody n.
    destruct (fst (parse_whitespace' inp d)) as [[o d1]| |e]; [|apply FI; lia|apply OF; lia].
    cbn [snd] in W. destruct W as [W1 W2].
    destruct o as [c|]; [|apply FI; lia]. pose proof (ws_some inp d c d1 (eq_sym WE)) as N1.
    destruct (c =? 34)%Z; [|apply FI; lia].
    apply upto_more. pose proof (str_within oc inp (bump d1) N1) as S1. apply lex_len in S1. cbn [bump pos] in S1. set (k := snd (parse_str' oc inp (bump d1))) in *. clearbody k.
    destruct (fst (parse_str' oc inp (bump d1))) as [[key d2]| |e]; [|apply FI; lia|apply OF; lia].
    cbn [snd] in S1. destruct S1 as [S1 S2].
    apply upto_more. destruct (m_key I m key st) as [[u| |e] st1]; [|apply FI; lia|apply OF; lia].
    apply upto_more. pose proof (ws_within inp d2 ltac:(lia)) as W3. apply lex_len in W3. pose proof (ws_erase inp d2) as WE2. set (n2 := snd (parse_whitespace' inp d2)) in *. clearbody n2.
    destruct (fst (parse_whitespace' inp d2)) as [[o2 d3]| |e]; [|apply FI; lia|apply OF; lia].
    cbn [snd] in W3. destruct W3 as [W3 W4].
    destruct o2 as [c2|]; [|apply FI; lia]. pose proof (ws_some inp d2 c2 d3 (eq_sym WE2)) as N3.
    destruct (c2 =? 58)%Z; [|apply FI; lia].
    unfold upto. unfold opos, odep; cbn [fst snd length bump pos]. lia.
Qed.

Definition tpos (o : @turn_out V SH MH) : nat := match o with TNext d _ _ => pos d | TEnd d => pos d end.
Definition tdep (o : @turn_out V SH MH) : nat := match o with TNext _ _ stack => length stack | TEnd _ => 0 end.

Lemma after_upto d ac v l stack st : pos d <= len -> S (length stack) <= pos d ->
  upto tpos tdep 12 17 (pos d) 0 (after_value' I oc inp d ac v l stack st).
Proof.
  intros L DP. unfold after_value'. cbv zeta. apply upto_more.
  pose proof (inner_upto (S len) d ac v l stack st L DP) as U. unfold upto in U.
  set (n := snd (inner' I inp (S len) d ac v l stack st)) in *. clearbody n.
  destruct (fst (inner' I inp (S len) d ac v l stack st)) as [[[d1 v1 l1 stack1|d1]| |e] st1]; cbn [fst ipos idep] in U.
  - destruct U as [U1 [U2 U3]]. apply upto_more. pose proof (open_upto d1 v1 l1 stack1 st1 ltac:(lia) U2) as O. unfold upto in O.
    set (k := snd (open_item' I oc inp d1 v1 l1 stack1 st1)) in *. clearbody k.
    destruct (fst (open_item' I oc inp d1 v1 l1 stack1 st1)) as [[[[d2 v2] stack2]| |e] st2]; unfold opos, odep in O; cbn [fst snd] in O; unfold upto; cbn [fst snd tpos tdep]; lia.
  - unfold upto. cbn [fst snd tpos tdep]. lia.
  - apply upto_no; [discriminate|]. cbn [snd]. lia.
  - apply upto_no; [discriminate|]. cbn [snd]. lia.
Qed.

(** A whole turn of 'outer is paid for by the bytes it consumes. *)
Lemma turn_cost d v stack st : pos d <= len -> length stack <= pos d ->
  let r := turn' I oc inp d v stack st in
  match fst (fst r) with
  | Ok x => S (pos d) <= tpos x <= len /\ tdep x <= tpos x /\ snd r + 44 * pos d <= 44 * tpos x
  | _ => snd r + 44 * pos d <= 45 * len + 33
  end.
Proof.
  intros L DP. unfold turn'. cbv zeta. destruct (event_within oc inp d L) as [W SE]. apply lex_len in W.
  set (n := snd (event_next' oc inp d)) in *. clearbody n.
  assert (LM : length (map snd stack) = length stack) by apply map_length.
  assert (NO : forall (r : res turn_out * St * nat) m, (forall x, fst (fst r) <> Ok x) -> m + snd r + 44 * pos d <= 45 * len + 33 ->
    match fst (fst (more m r)) with
    | Ok x => S (pos d) <= tpos x <= len /\ tdep x <= tpos x /\ snd (more m r) + 44 * pos d <= 44 * tpos x
    | _ => snd (more m r) + 44 * pos d <= 45 * len + 33
    end).
  { intros r m N B. cbn [more fst snd]. destruct (fst (fst r)) as [x| |]; [exfalso; exact (N x eq_refl)|exact B|exact B]. }
  destruct (fst (event_next' oc inp d)) as [[ev d1]| |e].
  2:{ apply NO; [apply fail_no|]. pose proof (@fail_le (@turn_out V SH MH) (map snd stack) st). lia. }
  2:{ apply NO; [apply on_fault_no|]. pose proof (@on_fault_le (@turn_out V SH MH) e (map snd stack) st). lia. }
  specialize (SE _ eq_refl). cbn [snd] in *. destruct W as [W1 W2].
  assert (AF : forall ac v l stk st1, S (length stk) <= pos d1 ->
    match fst (fst (more n (more 1 (after_value' I oc inp d1 ac v l stk st1)))) with
    | Ok x => S (pos d) <= tpos x <= len /\ tdep x <= tpos x /\ snd (more n (more 1 (after_value' I oc inp d1 ac v l stk st1))) + 44 * pos d <= 44 * tpos x
    | _ => snd (more n (more 1 (after_value' I oc inp d1 ac v l stk st1))) + 44 * pos d <= 45 * len + 33
    end).
  { intros ac v0 l stk st1 B. pose proof (after_upto d1 ac v0 l stk st1 ltac:(lia) B) as U. unfold upto in U. cbn [more fst snd].
    set (k := snd (after_value' I oc inp d1 ac v0 l stk st1)) in *. clearbody k.
    destruct (fst (fst (after_value' I oc inp d1 ac v0 l stk st1))) as [x| |]; lia. }
  destruct (dispatch I v ev st) as [[[l|]| |e] st1].
  - apply AF. lia.
  - destruct stack as [|[v' l'] stack'].
    + cbn [more fst snd tpos tdep]. lia.
    + apply AF. cbn [length] in DP. lia.
  - apply NO; [apply fail_no|]. cbn [more snd]. pose proof (@fail_le (@turn_out V SH MH) (map snd stack) st1). lia.
  - apply NO; [apply on_fault_no|]. cbn [more snd]. pose proof (@on_fault_le (@turn_out V SH MH) e (map snd stack) st1). lia.
Qed.

Lemma outer_cost f : forall d v stack st, pos d <= len -> length stack <= pos d ->
  snd (outer_loop' I oc inp f d v stack st) + 44 * pos d <= 45 * len + 33.
Proof.
  induction f as [|f IH]; intros d v stack st L DP; cbn [outer_loop']. { cbn [snd]. lia. }
  cbv zeta. cbn [more snd]. pose proof (turn_cost d v stack st L DP) as T. cbv zeta in T.
  set (n := snd (turn' I oc inp d v stack st)) in *. clearbody n.
  destruct (fst (turn' I oc inp d v stack st)) as [[[d1 v1 stack1|d1]| |e] st1]; cbn [fst tpos tdep] in T; cbn [snd].
  - pose proof (IH d1 v1 stack1 st1 ltac:(lia) ltac:(lia)). lia.
  - pose proof (ws_within inp d1 ltac:(lia)) as W. apply lex_len in W. destruct (fst (parse_whitespace' inp d1)) as [x| |]; lia.
  - lia.
  - lia.
Qed.
Lemma from_str_cost v st : snd (from_str_impl' I oc inp v st) <= 45 * len + 33.
Proof. pose proof (outer_cost (S len) (mklex 0 []) v [] st ltac:(cbn; lia) ltac:(cbn; lia)) as H. cbn [pos] in H. unfold from_str_impl'. lia. Qed.

End Facts.

(** ** The serializer *)
Lemma escape_loop_erase value rest : forall i start out, fst (escape_loop' value rest i start out) = escape_loop value rest i start out.
Proof.
  induction rest as [|b rest IH]; intros i start out; [reflexivity|]. cbn [escape_loop' escape_loop]. rewrite fst_cbind. apply bind_ext. intros e.
  rewrite if_fst. destruct (e =? 0)%Z; [apply IH|]. rewrite fst_cbind.
  match goal with |- bind ?x _ = bind ?y _ => assert (E : x = y) by (destruct (Nat.ltb start i); [rewrite fst_cbind|]; reflexivity); rewrite E end.
  apply bind_ext. intros out1. rewrite fst_cbind. apply bind_ext. intros e1. rewrite fst_cbind. cbn [steps fst bind]. apply IH.
Qed.
Lemma escape_str_erase value out : fst (escape_str' value out) = escape_str value out.
Proof.
  unfold escape_str', escape_str. rewrite fst_cbind. cbn [steps fst bind]. rewrite fst_cbind, escape_loop_erase. apply bind_ext2. intros start out1. cbv beta iota.
  rewrite fst_cbind.
  match goal with |- bind ?x _ = bind ?y _ => assert (E : x = y) by (destruct (Nat.eqb start (length value)); [|rewrite fst_cbind]; reflexivity); rewrite E end.
  reflexivity.
Qed.

Section SerFacts.
Context {St D SQ MP : Type}.
Variable I : siface St D SQ MP.
Variable ryu : f64 -> bytes.

Lemma sunwind_erase {A} ls : forall st, fst (@sunwind' _ _ _ _ I A ls st) = sunwind I ls st.
Proof.
  induction ls as [|l ls IH]; intros st; [reflexivity|]. cbn [sunwind' sunwind more fst].
  destruct (sdrop I l st) as [[u| |e] st']; [apply IH|apply IH|]. destruct e; reflexivity.
Qed.
Lemma son_fault_erase {A} e ls st : fst (@son_fault' _ _ _ _ I A e ls st) = son_fault I e ls st.
Proof. destruct e; try reflexivity. apply sunwind_erase. Qed.
Lemma pop_erase stack : forall out st, fst (ser_pop' I stack out st) = ser_pop I stack out st.
Proof.
  induction stack as [|[q|m] stack IH]; intros out st; [reflexivity| |]; cbn [ser_pop' ser_pop more fst].
  - destruct (i_seq_next I q st) as [[[[d|]| |e] q'] st1]; [reflexivity| |reflexivity|apply son_fault_erase].
    cbn [more fst]. destruct (i_seq_drop I q' st1) as [[u| |e] st2]; [apply IH|apply IH|apply son_fault_erase].
  - destruct (i_map_next I m st) as [[[[[key d]|]| |e] m'] st1]; [| |reflexivity|apply son_fault_erase].
    + cbv zeta. cbn [more fst]. rewrite <- escape_str_erase. destruct (fst (escape_str' key (out ++ [44%Z]))); [reflexivity|reflexivity|apply son_fault_erase].
    + cbn [more fst]. destruct (i_map_drop I m' st1) as [[u| |e] st2]; [apply IH|apply IH|apply son_fault_erase].
Qed.
Lemma scalar_erase s stack st : fst (ser_scalar' I s stack st) = ser_scalar I (fst s) stack st.
Proof. unfold ser_scalar', ser_scalar. cbn [more fst]. destruct (fst s); [apply pop_erase|reflexivity|apply son_fault_erase]. Qed.
Lemma sturn_erase f stack out st : fst (ser_turn' I ryu f stack out st) = ser_turn I ryu f stack out st.
Proof.
  destruct f as [|b|s|n|n|n|q|m]; cbn [ser_turn' ser_turn]; try (rewrite scalar_erase; reflexivity).
  - rewrite scalar_erase, escape_str_erase. reflexivity.
  - cbn [more fst]. destruct (i_seq_next I q st) as [[[[d|]| |e] q'] st1]; [reflexivity| |reflexivity|apply son_fault_erase].
    cbn [more fst]. destruct (i_seq_drop I q' st1) as [[u| |e] st2]; [apply pop_erase|apply pop_erase|apply son_fault_erase].
  - cbn [more fst]. destruct (i_map_next I m st) as [[[[[key d]|]| |e] m'] st1]; [| |reflexivity|apply son_fault_erase].
    + cbv zeta. cbn [more fst]. rewrite <- escape_str_erase. destruct (fst (escape_str' key (out ++ [123%Z]))); [reflexivity|reflexivity|apply son_fault_erase].
    + cbn [more fst]. destruct (i_map_drop I m' st1) as [[u| |e] st2]; [apply pop_erase|apply pop_erase|apply son_fault_erase].
Qed.
Lemma sloop_erase n : forall d stack out st, fst (ser_loop' I ryu n d stack out st) = ser_loop I ryu n d stack out st.
Proof.
  induction n as [|n IH]; intros d stack out st; [reflexivity|]. cbn [ser_loop' ser_loop more fst].
  destruct (i_begin I d st) as [[f| |e] st1]; [|reflexivity|apply son_fault_erase].
  cbv zeta. cbn [more fst]. rewrite <- sturn_erase. destruct (fst (ser_turn' I ryu f stack out st1)) as [[[out'|d' stack' out']| |e] st2]; try reflexivity. apply IH.
Qed.
Lemma to_string_erase n d st : fst (to_string_impl' I ryu n d st) = to_string_impl I ryu n d st.
Proof. apply sloop_erase. Qed.

(** *** Bounds *)
Lemma escape_text_len e b s : escape_text e b = Ok s -> 2 <= length s.
Proof.
  unfold escape_text. repeat match goal with |- (if ?c then _ else _) = _ -> _ => destruct c; [intros [= <-]; cbn; lia|] end.
  destruct (e =? sU)%Z; [|discriminate]. destruct (idx HEX_DIGITS _); try discriminate. cbn [bind]. destruct (idx HEX_DIGITS _); try discriminate.
  cbn [bind]. intros [= <-]. cbn. lia.
Qed.
Lemma str_slice_len v a b s : str_slice v a b = Ok s -> length s = b - a.
Proof. unfold str_slice. destruct (_ && _); [apply slice_len|discriminate]. Qed.

Lemma cbind_ok {A B} (c : counted A) (k : A -> counted B) y : fst (cbind c k) = Ok y ->
  exists x, fst c = Ok x /\ fst (k x) = Ok y /\ snd (cbind c k) = snd c + snd (k x).
Proof. unfold cbind. destruct (fst c) as [x| |]; try discriminate. destruct (k x) as [r n] eqn:K. cbn [fst snd]. intros E. exists x. rewrite K. auto. Qed.

Lemma escape_loop_cost value rest : forall i start out start' out', start <= i ->
  fst (escape_loop' value rest i start out) = Ok (start', out') ->
  snd (escape_loop' value rest i start out) + length out = length rest + length out' /\
  start' <= i + length rest /\ length rest + (length out + (i - start)) <= length out' + (i + length rest - start').
Proof.
  induction rest as [|b rest IH]; intros i start out start' out' L; cbn [escape_loop'].
  { cbn [steps fst snd length]. intros [= <- <-]. lia. }
  intros E. apply cbind_ok in E. destruct E as (e & _ & E & ->). cbn [steps snd].
  destruct (e =? 0)%Z.
  { destruct (IH (S i) start out start' out' ltac:(lia) E) as (A & B & C). cbn [length]. lia. }
  apply cbind_ok in E. destruct E as (out1 & W & E & ->).
  set (w := if Nat.ltb start i then _ else _) in *.
  assert (W' : snd w + length out = length out1 /\ length out1 = length out + (i - start)).
  { subst w. destruct (Nat.ltb_spec start i).
    - apply cbind_ok in W. destruct W as (s & SL & W & ->). cbn [steps fst snd] in *.
      injection W as <-. apply str_slice_len in SL. rewrite app_length. lia.
    - cbn [steps fst snd] in *. injection W as <-. lia. }
  clearbody w. destruct W' as [W1 W2].
  apply cbind_ok in E. destruct E as (s & ES & E & ->). cbn [steps fst snd] in *. apply escape_text_len in ES.
  apply cbind_ok in E. destruct E as (o2 & EO & E & ->). cbn [steps fst snd] in *. injection EO as <-.
  destruct (IH (S i) (S i) _ start' out' (le_n _) E) as (A & B & C). rewrite app_length in *. cbn [length]. lia.
Qed.
(** escape_str takes at most two steps per byte it writes, and writes two bytes at least. *)
Lemma escape_str_cost value out out' : fst (escape_str' value out) = Ok out' ->
  snd (escape_str' value out) + 2 * length out <= 2 * length out' /\ 2 + length out <= length out'.
Proof.
  unfold escape_str'. intros E. apply cbind_ok in E. destruct E as (o0 & E0 & E & ->). cbn [steps fst snd] in *. injection E0 as <-.
  apply cbind_ok in E. destruct E as ([start out1] & EL & E & ->).
  destruct (escape_loop_cost value value 0 0 (out ++ [34%Z]) start out1 (le_n _) EL) as (A & B & C).
  set (n := snd (escape_loop' value value 0 0 (out ++ [34%Z]))) in *. clearbody n. clear EL.
  apply cbind_ok in E. destruct E as (out2 & W & E & ->).
  set (w := if Nat.eqb start (length value) then _ else _) in *.
  assert (W' : snd w + length out1 = length out2 /\ length out2 = length out1 + (length value - start)).
  { subst w. destruct (Nat.eqb_spec start (length value)) as [->|].
    - cbn [steps fst snd] in *. injection W as <-. lia.
    - apply cbind_ok in W. destruct W as (s & SL & W & ->). cbn [steps fst snd] in *.
      injection W as <-. apply str_slice_len in SL. rewrite app_length. lia. }
  clearbody w. destruct W' as [W1 W2]. cbn [steps fst snd] in *. injection E as <-. rewrite !app_length in *. cbn [length] in *. lia.
Qed.

Definition sout (s : @sstep D SQ MP) : nat := match s with SReturn o => length o | SBegin _ _ o => length o end.
Lemma sunwind_no {A} ls : forall st (x : A), fst (fst (@sunwind' _ _ _ _ I A ls st)) <> Ok x.
Proof.
  induction ls as [|l ls IH]; intros st x; cbn [sunwind' more fst]; [discriminate|].
  destruct (sdrop I l st) as [[u| |e] st']; [apply IH|apply IH|]. destruct e; discriminate.
Qed.
Lemma son_fault_no {A} e ls st (x : A) : fst (fst (@son_fault' _ _ _ _ I A e ls st)) <> Ok x.
Proof. destruct e; try discriminate. apply sunwind_no. Qed.

Ltac nofault := intros E; exfalso; first [exact (son_fault_no _ _ _ _ E) | discriminate E].
Lemma pop_cost stack : forall out st s, fst (fst (ser_pop' I stack out st)) = Ok s ->
  snd (ser_pop' I stack out st) + 3 * length out <= 3 * sout s.
Proof.
  induction stack as [|[q|m] stack IH]; intros out st s; cbn [ser_pop' more fst snd].
  - intros [= <-]. cbn [sout]. lia.
  - destruct (i_seq_next I q st) as [[[[d|]| |e] q'] st1]; cbn [fst snd]; [| |nofault|nofault].
    + intros [= <-]. cbn [sout]. rewrite app_length. cbn [length]. lia.
    + cbn [more fst snd]. destruct (i_seq_drop I q' st1) as [[u| |e] st2]; [| |nofault];
        (cbn [more fst snd]; intros E; apply IH in E; rewrite app_length in E; cbn [length] in E; lia).
  - destruct (i_map_next I m st) as [[[[[key d]|]| |e] m'] st1]; cbn [fst snd]; [| |nofault|nofault].
    + cbv zeta. cbn [more fst snd]. destruct (fst (escape_str' key (out ++ [44%Z]))) as [o1| |] eqn:EE; [|nofault|nofault].
      apply escape_str_cost in EE. destruct EE as [E1 E2]. rewrite app_length in *. cbn [fst snd]. intros [= <-]. cbn [sout]. rewrite app_length. cbn [length] in *. lia.
    + cbn [more fst snd]. destruct (i_map_drop I m' st1) as [[u| |e] st2]; [| |nofault];
        (cbn [more fst snd]; intros E; apply IH in E; rewrite app_length in E; cbn [length] in E; lia).
Qed.

Hypothesis ryu_prints : forall f, f_is_finite f = true -> ryu f <> [].
Lemma itoa_len n : 1 <= length (itoa n).
Proof.
  assert (A : forall f m acc, length acc <= length (dec_digits_aux f m acc)).
  { induction f as [|f IH]; intros m acc; cbn [dec_digits_aux]; [lia|]. destruct (m / 10 =? 0)%Z; [cbn [length]; lia|].
    pose proof (IH (m / 10)%Z ((48 + m mod 10)%Z :: acc)) as H. cbn [length] in H. lia. }
  assert (B : forall m, 1 <= length (dec_digits m)).
  { intros m. unfold dec_digits. cbn [dec_digits_aux]. destruct (m / 10 =? 0)%Z; [cbn [length]; lia|].
    pose proof (A (Z.to_nat (Z.log2 m)) (m / 10)%Z [(48 + m mod 10)%Z]) as H. exact H. }
  unfold itoa. destruct (n <? 0)%Z; [cbn [length]; lia|apply B].
Qed.
Lemma scalar_cost c (m : nat) stack st s : fst (fst (ser_scalar' I c stack st)) = Ok s ->
  (forall o, fst c = Ok o -> snd c + 1 + 3 * m <= 3 * length o) ->
  snd (ser_scalar' I c stack st) + 1 + 3 * m <= 3 * sout s.
Proof.
  unfold ser_scalar'. cbn [more fst snd]. destruct (fst c) as [o| |]; [|nofault|nofault].
  intros E K. apply pop_cost in E. specialize (K o eq_refl). lia.
Qed.
Lemma put_cost out t o : 1 <= length t -> fst (put out t) = Ok o -> snd (put out t) + 1 + 3 * length out <= 3 * length o.
Proof. intros L. unfold put. cbn [steps fst snd]. intros [= <-]. rewrite app_length. lia. Qed.
Lemma sturn_cost f stack out st s : fst (fst (ser_turn' I ryu f stack out st)) = Ok s ->
  snd (ser_turn' I ryu f stack out st) + 1 + 3 * length out <= 3 * sout s.
Proof.
  destruct f as [|b|x|n|n|n|q|m]; cbn [ser_turn'].
  - intros E. apply (scalar_cost _ (length out) _ _ _ E). intros o. apply put_cost. cbn. lia.
  - intros E. apply (scalar_cost _ (length out) _ _ _ E). intros o. apply put_cost. destruct b; cbn; lia.
  - intros E. apply (scalar_cost _ (length out) _ _ _ E). intros o EE. apply escape_str_cost in EE. lia.
  - intros E. apply (scalar_cost _ (length out) _ _ _ E). intros o. apply put_cost, itoa_len.
  - intros E. apply (scalar_cost _ (length out) _ _ _ E). intros o. apply put_cost, itoa_len.
  - intros E. apply (scalar_cost _ (length out) _ _ _ E). intros o. apply put_cost. destruct (f_is_finite n) eqn:F; [|cbn; lia].
    specialize (ryu_prints n F). destruct (ryu n); [contradiction|cbn [length]; lia].
  - cbn [more fst snd]. destruct (i_seq_next I q st) as [[[[d|]| |e] q'] st1]; cbn [fst snd]; [| |nofault|nofault].
    + intros [= <-]. cbn [sout]. rewrite app_length. cbn [length]. lia.
    + cbn [more fst snd]. destruct (i_seq_drop I q' st1) as [[u| |e] st2]; [| |nofault];
        (cbn [more fst snd]; intros E; apply pop_cost in E; rewrite !app_length in E; cbn [length] in E; lia).
  - cbn [more fst snd]. destruct (i_map_next I m st) as [[[[[key d]|]| |e] m'] st1]; cbn [fst snd]; [| |nofault|nofault].
    + cbv zeta. cbn [more fst snd]. destruct (fst (escape_str' key (out ++ [123%Z]))) as [o1| |] eqn:EE; [|nofault|nofault].
      apply escape_str_cost in EE. destruct EE as [E1 E2]. rewrite app_length in *. cbn [fst snd]. intros [= <-]. cbn [sout]. rewrite app_length. cbn [length] in *. lia.
    + cbn [more fst snd]. destruct (i_map_drop I m' st1) as [[u| |e] st2]; [| |nofault];
        (cbn [more fst snd]; intros E; apply pop_cost in E; rewrite !app_length in E; cbn [length] in E; lia).
Qed.
Lemma sloop_cost n : forall d stack out st s, fst (fst (ser_loop' I ryu n d stack out st)) = Ok s ->
  snd (ser_loop' I ryu n d stack out st) + 3 * length out <= 3 * length s.
Proof.
  induction n as [|n IH]; intros d stack out st s; cbn [ser_loop']; [discriminate|]. cbn [more fst snd].
  destruct (i_begin I d st) as [[f| |e] st1]; [|nofault|nofault]. cbv zeta. cbn [more fst snd].
  pose proof (sturn_cost f stack out st1) as T.
  destruct (fst (ser_turn' I ryu f stack out st1)) as [[[out'|d' stack' out']| |e] st2]; cbn [fst snd] in *; [| |nofault|nofault].
  - intros [= <-]. specialize (T _ eq_refl). cbn [sout] in T. lia.
  - intros E. apply IH in E. specialize (T _ eq_refl). cbn [sout] in T. lia.
Qed.
Lemma to_string_cost n d st s : fst (fst (to_string_impl' I ryu n d st)) = Ok s -> snd (to_string_impl' I ryu n d st) <= 3 * length s.
Proof. intros E. apply sloop_cost in E. cbn [length] in E. unfold to_string_impl'. lia. Qed.
End SerFacts.
