(** The counts of DriverCost.v are not too small: they include every call that is made, and
    every byte that is written. A measure of the user's world that no single call raises by
    more than one is raised by a run by no more than the number of its steps. *)
From Coq Require Import String ZArith List Bool Lia Floats.SpecFloat.
From Verif Require Import Base Utf8 F64 Lexer LexCost LexCostFacts Driver Types Ser DriverCost DriverCostFacts ParseSpec.
Import ListNotations.
Open Scope nat_scope.

Section Driver.
Context {St V SH MH : Type}.
Variable I : iface St V SH MH.
Variable oc : bool.
Variable inp : bytes.
Variable mu : St -> nat.

Definition one {A} (st : St) (r : res A * St) : Prop := mu (snd r) <= mu st + 1.
Record slow : Prop := {
  w_null : forall v st, one st (v_null I v st);
  w_bool : forall v b st, one st (v_bool I v b st);
  w_str : forall v s st, one st (v_str I v s st);
  w_neg : forall v n st, one st (v_neg I v n st);
  w_nonneg : forall v n st, one st (v_nonneg I v n st);
  w_float : forall v f st, one st (v_float I v f st);
  w_seq : forall v st, one st (v_seq I v st);
  w_map : forall v st, one st (v_map I v st);
  w_element : forall q st, one st (s_element I q st);
  w_sfinish : forall q st, one st (s_finish I q st);
  w_sdrop : forall q st, one st (s_drop I q st);
  w_key : forall m k st, one st (m_key I m k st);
  w_mfinish : forall m st, one st (m_finish I m st);
  w_mdrop : forall m st, one st (m_drop I m st) }.
Hypothesis HS : slow.

(** From the measure [a]: what is left of the run. *)
Definition grows {A} (a : nat) (r : res A * St * nat) : Prop := mu (snd (fst r)) <= a + snd r.
Lemma grows_more {A} a n (r : res A * St * nat) : grows (a + n) r -> grows a (more n r).
Proof. unfold grows, more. cbn [fst snd]. lia. Qed.
Lemma grows_ret {A} a (x : res A) st n : mu st <= a + n -> grows a (x, st, n).
Proof. exact (fun H => H). Qed.
Lemma drop_one l st : one st (drop_layer I l st).
Proof. destruct l; [apply (w_sdrop HS)|apply (w_mdrop HS)]. Qed.
Lemma close_one c l st : one st (close_layer I c l st).
Proof. unfold close_layer. destruct l; (destruct (_ =? _)%Z; [|unfold one; cbn; lia]); [apply (w_sfinish HS)|apply (w_mfinish HS)]. Qed.
Lemma dispatch_one v ev st : one st (dispatch I v ev st).
Proof.
  unfold one, dispatch. destruct ev; cbn [snd]; [apply (w_null HS)|apply (w_bool HS)|apply (w_str HS)|apply (w_neg HS)|apply (w_nonneg HS)|apply (w_float HS)|apply (w_seq HS)|apply (w_map HS)].
Qed.
Lemma unwind_grows {A} ls : forall st a, mu st <= a -> grows a (@unwind' _ _ _ _ I A ls st).
Proof.
  induction ls as [|l ls IH]; intros st a H; cbn [unwind']; [apply grows_ret; lia|]. apply grows_more. pose proof (drop_one l st) as D. unfold one in D.
  destruct (drop_layer I l st) as [[u| |[]] st']; cbn [snd] in D; first [apply IH; lia | apply grows_ret; lia].
Qed.
Lemma on_fault_grows {A} e ls st a : mu st <= a -> grows a (@on_fault' _ _ _ _ I A e ls st).
Proof. intros H. destruct e; cbn [on_fault']; first [apply unwind_grows; exact H | apply grows_ret; lia]. Qed.
Lemma fail_grows {A} ls : forall st a, mu st <= a -> grows a (@fail' _ _ _ _ I A ls st).
Proof.
  induction ls as [|l ls IH]; intros st a H; cbn [fail']; [apply grows_ret; lia|]. apply grows_more. pose proof (drop_one l st) as D. unfold one in D.
  destruct (drop_layer I l st) as [[u| |e] st']; cbn [snd] in D; first [apply IH; lia | apply on_fault_grows; lia].
Qed.
Lemma fail_in_grows {A} l ls st a : mu st <= a -> grows a (@fail_in' _ _ _ _ I A l ls st).
Proof.
  intros H. unfold fail_in'. apply grows_more. pose proof (drop_one l st) as D. unfold one in D.
  destruct (drop_layer I l st) as [[u| |e] st']; cbn [snd] in D; first [apply fail_grows; lia | apply on_fault_grows; lia].
Qed.
Ltac bad := first [apply on_fault_grows; lia | apply fail_in_grows; lia | apply fail_grows; lia | apply grows_ret; lia].
Lemma inner_grows f : forall d ac v l stack st a, mu st <= a -> grows a (inner' I inp f d ac v l stack st).
Proof.
  induction f as [|f IH]; intros d ac v l stack st a H; cbn [inner']; [apply grows_ret; lia|]. cbv zeta. apply grows_more.
  destruct (fst (parse_whitespace' inp d)) as [[o d1]| |e]; try bad.
  destruct (_ && _); [bad|]. destruct (_ || _); [|destruct ac; bad].
  apply grows_more. pose proof (close_one (match o with Some c => c | None => 0%Z end) l st) as C. unfold one in C.
  destruct (close_layer I _ l st) as [[u| |e] st1]; cbn [snd] in C; try bad.
  apply grows_more. pose proof (drop_one l st1) as D. unfold one in D.
  destruct (drop_layer I l st1) as [[u1| |e] st2]; cbn [snd] in D; try bad; (destruct stack as [|[v' l'] stack']; [bad|apply IH; lia]).
Qed.
Lemma open_grows d v l stack st a : mu st <= a -> grows a (open_item' I oc inp d v l stack st).
Proof.
  intros H. unfold open_item'. cbv zeta. destruct l as [s|m]; apply grows_more.
  - pose proof (w_element HS s st) as C. unfold one in C. destruct (s_element I s st) as [[u| |e] st1]; cbn [snd] in C; bad.
  - destruct (fst (parse_whitespace' inp d)) as [[o d1]| |e]; try bad. destruct (match o with Some c => _ | None => _ end); [|bad].
    apply grows_more. destruct (fst (parse_str' oc inp (bump d1))) as [[key d2]| |e]; try bad.
    apply grows_more. pose proof (w_key HS m key st) as C. unfold one in C. destruct (m_key I m key st) as [[u| |e] st1]; cbn [snd] in C; try bad.
    apply grows_more. destruct (fst (parse_whitespace' inp d2)) as [[o2 d3]| |e]; try bad. destruct (match o2 with Some c => _ | None => _ end); bad.
Qed.
Lemma after_grows d ac v l stack st a : mu st <= a -> grows a (after_value' I oc inp d ac v l stack st).
Proof.
  intros H. unfold after_value'. cbv zeta. apply grows_more. pose proof (inner_grows (S (len inp)) d ac v l stack st a H) as U. unfold grows in U.
  destruct (inner' I inp (S (len inp)) d ac v l stack st) as [[r st1] n]. cbn [fst snd] in *.
  destruct r as [[d1 v1 l1 stack1|d1]| |e]; try bad. apply grows_more. pose proof (open_grows d1 v1 l1 stack1 st1 (a + n) U) as O. unfold grows in O.
  destruct (open_item' I oc inp d1 v1 l1 stack1 st1) as [[r st2] m]. cbn [fst snd] in *. destruct r as [[[d2 v2] stack2]| |e]; bad.
Qed.
Lemma turn_grows d v stack st a : mu st <= a -> grows a (turn' I oc inp d v stack st).
Proof.
  intros H. unfold turn'. cbv zeta. apply grows_more. destruct (fst (event_next' oc inp d)) as [[ev d1]| |e]; try bad.
  apply grows_more. pose proof (dispatch_one v ev st) as D. unfold one in D.
  destruct (dispatch I v ev st) as [[[l|]| |e] st1]; cbn [snd] in D; try bad; [apply after_grows; lia|].
  destruct stack as [|[v' l'] stack']; [bad|apply after_grows; lia].
Qed.
Lemma outer_grows f : forall d v stack st a, mu st <= a -> grows a (outer_loop' I oc inp f d v stack st).
Proof.
  induction f as [|f IH]; intros d v stack st a H; cbn [outer_loop']; [apply grows_ret; lia|]. cbv zeta. apply grows_more.
  pose proof (turn_grows d v stack st a H) as U. unfold grows in U.
  destruct (turn' I oc inp d v stack st) as [[r st1] n]. cbn [fst snd] in *. destruct r as [[d1 v1 stack1|d1]| |e]; try bad. apply IH, U.
Qed.
Lemma from_str_grows v st : mu (snd (fst (from_str_impl' I oc inp v st))) <= mu st + snd (from_str_impl' I oc inp v st).
Proof. exact (outer_grows _ _ _ _ _ _ (Nat.le_refl _)). Qed.
End Driver.

(** The calls that a parse makes are at most as many as its steps. *)
Lemma logged_slow {St V SH MH} (I : iface St V SH MH) : slow (logged I) (fun st => length (snd st)).
Proof. constructor; intros; unfold one; cbn; rewrite app_length; cbn [length]; lia. Qed.

Section Ser.
Context {St D SQ MP : Type}.
Variable I : siface St D SQ MP.
Variable ryu : f64 -> bytes.

(** Every byte of the output was a step. *)
Definition wrote (a : nat) (r : counted bytes) : Prop := forall o, fst r = Ok o -> length o <= a + snd r.
Lemma escape_loop_wrote value rest : forall i start out s' o', fst (escape_loop' value rest i start out) = Ok (s', o') ->
  length o' <= length out + snd (escape_loop' value rest i start out).
Proof.
  induction rest as [|b rest IH]; intros i start out s' o'; cbn [escape_loop']; [intros [= <- <-]; cbn; lia|].
  intros E. apply cbind_ok in E. destruct E as (e & E1 & E & ->). cbn [steps fst snd] in E1. cbn [steps snd]. destruct (e =? 0)%Z.
  - apply IH in E. lia.
  - apply cbind_ok in E. destruct E as (o1 & E2 & E & ->). set (w := if Nat.ltb start i then _ else _) in *.
    assert (W : length o1 <= length out + snd w).
    { subst w. destruct (Nat.ltb start i); [|cbn in *; injection E2 as <-; lia]. apply cbind_ok in E2. destruct E2 as (s & E5 & E2 & ->). cbn in *. injection E2 as <-. rewrite app_length. lia. }
    clearbody w. apply cbind_ok in E. destruct E as (t & E3 & E & ->). apply cbind_ok in E. destruct E as (o2 & E4 & E & ->).
    apply IH in E. cbn [steps fst snd] in *. injection E4 as <-. rewrite app_length in E. lia.
Qed.
Lemma escape_str_wrote value out : wrote (length out) (escape_str' value out).
Proof.
  intros o E. unfold escape_str' in *. apply cbind_ok in E. destruct E as (o0 & E0 & E & ->). cbn [steps fst snd] in *. injection E0 as <-.
  apply cbind_ok in E. destruct E as ([s1 o1] & E1 & E & ->). apply escape_loop_wrote in E1. rewrite app_length in E1. cbn [length] in E1.
  apply cbind_ok in E. destruct E as (o2 & E2 & E & ->). set (w := if Nat.eqb s1 (length value) then _ else _) in *.
  assert (W : length o2 <= length o1 + snd w).
  { subst w. destruct (Nat.eqb s1 (length value)); [cbn in *; injection E2 as <-; lia|]. apply cbind_ok in E2. destruct E2 as (s & E5 & E2 & ->). cbn in *. injection E2 as <-. rewrite app_length. lia. }
  clearbody w. cbn [steps fst snd] in *. injection E as <-. rewrite app_length. cbn [length]. lia.
Qed.

Variable mu : St -> nat.
Record sslow : Prop := {
  w_begin : forall d st, mu (snd (i_begin I d st)) <= mu st + 1;
  w_snext : forall q st, mu (snd (i_seq_next I q st)) <= mu st + 1;
  w_mnext : forall m st, mu (snd (i_map_next I m st)) <= mu st + 1;
  w_qdrop : forall q st, mu (snd (i_seq_drop I q st)) <= mu st + 1;
  w_pdrop : forall m st, mu (snd (i_map_drop I m st)) <= mu st + 1 }.
Hypothesis HS : sslow.

(** The bytes written by a run that succeeds, and the measure of the world it leaves. *)
Definition weight {A} (w : A -> nat) (r : res A * St) : nat := match fst r with Ok x => w x | _ => 0 end + mu (snd r).
Definition sgrows {A} (w : A -> nat) (a : nat) (r : res A * St * nat) : Prop := weight w (fst r) <= a + snd r.
Lemma sgrows_more {A} (w : A -> nat) a n (r : res A * St * nat) : sgrows w (a + n) r -> sgrows w a (more n r).
Proof. unfold sgrows, more. cbn [fst snd]. lia. Qed.
Lemma sgrows_ok {A} (w : A -> nat) a x st n : w x + mu st <= a + n -> sgrows w a (Ok x, st, n).
Proof. exact (fun H => H). Qed.
Lemma sgrows_no {A} (w : A -> nat) a r st n : match r with Ok _ => False | _ => True end -> mu st <= a + n -> sgrows w a (r, st, n).
Proof. intros H L. unfold sgrows, weight. cbn [fst snd]. destruct r; [contradiction| |]; exact L. Qed.
Lemma sdrop_one l st : mu (snd (sdrop I l st)) <= mu st + 1.
Proof. destruct l; [apply (w_qdrop HS)|apply (w_pdrop HS)]. Qed.
Lemma sunwind_grows {A} (w : A -> nat) ls : forall st a, mu st <= a -> sgrows w a (@sunwind' _ _ _ _ I A ls st).
Proof.
  induction ls as [|l ls IH]; intros st a H; cbn [sunwind']; [apply sgrows_no; [exact Logic.I|lia]|]. apply sgrows_more. pose proof (sdrop_one l st) as K.
  destruct (sdrop I l st) as [[u| |[]] st']; cbn [snd] in K; first [apply IH; lia | apply sgrows_no; [exact Logic.I|lia]].
Qed.
Lemma son_fault_grows {A} (w : A -> nat) e ls st a : mu st <= a -> sgrows w a (@son_fault' _ _ _ _ I A e ls st).
Proof. intros H. destruct e; cbn [son_fault']; first [apply sunwind_grows; exact H | apply sgrows_no; [exact Logic.I|lia]]. Qed.
Ltac sbad := first [apply son_fault_grows; lia | apply sgrows_no; [exact Logic.I|lia]].
Definition swrote (s : @sstep D SQ MP) : nat := match s with SReturn o => length o | SBegin _ _ o => length o end.
Lemma pop_grows stack : forall out st a, length out + mu st <= a -> sgrows swrote a (ser_pop' I stack out st).
Proof.
  induction stack as [|[q|m] stack IH]; intros out st a H; cbn [ser_pop'].
  - apply sgrows_ok. cbn [swrote]. lia.
  - apply sgrows_more. pose proof (w_snext HS q st) as N. destruct (i_seq_next I q st) as [[[[d|]| |e] q'] st1]; cbn [snd] in N; try sbad.
    + apply sgrows_ok. cbn [swrote]. rewrite app_length. cbn [length]. lia.
    + apply sgrows_more. pose proof (w_qdrop HS q' st1) as K. destruct (i_seq_drop I q' st1) as [[u| |e] st2]; cbn [snd] in K; try sbad;
        (apply sgrows_more, IH; rewrite app_length; cbn [length]; lia).
  - apply sgrows_more. pose proof (w_mnext HS m st) as N. destruct (i_map_next I m st) as [[[[[key d]|]| |e] m'] st1]; cbn [snd] in N; try sbad.
    + cbv zeta. apply sgrows_more. pose proof (escape_str_wrote key (out ++ [44%Z])) as W. unfold wrote in W. rewrite app_length in W.
      destruct (fst (escape_str' key (out ++ [44%Z]))) as [o1| |e]; try sbad. specialize (W _ eq_refl). apply sgrows_ok. cbn [swrote length] in *. rewrite app_length. cbn [length]. lia.
    + apply sgrows_more. pose proof (w_pdrop HS m' st1) as K. destruct (i_map_drop I m' st1) as [[u| |e] st2]; cbn [snd] in K; try sbad;
        (apply sgrows_more, IH; rewrite app_length; cbn [length]; lia).
Qed.
Lemma scalar_grows s stack st a b : wrote b s -> b + mu st <= a -> sgrows swrote a (ser_scalar' I s stack st).
Proof.
  intros W H. unfold ser_scalar'. apply sgrows_more. unfold wrote in W. destruct (fst s) as [o| |e]; try sbad. specialize (W _ eq_refl). apply pop_grows. lia.
Qed.
Lemma put_wrote out t : wrote (length out) (put out t).
Proof. intros o. unfold put. cbn [steps fst snd]. intros [= <-]. rewrite app_length. lia. Qed.
Lemma sturn_grows f stack out st a : length out + mu st <= a -> sgrows swrote a (ser_turn' I ryu f stack out st).
Proof.
  intros H. destruct f as [|b|x|n|n|n|q|m]; cbn [ser_turn'];
    try (apply (scalar_grows _ _ _ _ (length out)); [first [apply put_wrote|apply escape_str_wrote]|exact H]); apply sgrows_more.
  - pose proof (w_snext HS q st) as N. destruct (i_seq_next I q st) as [[[[d|]| |e] q'] st1]; cbn [snd] in N; try sbad.
    + apply sgrows_ok. cbn [swrote]. rewrite app_length. cbn [length]. lia.
    + apply sgrows_more. pose proof (w_qdrop HS q' st1) as K. destruct (i_seq_drop I q' st1) as [[u| |e] st2]; cbn [snd] in K; try sbad;
        (apply sgrows_more, pop_grows; rewrite !app_length; cbn [length]; lia).
  - pose proof (w_mnext HS m st) as N. destruct (i_map_next I m st) as [[[[[key d]|]| |e] m'] st1]; cbn [snd] in N; try sbad.
    + cbv zeta. apply sgrows_more. pose proof (escape_str_wrote key (out ++ [123%Z])) as W. unfold wrote in W. rewrite app_length in W.
      destruct (fst (escape_str' key (out ++ [123%Z]))) as [o1| |e]; try sbad. specialize (W _ eq_refl). apply sgrows_ok. cbn [swrote length] in *. rewrite app_length. cbn [length]. lia.
    + apply sgrows_more. pose proof (w_pdrop HS m' st1) as K. destruct (i_map_drop I m' st1) as [[u| |e] st2]; cbn [snd] in K; try sbad;
        (apply sgrows_more, pop_grows; rewrite !app_length; cbn [length]; lia).
Qed.
Lemma sloop_grows n : forall d stack out st a, length out + mu st <= a -> sgrows (@length Z) a (ser_loop' I ryu n d stack out st).
Proof.
  induction n as [|n IH]; intros d stack out st a H; cbn [ser_loop']; [sbad|]. apply sgrows_more.
  pose proof (w_begin HS d st) as B. destruct (i_begin I d st) as [[f| |e] st1]; cbn [snd] in B; try sbad. cbv zeta. apply sgrows_more.
  assert (T : sgrows swrote (a + 1) (ser_turn' I ryu f stack out st1)) by (apply sturn_grows; lia). unfold sgrows, weight in T.
  destruct (ser_turn' I ryu f stack out st1) as [[r st2] m]. cbn [fst snd] in *. destruct r as [[out'|d' stack' out']| |e]; try sbad.
  - apply sgrows_ok. cbn [swrote] in T. lia.
  - apply IH. cbn [swrote] in T. lia.
Qed.
Lemma to_string_grows n d st : weight (@length Z) (fst (to_string_impl' I ryu n d st)) <= mu st + snd (to_string_impl' I ryu n d st).
Proof. exact (sloop_grows n d [] [] st _ (Nat.le_refl _)). Qed.
End Ser.
