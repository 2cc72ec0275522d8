(** C39, C40: dropping and cloning json::Value. *)
From Coq Require Import String ZArith List Bool Lia Permutation Floats.SpecFloat.
From Verif Require Import Base Utf8 Utf8Facts F64 Grammar Types Impls Reading FromStr WriteFacts JsonValue
  ClaimsParse ClaimsTypes RunFacts RunText.
Import ListNotations.
Open Scope Z_scope.

(** The nodes of a value: itself and those of its children. *)
Fixpoint subvalues (v : jval) : list jval :=
  v :: match v with
       | JvArr l => flat_map subvalues l
       | JvObj l => flat_map (fun kv => subvalues (snd kv)) l
       | _ => []
       end.

(** The depth of a value: the longest path from it to one of its nodes. *)
Fixpoint jdepth (v : jval) : nat :=
  match v with
  | JvArr l => list_max (map (fun c => S (jdepth c)) l)
  | JvObj l => list_max (map (fun kv => S (jdepth (snd kv))) l)
  | _ => O
  end.

(** ** Drop *)
Definition scalar (v : jval) : Prop := match v with JvArr _ | JvObj _ => False | _ => True end.

Lemma flat_map_snd (l : list (bytes * jval)) :
  flat_map subvalues (map snd l) = flat_map (fun kv => subvalues (snd kv)) l.
Proof. induction l as [|kv l IH]; cbn; [reflexivity|]. now rewrite IH. Qed.

Lemma flat_map_rev_perm {A B} (f : A -> list B) l : Permutation (flat_map f (rev l)) (flat_map f l).
Proof. apply Permutation_flat_map. symmetry. apply Permutation_rev. Qed.

Lemma drop_scalar k fuel v tr : scalar v -> drop_value (S k) fuel v tr = Ok (tr ++ [v]).
Proof. destruct v; cbn; auto; contradiction. Qed.

Lemma safely_loop_ok glue fuel stack tr :
  (forall v tr, scalar v -> glue v tr = Ok (tr ++ [v])) ->
  (length (flat_map subvalues stack) < fuel)%nat ->
  exists l, safely_loop glue fuel stack tr = Ok (tr ++ l) /\ Permutation l (flat_map subvalues stack).
Proof.
  intros Hg. revert stack tr. induction fuel as [|f IH]; intros stack tr Hf; [lia|].
  cbn [safely_loop]. destruct stack as [|v stack].
  { exists []. rewrite app_nil_r. auto. }
  assert (Hs : scalar v -> exists l, (let* tr1 := glue v tr in safely_loop glue f stack tr1) = Ok (tr ++ l) /\
            Permutation l (v :: flat_map subvalues stack)).
  { intros Hv. rewrite Hg by assumption. cbn [bind].
    destruct (IH stack (tr ++ [v])) as (l & -> & HP).
    { cbn [flat_map] in Hf. rewrite app_length in Hf. destruct v; cbn in Hf; lia. }
    exists (v :: l). rewrite <- app_assoc. cbn [app]. auto. }
  assert (Hc : forall ch, subvalues v = v :: flat_map subvalues ch ->
    exists l, safely_loop glue f (rev ch ++ stack) (tr ++ [v]) = Ok (tr ++ l) /\
      Permutation l (subvalues v ++ flat_map subvalues stack)).
  { intros ch E. destruct (IH (rev ch ++ stack) (tr ++ [v])) as (l & -> & HP).
    { cbn [flat_map] in Hf. rewrite E, flat_map_app in *. rewrite app_length in *.
      rewrite (Permutation_length (flat_map_rev_perm subvalues ch)). cbn [length] in Hf. lia. }
    exists (v :: l). rewrite <- app_assoc. cbn [app]. split; [reflexivity|]. rewrite E. cbn [app].
    constructor. rewrite HP, flat_map_app. now rewrite (flat_map_rev_perm subvalues ch). }
  destruct v as [|b|n|s|vec|m]; cbn [flat_map]; try (apply Hs; exact I).
  - apply Hc. reflexivity.
  - apply Hc. cbn [subvalues]. f_equal. symmetry. apply flat_map_snd.
Qed.

Lemma safely_ok glue fuel v tr :
  (forall v tr, scalar v -> glue v tr = Ok (tr ++ [v])) ->
  (length (subvalues v) < fuel)%nat ->
  exists l, safely glue fuel v tr = Ok (tr ++ l) /\ Permutation l (subvalues v).
Proof.
  intros Hg Hf.
  assert (Hs : exists l, safely_loop glue fuel [v] tr = Ok (tr ++ l) /\ Permutation l (subvalues v)).
  { destruct (safely_loop_ok glue fuel [v] tr Hg) as (l & E & HP).
    - cbn [flat_map]. rewrite app_nil_r. exact Hf.
    - exists l. split; [exact E|]. cbn [flat_map] in HP. rewrite app_nil_r in HP. exact HP. }
  destruct v; cbn [safely]; try exact Hs; (rewrite Hg by exact I; eexists; split; [reflexivity|reflexivity]).
Qed.

Lemma drop_children_ok glue fuel l tr :
  (forall v tr, scalar v -> glue v tr = Ok (tr ++ [v])) ->
  (length (flat_map subvalues l) < fuel)%nat ->
  exists r, drop_children glue fuel l tr = Ok (tr ++ r) /\ Permutation r (flat_map subvalues l).
Proof.
  intros Hg. revert tr. induction l as [|v l IH]; intros tr Hf; cbn [drop_children flat_map] in *.
  - exists []. rewrite app_nil_r. auto.
  - rewrite app_length in Hf. destruct (safely_ok glue fuel v tr Hg) as (r1 & -> & P1); [lia|].
    cbn [bind]. destruct (IH (tr ++ r1)) as (r2 & -> & P2); [lia|].
    exists (r1 ++ r2). rewrite <- app_assoc. split; [reflexivity|]. now apply Permutation_app.
Qed.

(** C39. A Value that goes out of scope is released completely, every node exactly once,
    with a native stack of four frames whatever its depth; the number of iterations of the
    loops is bounded by the number of nodes. *)
Theorem C39_drop_is_complete_and_shallow k fuel v tr :
  (4 <= k)%nat -> (length (subvalues v) <= fuel)%nat ->
  exists released, drop_value k fuel v tr = Ok (tr ++ released) /\ Permutation released (subvalues v).
Proof.
  intros Hk Hf. destruct k as [|[|[|[|k]]]]; try lia.
  assert (Hg : forall v tr, scalar v -> drop_value (S k) fuel v tr = Ok (tr ++ [v])).
  { intros. apply drop_scalar. assumption. }
  assert (Hc : forall l, subvalues v = v :: flat_map subvalues l ->
     exists r, (let* tr1 := drop_children (drop_value (S k) fuel) fuel l tr in Ok (tr1 ++ [v])) = Ok (tr ++ r) /\
       Permutation r (subvalues v)).
  { intros l E. rewrite E in Hf. cbn [length] in Hf.
    destruct (drop_children_ok _ fuel l tr Hg) as (r & -> & HP); [lia|]. cbn [bind].
    exists (r ++ [v]). rewrite app_assoc. split; [reflexivity|]. rewrite E, HP.
    symmetry. apply Permutation_cons_append. }
  destruct v as [|b|n|s|l|l]; cbn [drop_value].
  1-4: eexists; split; reflexivity.
  - apply Hc. reflexivity.
  - apply Hc. cbn [subvalues]. f_equal. symmetry. apply flat_map_snd.
Qed.

(** ** Clone *)
Lemma list_max_cons a l : list_max (a :: l) = Nat.max a (list_max l).
Proof. reflexivity. Qed.

Definition clone_list (k : nat) : list jval -> res (list jval) :=
  fix go (l : list jval) : res (list jval) :=
    match l with
    | [] => Ok []
    | c :: r => let* c' := clone_value k c in let* r' := go r in Ok (c' :: r')
    end.
Definition clone_entries (k : nat) : list (bytes * jval) -> res (list (bytes * jval)) :=
  fix go (l : list (bytes * jval)) : res (list (bytes * jval)) :=
    match l with
    | [] => Ok []
    | (n, c) :: r => let* c' := clone_value k c in let* r' := go r in Ok ((n, c') :: r')
    end.

Lemma clone_list_spec k l :
  Forall (fun c => clone_value k c = if (jdepth c <? k)%nat then Ok c else Fault FDeep) l ->
  clone_list k l = if (list_max (map (fun c => S (jdepth c)) l) <? S k)%nat then Ok l else Fault FDeep.
Proof.
  induction 1 as [|c l Hc _ IHl]; [reflexivity|]. cbn [map]. rewrite list_max_cons.
  unfold clone_list. fold (clone_list k). rewrite Hc.
  destruct (Nat.ltb_spec (jdepth c) k) as [H|H]; cbn [bind].
  - rewrite IHl. destruct (Nat.ltb_spec (list_max (map (fun c => S (jdepth c)) l)) (S k));
      destruct (Nat.ltb_spec (Nat.max (S (jdepth c)) (list_max (map (fun c => S (jdepth c)) l))) (S k));
      try lia; reflexivity.
  - destruct (Nat.ltb_spec (Nat.max (S (jdepth c)) (list_max (map (fun c => S (jdepth c)) l))) (S k));
      [lia|reflexivity].
Qed.

Lemma clone_entries_spec k l :
  Forall (fun kv : bytes * jval => clone_value k (snd kv) = if (jdepth (snd kv) <? k)%nat then Ok (snd kv) else Fault FDeep) l ->
  clone_entries k l =
  if (list_max (map (fun kv => S (jdepth (snd kv))) l) <? S k)%nat then Ok l else Fault FDeep.
Proof.
  induction 1 as [|[n c] l Hc _ IHl]; [reflexivity|]. cbn [map snd] in *. rewrite list_max_cons.
  unfold clone_entries. fold (clone_entries k). rewrite Hc.
  destruct (Nat.ltb_spec (jdepth c) k) as [H|H]; cbn [bind].
  - rewrite IHl. destruct (Nat.ltb_spec (list_max (map (fun kv => S (jdepth (snd kv))) l)) (S k));
      destruct (Nat.ltb_spec (Nat.max (S (jdepth c)) (list_max (map (fun kv => S (jdepth (snd kv))) l))) (S k));
      try lia; reflexivity.
  - destruct (Nat.ltb_spec (Nat.max (S (jdepth c)) (list_max (map (fun kv => S (jdepth (snd kv))) l))) (S k));
      [lia|reflexivity].
Qed.

Lemma clone_spec v : forall k,
  clone_value k v = if (jdepth v <? k)%nat then Ok v else Fault FDeep.
Proof.
  induction v as [|b|n|s|l IH|l IH] using jval_ind'; intros [|k]; try reflexivity.
  - cbn [clone_value jdepth]. fold (clone_list k). rewrite (clone_list_spec k l).
    + destruct (_ <? S k)%nat; reflexivity.
    + eapply Forall_impl; [|exact IH]. auto.
  - cbn [clone_value jdepth]. fold (clone_entries k). rewrite (clone_entries_spec k l).
    + destruct (_ <? S k)%nat; reflexivity.
    + eapply Forall_impl; [|exact IH]. auto.
Qed.

(** C40. A clone is equal to the original. *)
Theorem C40_clone_is_equal k v v' : clone_value k v = Ok v' -> v' = v.
Proof. rewrite clone_spec. destruct (_ <? k)%nat; congruence. Qed.

(** It is made whenever the native stack has more frames than the value is deep, and
    overflows the stack otherwise. *)
Theorem C40_clone_needs_depth k v :
  (clone_value k v = Ok v <-> (jdepth v < k)%nat) /\
  (clone_value k v = Fault FDeep <-> (k <= jdepth v)%nat).
Proof.
  rewrite clone_spec. destruct (Nat.ltb_spec (jdepth v) k); split; split; intros; try lia; try discriminate; reflexivity.
Qed.

(** [[..[]..]] with n+1 brackets. *)
Fixpoint nest (n : nat) : bytes :=
  match n with O => bs "[]" | S n => bs "[" ++ nest n ++ bs "]" end.
Fixpoint nested (n : nat) : jval := match n with O => JvArr [] | S n => JvArr [nested n] end.
Fixpoint nest_doc (n : nat) : doc := match n with O => DArr [] | S n => DArr [nest_doc n] end.

Lemma nest_length n : length (nest n) = (2 * n + 2)%nat.
Proof. induction n as [|n IH]; [reflexivity|]. cbn [nest]. rewrite !app_length, IH. cbn. lia. Qed.
Lemma nest_utf8 n : Utf8 (nest n).
Proof.
  assert (H : Forall (fun c => 0 <= c < 128) (nest n)).
  { induction n as [|n IH]; [repeat constructor; lia|]. cbn [nest]. apply Forall_app. split; [repeat constructor; lia|].
    apply Forall_app. split; [exact IH|repeat constructor; lia]. }
  exists (nest n). induction H as [|c s Hc _ IH]; [split; reflexivity|]. destruct IH as [I1 I2]. split.
  - cbn [forallb]. rewrite I1, andb_true_r. unfold is_scalar.
    repeat match goal with |- context [?a <=? ?b] => destruct (Z.leb_spec a b); try lia end; try reflexivity;
    repeat match goal with |- context [?a <? ?b] => destruct (Z.ltb_spec a b); try lia end; reflexivity.
  - unfold encode_all in *. cbn [map concat]. rewrite <- I2. unfold utf8_enc.
    destruct (Z.ltb_spec c 128); [reflexivity|lia].
Qed.
Lemma nest_text n : JText (nest_doc n) (nest n).
Proof.
  exists [], (nest n), []. rewrite app_nil_r. split; [reflexivity|]. split; [constructor|]. split; [|constructor].
  induction n as [|n IH]; cbn [nest nest_doc].
  - apply (vt_arr0 []). constructor.
  - change (bs "[" ++ nest n ++ bs "]") with (91 :: nest n ++ [93]). apply vt_arr.
    rewrite <- (app_nil_r (nest n)). apply (et_one (nest_doc n) [] (nest n) []); [constructor|exact IH|constructor].
Qed.
Lemma nest_reads n : JReads (nest_doc n) (nested n).
Proof. induction n as [|n IH]; cbn [nested nest_doc]; constructor; constructor; [exact IH|constructor]. Qed.
Lemma nested_depth n : jdepth (nested n) = n.
Proof. induction n as [|n IH]; [reflexivity|]. cbn [nested jdepth map]. rewrite list_max_cons, IH. cbn. lia. Qed.

(** However large the native stack is: there is a short text that from_str reads (with one
    frame) as a Value that can be dropped (with four frames), but whose clone overflows the
    stack. *)
Theorem C40_clone_overflows_on_parsed_values k :
  exists t j, text_ok t /\ length t = (2 * k + 2)%nat /\
    from_str [] 1 true TValue t = Ok (VJson j) /\   clone_value k j = Fault FDeep /\   exists fuel tr, drop_value 4 fuel j [] = Ok tr.
Proof.
  exists (nest k), (nested k).
  assert (Ht : text_ok (nest k)).
  { split; [apply nest_utf8|]. apply runs_words; [|unfold i32_MAX; lia]. clear. unfold non_digit.
    set (P := fun c : Z => c <> 34 /\ ~ 48 <= c <= 57). assert (P 91 /\ P 93) as [P1 P2] by (unfold P; lia).
    induction k as [|k IH]; [constructor; [exact P1|constructor; [exact P2|constructor]]|]. cbn [nest]. apply Forall_app. split; [constructor; [exact P1|constructor]|].
    apply Forall_app. split; [exact IH|constructor; [exact P2|constructor]]. }
  split; [exact Ht|]. split; [apply nest_length|]. split; [|split].
  - apply C16_from_str_denotation; [exact Ht|reflexivity|reflexivity|cbn; lia|].
    exists (nest_doc k). split; [apply nest_text|]. constructor. apply nest_reads.
  - apply C40_clone_needs_depth. rewrite nested_depth. lia.
  - exists (length (subvalues (nested k))).
    destruct (C39_drop_is_complete_and_shallow 4 (length (subvalues (nested k))) (nested k) []) as (l & -> & _); [lia|lia|].
    eexists. reflexivity.
Qed.

(** ** Examples *)
Definition ex_json : jval :=
  JvObj [(bs "a", JvArr [JvNull; JvArr [JvStr (bs "x")]]); (bs "b", JvObj [])].
Example ex_C39 :
  drop_value 4 6 ex_json [] =
  Ok [JvArr [JvNull; JvArr [JvStr (bs "x")]]; JvArr [JvStr (bs "x")]; JvStr (bs "x"); JvNull; JvObj []; ex_json] /\
  drop_value 3 6 ex_json [] = Fault FDeep /\
  drop_value 4 2 ex_json [] = Fault FFuel.
Proof. vm_compute. auto. Qed.
Example ex_C40 : clone_value 4 ex_json = Ok ex_json /\ clone_value 3 ex_json = Fault FDeep /\ jdepth ex_json = 3%nat.
Proof. vm_compute. auto. Qed.
