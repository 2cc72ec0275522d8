(** C63: from_str and to_string take time linear in the text read or written. *)
From Coq Require Import String ZArith List Bool Lia Floats.SpecFloat.
From Verif Require Import Base Utf8 F64 Lexer LexCost LexCostFacts Driver Types Impls Ser DriverCost DriverCostFacts CostLower CostCalls
  ParseSpec ClaimsParse SerSpec ClaimsSerPanic.
Import ListNotations.
Open Scope nat_scope.

(** [from_str_impl'] and [to_string_impl'] count the steps defined at the top of LexCost.v and
    DriverCost.v; what they compute is unchanged. *)
Notation parse_steps I oc s v st := (snd (from_str_impl' I oc s v st)).
Notation print_steps I ryu fuel d st := (snd (to_string_impl' I ryu fuel d st)).

Theorem C63_counting_does_not_disturb_parsing {St V SH MH} (I : iface St V SH MH) oc s v st :
  fst (from_str_impl' I oc s v st) = from_str_impl I oc s v st.
Proof. apply from_str_erase. Qed.
Theorem C63_counting_does_not_disturb_printing {St D SQ MP} (I : siface St D SQ MP) ryu fuel d st :
  fst (to_string_impl' I ryu fuel d st) = to_string_impl I ryu fuel d st.
Proof. apply to_string_erase. Qed.

(** ** Upper bounds *)
(** Whatever the text (valid or not), the visitors, and the outcome. *)
Theorem C63_parsing_is_linear {St V SH MH} (I : iface St V SH MH) oc s v st :
  parse_steps I oc s v st <= 45 * List.length s + 33.
Proof. apply from_str_cost. Qed.
(** The calls are counted: no visitor makes from_str call it more often. *)
Theorem C63_calls_are_linear {St V SH MH} (I : iface St V SH MH) oc s v st :
  List.length (snd (snd (from_str_impl (logged I) oc s v (st, [])))) <= 45 * List.length s + 33.
Proof.
  rewrite <- from_str_erase. etransitivity; [apply (from_str_grows _ oc s (fun st => length (snd st)) (logged_slow I))|]. cbn [snd length]. apply from_str_cost.
Qed.
Theorem C63_printing_is_linear {St D SQ MP} (I : siface St D SQ MP) ryu fuel d st s st' :
  (forall f, f_is_finite f = true -> ryu f <> []) ->
  to_string_impl I ryu fuel d st = (Ok s, st') -> print_steps I ryu fuel d st <= 3 * List.length s.
Proof. intros HR H. apply to_string_cost; [exact HR|]. rewrite to_string_erase, H. reflexivity. Qed.

(** ** The counts are not too small *)
(** To accept a text takes at least one step per byte of it. *)
Theorem C63_every_byte_takes_a_step {St V SH MH} (I : iface St V SH MH) oc s v st st' :
  from_str_impl I oc s v st = (Ok tt, st') -> List.length s <= parse_steps I oc s v st.
Proof. intros H. apply from_str_lower. rewrite from_str_erase, H. reflexivity. Qed.
(** Every call is a step (the logging visitor makes from_str take the same steps). *)
Theorem C63_every_call_is_a_step {St V SH MH} (I : iface St V SH MH) oc s v st :
  List.length (snd (snd (from_str_impl (logged I) oc s v (st, [])))) <= parse_steps (logged I) oc s v (st, []).
Proof.
  rewrite <- from_str_erase. etransitivity; [apply (from_str_grows _ oc s (fun st => length (snd st)) (logged_slow I))|]. cbn [snd length]. lia.
Qed.

(** A Serialize implementation that counts the calls made to it. *)
Definition tallied {St D SQ MP} (I : siface St D SQ MP) : siface (St * nat) D SQ MP := {|
  i_begin := fun d st => let r := i_begin I d (fst st) in (fst r, (snd r, S (snd st)));
  i_seq_next := fun q st => let r := i_seq_next I q (fst st) in (fst r, (snd r, S (snd st)));
  i_map_next := fun m st => let r := i_map_next I m (fst st) in (fst r, (snd r, S (snd st)));
  i_seq_drop := fun q st => let r := i_seq_drop I q (fst st) in (fst r, (snd r, S (snd st)));
  i_map_drop := fun m st => let r := i_map_drop I m (fst st) in (fst r, (snd r, S (snd st))) |}.
Lemma tallied_slow {St D SQ MP} (I : siface St D SQ MP) : sslow (tallied I) snd.
Proof. constructor; intros; cbn; lia. Qed.
(** Every byte of the output and every call is a step. *)
Theorem C63_every_byte_written_and_every_call_is_a_step {St D SQ MP} (I : siface St D SQ MP) ryu fuel d st s st' calls :
  to_string_impl (tallied I) ryu fuel d (st, 0) = (Ok s, (st', calls)) ->
  List.length s + calls <= print_steps (tallied I) ryu fuel d (st, 0).
Proof.
  intros H. pose proof (to_string_grows (tallied I) ryu snd (tallied_slow I) fuel d (st, 0)) as G. rewrite to_string_erase, H in G. exact G.
Qed.
(** So to_string makes fewer than two calls per byte it returns. *)
Theorem C63_print_calls_are_linear {St D SQ MP} (I : siface St D SQ MP) ryu fuel d st s st' calls :
  (forall f, f_is_finite f = true -> ryu f <> []) ->
  to_string_impl (tallied I) ryu fuel d (st, 0) = (Ok s, (st', calls)) -> calls <= 2 * List.length s.
Proof.
  intros HR H. pose proof (C63_every_byte_written_and_every_call_is_a_step I ryu fuel d st s st' calls H). pose proof (C63_printing_is_linear (tallied I) ryu fuel d (st, 0) s _ HR H). lia.
Qed.

(** ** Examples *)
Example ex_C63_parse : parse_steps sum_iface true (bs "{""x"":[10,20,{""y"":12}]}") tt (0%Z, 0%Z) = 51 /\
  List.length (bs "{""x"":[10,20,{""y"":12}]}") = 22.
Proof. vm_compute. split; reflexivity. Qed.
(** An error inside two open builders. *)
Example ex_C63_error : parse_steps sum_iface true (bs "[[1,]") tt (0%Z, 0%Z) = 17 /\
  fst (from_str_impl sum_iface true (bs "[[1,]") tt (0%Z, 0%Z)) = Err.
Proof. vm_compute. split; reflexivity. Qed.
(** The loop of f64_from_parts stops when nothing is left of the number: three iterations, not
    ten, for 1e-3000. *)
Example ex_C63_float : iterations (Z.to_pos (3000 / 308 + 2)) f64_parts_step (f64_of_Z 1, (-3000)%Z) = 3 /\
  parse_steps sum_iface true (bs "1e-3000") tt (0%Z, 0%Z) = 14.
Proof. vm_compute. split; reflexivity. Qed.
Example ex_C63_print : to_string_impl (trees 99) (fun _ => bs "0.0") 20 (ex_tree 7) 0 = (Ok (bs "[1,[],{""a"":[7,2]},3]"), 4) /\
  print_steps (trees 99) (fun _ => bs "0.0") 20 (ex_tree 7) 0 = 44.
Proof. vm_compute. split; reflexivity. Qed.
