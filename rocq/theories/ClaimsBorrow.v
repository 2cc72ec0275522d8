(** Claims about the references whose lifetimes are extended: C62. *)
From Coq Require Import String ZArith List Bool Lia.
From Verif Require Import Base Utf8 F64 Lexer Driver Ser ParseSpec PanicSpec Utf8Facts FromStr RunFacts RunText ClaimsParse ClaimsPanic BorrowSpec BorrowFacts.
Import ListNotations.
Open Scope nat_scope.

(** Numbering the handles changes nothing. *)
Theorem C62_numbering_is_transparent_from_str {St V SH MH} (I : iface St V SH MH) oc s v st : drops_do_not_panic I ->
  exists n, from_str_impl (borrowing_de I) oc s (0, v) (st, 1, []) =
    (fst (from_str_impl I oc s v st), (snd (from_str_impl I oc s v st), n, de_borrows I oc s v st)).
Proof.
  intros HQ. destruct (de_run I HQ oc s v st) as [E _]. unfold de_borrows. rewrite E.
  destruct (from_str_impl (borrowing_de I) oc s (0, v) (st, 1, [])) as [r [[st1 n] l]]. exists n. cbn [fst snd]. destruct r; reflexivity.
Qed.
Theorem C62_numbering_is_transparent_to_string {St D SQ MP} (I : siface St D SQ MP) ryu fuel d st :
  exists n, to_string_impl (borrowing_ser I) ryu fuel (0, d) (st, 1, []) =
    (fst (to_string_impl I ryu fuel d st), (snd (to_string_impl I ryu fuel d st), n, ser_borrows I ryu fuel d st)).
Proof.
  destruct (ser_run I ryu fuel d st) as [E _]. unfold ser_borrows. rewrite E.
  destruct (to_string_impl (borrowing_ser I) ryu fuel (0, d) (st, 1, [])) as [r [[st1 n] l]]. exists n. cbn [fst snd]. destruct r; reflexivity.
Qed.

(** from_str, on any bytes, with any Visitor (methods may fail and panic, drops must not
    panic): the calls keep the borrow rules, and when from_str returns or unwinds, nothing
    but the caller's reference is left. *)
Theorem C62_from_str {St V SH MH} (I : iface St V SH MH) oc s v st : drops_do_not_panic I ->
  borrow_rules (de_borrows I oc s v st) /\
  exists open, borrows [Place 0] (de_borrows I oc s v st) = Some open /\
    (orderly (fst (from_str_impl I oc s v st)) = true -> open = [Place 0]).
Proof.
  intros HQ. destruct (de_run I HQ oc s v st) as [E P]. unfold de_borrows. rewrite E.
  destruct (from_str_impl (borrowing_de I) oc s (0, v) (st, 1, [])) as [r s1]. cbn [fst snd erase] in *.
  assert (K : stopped s1) by (destruct r as [u| |[]]; first [exact P|exact (ok_stopped _ _ _ P)]).
  destruct K as ((X & H) & m & _ & F). split; [exact (rules_hold _ _ _ H F)|]. exists X. split; [exact H|]. intros HO.
  assert (log_ok s1 [] [Place 0]) as [H2 _] by (destruct r as [u| |[]]; first [exact P|discriminate HO]). congruence.
Qed.
(** to_string, with any Serialize impls, whatever panics, drops included. *)
Theorem C62_to_string {St D SQ MP} (I : siface St D SQ MP) ryu fuel d st :
  borrow_rules (ser_borrows I ryu fuel d st) /\
  exists open, borrows [Place 0] (ser_borrows I ryu fuel d st) = Some open /\
    ((exists out, fst (to_string_impl I ryu fuel d st) = Ok out) \/ fst (to_string_impl I ryu fuel d st) = Fault FPanic -> open = [Place 0]).
Proof.
  destruct (ser_run I ryu fuel d st) as [E P]. unfold ser_borrows. rewrite E.
  destruct (to_string_impl (borrowing_ser I) ryu fuel (0, d) (st, 1, [])) as [r s1]. cbn [fst snd erase] in *.
  assert (K : stopped s1) by (destruct r as [u| |[]]; first [exact P|exact (ok_stopped _ _ _ P)]).
  destruct K as ((X & H) & m & _ & F). split; [exact (rules_hold _ _ _ H F)|]. exists X. split; [exact H|]. intros HO.
  assert (log_ok s1 [] [Place 0]) as [H2 _].
  { destruct HO as [(out & HO) | HO]; destruct r as [u| |[]]; first [exact P|discriminate HO]. }
  congruence.
Qed.
(** A Seq or Map whose drop panics breaks the rules: Deserializer::drop is left, and the
    remaining builders are dropped outermost first, each before the ones that may borrow
    from it. (The crate itself has no such drop; user code may.) *)
Theorem C62_panicking_drop_refuted :
  exists (I : iface nat unit nat nat) s, text_ok s /\
    orderly (fst (from_str_impl I true s tt 0)) = true /\
    ~ borrow_rules (de_borrows I true s tt 0).
Proof.
  exists (numbered (Some 2)), (bs "[[["). split; [text_ok|]. split; [vm_compute; reflexivity|]. intros [_ _ _ R _].
  specialize (R [BOpen 0 1] 1 2 [BOpen 2 3; BAsk 3 (Some 4); BOpen 4 5; BAsk 5 (Some 6); BDrop 5] (BDrop 1) [BDrop 3] 3).
  assert (K : In (BDrop 3) [BOpen 2 3; BAsk 3 (Some 4); BOpen 4 5; BAsk 5 (Some 6); BDrop 5]).
  { apply R; [vm_compute; reflexivity|reflexivity|left; reflexivity]. }
  cbn [In] in K. intuition discriminate.
Qed.

(** The calls for `[[1],{"a":[13,13]}]` when the visitor panics on 13. *)
Example ex_C62 :
  de_borrows (numbered None) true (bs "[[1],{""a"":[13,13]}]") tt 0 =
    [BOpen 0 1; BAsk 1 (Some 2); BOpen 2 3; BAsk 3 (Some 4); BUse 4; BAsk 3 None; BDrop 3;
     BAsk 1 (Some 5); BOpen 5 6; BAsk 6 (Some 7); BOpen 7 8; BAsk 8 (Some 9); BUse 9; BDrop 8; BDrop 6; BDrop 1].
Proof. vm_compute. reflexivity. Qed.
Example ex_C62_rules : borrow_rules (de_borrows (numbered None) true (bs "[[1],{""a"":[13,13]}]") tt 0).
Proof. apply C62_from_str. split; intros q st; discriminate. Qed.
(** Lists of lists of numbers, given by their lengths: a list shrinks as it is iterated. *)
Definition lists : siface unit nat nat nat := {|
  i_begin := fun d st => (match d with 0 => Ok (FU64 7) | S n => if n =? 4 then Fault FPanic else Ok (FSeq d) end, st);
  i_seq_next := fun q st => match q with 0 => (Ok None, 0, st) | S n => (Ok (Some n), n, st) end;
  i_map_next := fun m st => (Ok None, m, st);
  i_seq_drop := fun _ st => (Ok tt, st); i_map_drop := fun _ st => (Ok tt, st) |}.
Example ex_C62_ser :
  ser_borrows lists (fun _ => []) 20 2 tt =
    [BOpen 0 1; BAsk 1 (Some 2); BOpen 2 3; BAsk 3 (Some 4); BUse 4; BAsk 3 None; BDrop 3; BAsk 1 (Some 5); BUse 5; BAsk 1 None; BDrop 1]
  /\ fst (to_string_impl lists (fun _ => []) 20 2 tt) = Ok (bs "[[7],7]")
  /\ ser_borrows lists (fun _ => []) 20 6 tt = [BOpen 0 1; BAsk 1 (Some 2); BUse 2; BDrop 1].
Proof. repeat split; vm_compute; reflexivity. Qed.
(** What the rules exclude: a parent used while a child is alive, a stale place, a dropped builder. *)
Example ex_C62_excluded :
  borrows [Place 0] [BOpen 0 1; BAsk 1 (Some 2); BOpen 2 3; BAsk 1 (Some 4)] = None /\
  borrows [Place 0] [BOpen 0 1; BAsk 1 (Some 2); BAsk 1 (Some 3); BUse 2] = None /\
  borrows [Place 0] [BOpen 0 1; BDrop 1; BAsk 1 None] = None /\
  borrows [Place 0] [BOpen 0 1; BUse 0] = None.
Proof. repeat split; reflexivity. Qed.
