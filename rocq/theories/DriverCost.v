(** What parsing and printing cost: the driver of src/json/de.rs (Driver.v) and the
    serializer of src/json/ser.rs (Ser.v) again, each returning in addition the number of
    steps taken. A step is a step of the lexer (LexCost.v), one call of a method of the
    Visitor, Seq, Map or Serialize traits or of the drop glue of a boxed Seq or Map (what
    the callee does is its own business), one byte of a string examined by escape_str, or
    one byte appended to the output. Pushing on and popping from `stack` happens at most
    once per such call. *)
From Coq Require Import String ZArith List Bool Floats.SpecFloat.
From Verif Require Import Base Utf8 F64 Lexer LexCost Driver Types Ser.
Import ListNotations.
Open Scope Z_scope.

Section Driver.
Context {St V SH MH : Type}.
Variable I : iface St V SH MH.
Variable oc : bool.
Variable inp : bytes.

(** An outcome with the state of the user's world, and the steps taken. *)
Definition run (A : Type) : Type := res A * St * nat.
(** [n] more steps. *)
Definition more {A} (n : nat) (r : run A) : run A := (fst r, (n + snd r)%nat).
(** One call. *)
Definition call {A} (r : res A * St) : run A := (r, 1%nat).

(** json/de.rs:51-58 while a panic unwinds. *)
Fixpoint unwind' {A} (ls : list (layer SH MH)) (st : St) : run A :=
  match ls with
  | [] => (Fault FPanic, st, 0%nat)
  | l :: ls' =>
      more 1
        match drop_layer I l st with
        | (Fault FPanic, st') => (Fault FAbort, st', 0%nat)
        | (Fault f, st') => (Fault f, st', 0%nat)
        | (_, st') => unwind' ls' st'
        end
  end.
Definition on_fault' {A} (f : fault) (ls : list (layer SH MH)) (st : St) : run A :=
  match f with FPanic => unwind' ls st | _ => (Fault f, st, 0%nat) end.

(** json/de.rs:51-58. *)
Fixpoint fail' {A} (ls : list (layer SH MH)) (st : St) : run A :=
  match ls with
  | [] => (Err, st, 0%nat)
  | l :: ls' =>
      more 1
        match drop_layer I l st with
        | (Fault f, st') => on_fault' f (rev ls') st'
        | (_, st') => fail' ls' st'
        end
  end.
Definition fail_in' {A} (l : layer SH MH) (ls : list (layer SH MH)) (st : St) : run A :=
  more 1
    match drop_layer I l st with
    | (Fault f, st') => on_fault' f ls st'
    | (_, st') => fail' ls st'
    end.

(** The inner loop, json/de.rs:123-152. *)
Fixpoint inner' (fuel : nat) (d : lex) (accept_comma : bool) (visitor : V) (l : layer SH MH)
    (stack : list (V * layer SH MH)) (st : St) : run (inner_out) :=
  match fuel with
  | O => (Fault FFuel, st, 0%nat)
  | S f =>
      let w := parse_whitespace' inp d in
      more (snd w)
      match fst w with
      | Fault e => on_fault' e (l :: map snd stack) st
      | Err => fail_in' l (map snd stack) st
      | Ok (o, d1) =>
          let c := match o with Some c => c | None => 0 end in
          if (c =? 44) && accept_comma then (Ok (IBreak (bump d1) visitor l stack), st, 0%nat)
          else if (c =? 93) || (c =? 125) then
            let d2 := bump d1 in
            more 1
            match close_layer I c l st with
            | (Fault e, st1) => on_fault' e (l :: map snd stack) st1
            | (Err, st1) => fail_in' l (map snd stack) st1
            | (Ok _, st1) =>
                more 1
                match drop_layer I l st1 with
                | (Fault e, st2) => on_fault' e (map snd stack) st2
                | (_, st2) =>
                    match stack with
                    | [] => (Ok (IOuter d2), st2, 0%nat)
                    | (v', l') :: stack' => inner' f d2 true v' l' stack' st2
                    end
                end
            end
          else if accept_comma then fail_in' l (map snd stack) st
          else (Ok (IBreak d1 visitor l stack), st, 0%nat)
      end
  end.

(** json/de.rs:154-177. *)
Definition open_item' (d : lex) (outer : V) (l : layer SH MH) (stack : list (V * layer SH MH))
    (st : St) : run (lex * V * list (V * layer SH MH)) :=
  match l with
  | LSeq s =>
      more 1
      match s_element I s st with
      | (Fault e, st1) => on_fault' e (l :: map snd stack) st1
      | (Err, st1) => fail_in' l (map snd stack) st1
      | (Ok v, st1) => (Ok (d, v, (outer, l) :: stack), st1, 0%nat)
      end
  | LMap m =>
      let w := parse_whitespace' inp d in
      more (snd w)
      match fst w with
      | Fault e => on_fault' e (l :: map snd stack) st
      | Err => fail_in' l (map snd stack) st
      | Ok (o, d1) =>
          if match o with Some c => c =? 34 | None => false end then
            let k := parse_str' oc inp (bump d1) in
            more (snd k)
            match fst k with
            | Fault e => on_fault' e (l :: map snd stack) st
            | Err => fail_in' l (map snd stack) st
            | Ok (key, d2) =>
                more 1
                match m_key I m key st with
                | (Fault e, st1) => on_fault' e (l :: map snd stack) st1
                | (Err, st1) => fail_in' l (map snd stack) st1
                | (Ok v, st1) =>
                    let w2 := parse_whitespace' inp d2 in
                    more (snd w2)
                    match fst w2 with
                    | Fault e => on_fault' e (l :: map snd stack) st1
                    | Err => fail_in' l (map snd stack) st1
                    | Ok (o2, d3) =>
                        if match o2 with Some c => c =? 58 | None => false end then
                          (Ok (bump d3, v, (outer, l) :: stack), st1, 0%nat)
                        else fail_in' l (map snd stack) st1
                    end
                end
            end
          else fail_in' l (map snd stack) st
      end
  end.

(** json/de.rs:123-177. *)
Definition after_value' (d : lex) (accept_comma : bool) (v : V) (l : layer SH MH)
    (stack : list (V * layer SH MH)) (st : St) : run turn_out :=
  let r := inner' (S (len inp)) d accept_comma v l stack st in
  more (snd r)
  match fst r with
  | (Fault e, st1) => (Fault e, st1, 0%nat)
  | (Err, st1) => (Err, st1, 0%nat)
  | (Ok (IOuter d1), st1) => (Ok (TEnd d1), st1, 0%nat)
  | (Ok (IBreak d1 v1 l1 stack1), st1) =>
      let r2 := open_item' d1 v1 l1 stack1 st1 in
      more (snd r2)
      match fst r2 with
      | (Fault e, st2) => (Fault e, st2, 0%nat)
      | (Err, st2) => (Err, st2, 0%nat)
      | (Ok (d2, v2, stack2), st2) => (Ok (TNext d2 v2 stack2), st2, 0%nat)
      end
  end.

(** One iteration of 'outer, json/de.rs:70-178. *)
Definition turn' (d : lex) (v : V) (stack : list (V * layer SH MH)) (st : St) : run turn_out :=
  let e := event_next' oc inp d in
  more (snd e)
  match fst e with
  | Fault e => on_fault' e (map snd stack) st
  | Err => fail' (map snd stack) st
  | Ok (ev, d1) =>
      more 1
      match dispatch I v ev st with
      | (Fault e, st1) => on_fault' e (map snd stack) st1
      | (Err, st1) => fail' (map snd stack) st1
      | (Ok (Some l), st1) => after_value' d1 false v l stack st1
      | (Ok None, st1) =>
          match stack with
          | [] => (Ok (TEnd d1), st1, 0%nat)
          | (v', l') :: stack' => after_value' d1 true v' l' stack' st1
          end
      end
  end.

(** json/de.rs:70-183. *)
Fixpoint outer_loop' (fuel : nat) (d : lex) (v : V) (stack : list (V * layer SH MH)) (st : St)
  : run unit :=
  match fuel with
  | O => (Fault FFuel, st, 0%nat)
  | S f =>
      let r := turn' d v stack st in
      more (snd r)
      match fst r with
      | (Fault e, st1) => (Fault e, st1, 0%nat)
      | (Err, st1) => (Err, st1, 0%nat)
      | (Ok (TEnd d1), st1) => (end_of_doc inp d1, st1, snd (parse_whitespace' inp d1))
      | (Ok (TNext d1 v1 stack1), st1) => outer_loop' f d1 v1 stack1 st1
      end
  end.

(** json/de.rs:60-184. *)
Definition from_str_impl' (v : V) (st : St) : run unit :=
  outer_loop' (S (len inp)) (mklex 0 []) v [] st.

End Driver.

(** ** The serializer *)

(** json/ser.rs:144-172: one step per byte of the value, one per byte written. *)
Fixpoint escape_loop' (value rest : bytes) (i start : nat) (out : bytes) : counted (nat * bytes) :=
  match rest with
  | [] => steps 0 (Ok (start, out))
  | byte :: rest' =>
      let+ escape := steps 1 (idx SER_ESCAPE (Z.to_nat byte)) in
      if escape =? 0 then escape_loop' value rest' (S i) start out
      else
        let+ out1 :=
          if Nat.ltb start i then let+ s := steps 0 (str_slice value start i) in steps (List.length s) (Ok (out ++ s))
          else steps 0 (Ok out) in
        let+ e := steps 0 (escape_text escape byte) in
        let+ out2 := steps (List.length e) (Ok (out1 ++ e)) in
        escape_loop' value rest' (S i) (S i) out2
  end.

(** json/ser.rs:138-179. *)
Definition escape_str' (value out : bytes) : counted bytes :=
  let+ out0 := steps 1 (Ok (out ++ [34])) in
  let+ (start, out1) := escape_loop' value value 0 0 out0 in
  let+ out2 :=
    if Nat.eqb start (List.length value) then steps 0 (Ok out1)
    else let+ s := steps 0 (str_slice value start (List.length value)) in steps (List.length s) (Ok (out1 ++ s)) in
  steps 1 (Ok (out2 ++ [34])).

Section Serializer.
Context {St D SQ MP : Type}.
Variable I : siface St D SQ MP.
Variable ryu : f64 -> bytes.

(** json/ser.rs:44-51. *)
Fixpoint sunwind' {A} (ls : list (@slayer SQ MP)) (st : St) : res A * St * nat :=
  match ls with
  | [] => (Fault FPanic, st, 0%nat)
  | l :: ls' =>
      more 1
      match sdrop I l st with
      | (Fault FPanic, st') => (Fault FAbort, st', 0%nat)
      | (Fault f, st') => (Fault f, st', 0%nat)
      | (_, st') => sunwind' ls' st'
      end
  end.
Definition son_fault' {A} (f : fault) (ls : list slayer) (st : St) : res A * St * nat :=
  match f with FPanic => sunwind' ls st | _ => (Fault f, st, 0%nat) end.

(** json/ser.rs:101-132. *)
Fixpoint ser_pop' (stack : list slayer) (out : bytes) (st : St) : res (@sstep D SQ MP) * St * nat :=
  match stack with
  | [] => (Ok (SReturn out), st, 0%nat)
  | SLSeq q :: stack' =>
      more 1
      match i_seq_next I q st with
      | (Ok (Some d), q', st1) => (Ok (SBegin d (SLSeq q' :: stack') (out ++ [44])), st1, 1%nat)
      | (Ok None, q', st1) =>
          more 1
          match i_seq_drop I q' st1 with
          | (Fault f, st2) => son_fault' f stack' st2
          | (_, st2) => more 1 (ser_pop' stack' (out ++ [93]) st2)
          end
      | (Err, q', st1) => (Err, st1, 0%nat)
      | (Fault f, q', st1) => son_fault' f (SLSeq q' :: stack') st1
      end
  | SLMap m :: stack' =>
      more 1
      match i_map_next I m st with
      | (Ok (Some (key, d)), m', st1) =>
          let e := escape_str' key (out ++ [44]) in
          more (1 + snd e)
          match fst e with
          | Ok out1 => (Ok (SBegin d (SLMap m' :: stack') (out1 ++ [58])), st1, 1%nat)
          | Err => (Err, st1, 0%nat)
          | Fault f => son_fault' f (SLMap m' :: stack') st1
          end
      | (Ok None, m', st1) =>
          more 1
          match i_map_drop I m' st1 with
          | (Fault f, st2) => son_fault' f stack' st2
          | (_, st2) => more 1 (ser_pop' stack' (out ++ [125]) st2)
          end
      | (Err, m', st1) => (Err, st1, 0%nat)
      | (Fault f, m', st1) => son_fault' f (SLMap m' :: stack') st1
      end
  end.

Definition ser_scalar' (s : counted bytes) (stack : list slayer) (st : St)
  : res (@sstep D SQ MP) * St * nat :=
  more (snd s)
  match fst s with
  | Ok out => ser_pop' stack out st
  | Err => (Err, st, 0%nat)
  | Fault f => son_fault' f stack st
  end.

(** Appending [s] to the output. *)
Definition put (out s : bytes) : counted bytes := steps (List.length s) (Ok (out ++ s)).

(** json/ser.rs:59-132. *)
Definition ser_turn' (f : fragment SQ MP) (stack : list slayer) (out : bytes) (st : St)
  : res (@sstep D SQ MP) * St * nat :=
  match f with
  | FNull => ser_scalar' (put out (bs "null")) stack st
  | FBool b => ser_scalar' (put out (bs (if b then "true" else "false"))) stack st
  | FStr s => ser_scalar' (escape_str' s out) stack st
  | FU64 n => ser_scalar' (put out (itoa n)) stack st
  | FI64 n => ser_scalar' (put out (itoa n)) stack st
  | FF64 n => ser_scalar' (put out (if f_is_finite n then ryu n else bs "null")) stack st
  | FSeq q =>
      more 2
      match i_seq_next I q st with
      | (Ok (Some d), q', st1) => (Ok (SBegin d (SLSeq q' :: stack) (out ++ [91])), st1, 0%nat)
      | (Ok None, q', st1) =>
          more 1
          match i_seq_drop I q' st1 with
          | (Fault f, st2) => son_fault' f stack st2
          | (_, st2) => more 1 (ser_pop' stack (out ++ [91] ++ [93]) st2)
          end
      | (Err, q', st1) => (Err, st1, 0%nat)
      | (Fault e, q', st1) => son_fault' e (SLSeq q' :: stack) st1
      end
  | FMap m =>
      more 2
      match i_map_next I m st with
      | (Ok (Some (key, d)), m', st1) =>
          let e := escape_str' key (out ++ [123]) in
          more (snd e)
          match fst e with
          | Ok out1 => (Ok (SBegin d (SLMap m' :: stack) (out1 ++ [58])), st1, 1%nat)
          | Err => (Err, st1, 0%nat)
          | Fault f => son_fault' f (SLMap m' :: stack) st1
          end
      | (Ok None, m', st1) =>
          more 1
          match i_map_drop I m' st1 with
          | (Fault f, st2) => son_fault' f stack st2
          | (_, st2) => more 1 (ser_pop' stack (out ++ [123] ++ [125]) st2)
          end
      | (Err, m', st1) => (Err, st1, 0%nat)
      | (Fault e, m', st1) => son_fault' e (SLMap m' :: stack) st1
      end
  end.

(** json/ser.rs:53-134. *)
Fixpoint ser_loop' (fuel : nat) (d : D) (stack : list slayer) (out : bytes) (st : St)
  : res bytes * St * nat :=
  match fuel with
  | O => (Fault FFuel, st, 0%nat)
  | S n =>
      more 1
      match i_begin I d st with
      | (Ok f, st1) =>
          let r := ser_turn' f stack out st1 in
          more (snd r)
          match fst r with
          | (Ok (SReturn out'), st2) => (Ok out', st2, 0%nat)
          | (Ok (SBegin d' stack' out'), st2) => ser_loop' n d' stack' out' st2
          | (Err, st2) => (Err, st2, 0%nat)
          | (Fault e, st2) => (Fault e, st2, 0%nat)
          end
      | (Err, st1) => (Err, st1, 0%nat)
      | (Fault e, st1) => son_fault' e stack st1
      end
  end.

Definition to_string_impl' (fuel : nat) (d : D) (st : St) : res bytes * St * nat :=
  ser_loop' fuel d [] [] st.

End Serializer.
