(** The driver loop of src/json/de.rs, for arbitrary Visitor/Seq/Map implementations.

    An implementation of the three traits (src/de/mod.rs:233-286) is a record of
    methods over an arbitrary state [St] (everything the methods can read or
    write) and arbitrary handle types: [V] for `&mut dyn Visitor`, [SH] for
    `Box<dyn Seq>`, [MH] for `Box<dyn Map>`. The [_drop] methods are the drop glue
    of the boxed Seq/Map. A method returns its result together with the new
    state, also when it fails. A method that panics returns [Fault FPanic]; the panic
    then unwinds through the driver. *)
From Coq Require Import ZArith List Bool Floats.SpecFloat.
From Verif Require Import Base F64 Lexer.
Import ListNotations.
Open Scope Z_scope.

(** src/de/mod.rs:233-286. *)
Record iface (St V SH MH : Type) := mk_iface {
  v_null : V -> St -> res unit * St;
  v_bool : V -> bool -> St -> res unit * St;
  v_str : V -> bytes -> St -> res unit * St;
  v_neg : V -> Z -> St -> res unit * St;
  v_nonneg : V -> Z -> St -> res unit * St;
  v_float : V -> f64 -> St -> res unit * St;
  v_seq : V -> St -> res SH * St;
  v_map : V -> St -> res MH * St;
  s_element : SH -> St -> res V * St;
  s_finish : SH -> St -> res unit * St;
  s_drop : SH -> St -> res unit * St;
  m_key : MH -> bytes -> St -> res V * St;
  m_finish : MH -> St -> res unit * St;
  m_drop : MH -> St -> res unit * St
}.
Arguments v_null {St V SH MH}. Arguments v_bool {St V SH MH}. Arguments v_str {St V SH MH}.
Arguments v_neg {St V SH MH}. Arguments v_nonneg {St V SH MH}. Arguments v_float {St V SH MH}.
Arguments v_seq {St V SH MH}. Arguments v_map {St V SH MH}.
Arguments s_element {St V SH MH}. Arguments s_finish {St V SH MH}. Arguments s_drop {St V SH MH}.
Arguments m_key {St V SH MH}. Arguments m_finish {St V SH MH}. Arguments m_drop {St V SH MH}.

(** enum Layer, json/de.rs:46-49. *)
Inductive layer (SH MH : Type) := LSeq (s : SH) | LMap (m : MH).
Arguments LSeq {SH MH} s.
Arguments LMap {SH MH} m.

Section Driver.
Context {St V SH MH : Type}.
Variable I : iface St V SH MH.
Variable oc : bool.
Variable inp : bytes.

(** Drop glue of a Layer. *)
Definition drop_layer (l : layer SH MH) (st : St) : res unit * St :=
  match l with LSeq s => s_drop I s st | LMap m => m_drop I m st end.

(** A panic unwinds: open layers are dropped in the given order. A second panic while
    unwinding aborts the process. Faults other than panics (undefined behaviour, stack
    overflow) do not unwind. *)
Fixpoint unwind {A} (ls : list (layer SH MH)) (st : St) : res A * St :=
  match ls with
  | [] => (Fault FPanic, st)
  | l :: ls' =>
      match drop_layer l st with
      | (Fault FPanic, st') => (Fault FAbort, st')
      | (Fault f, st') => (Fault f, st')
      | (_, st') => unwind ls' st'
      end
  end.
Definition on_fault {A} (f : fault) (ls : list (layer SH MH)) (st : St) : res A * St :=
  match f with FPanic => unwind ls st | _ => (Fault f, st) end.

(** Deserializer::drop, json/de.rs:51-58, when from_str_impl returns an error: the layers
    are popped one by one, the innermost first. If dropping one of them panics, this loop
    is left, and the drop glue of the field `stack` drops the remaining ones in the order
    of the Vec: the outermost first. *)
Fixpoint fail {A} (ls : list (layer SH MH)) (st : St) : res A * St :=
  match ls with
  | [] => (Err, st)
  | l :: ls' =>
      match drop_layer l st with
      | (Fault f, st') => on_fault f (rev ls') st'
      | (_, st') => fail ls' st'
      end
  end.
(** The same while the local variable `layer` (or `seq`, `map`) holds a layer: it is
    dropped first. If that panics, Deserializer::drop runs while unwinding. *)
Definition fail_in {A} (l : layer SH MH) (ls : list (layer SH MH)) (st : St) : res A * St :=
  match drop_layer l st with
  | (Fault f, st') => on_fault f ls st'
  | (_, st') => fail ls st'
  end.

(** The match on de.event()?, json/de.rs:72-105: calls the visitor, returns the
    layer that was opened, if any. *)
Definition dispatch (v : V) (ev : event) (st : St) : res (option (layer SH MH)) * St :=
  let prim (r : res unit * St) : res (option (layer SH MH)) * St :=
    (let* _ := fst r in Ok None, snd r) in
  match ev with
  | ENull => prim (v_null I v st)
  | EBool b => prim (v_bool I v b st)
  | ENeg n => prim (v_neg I v n st)
  | ENonneg n => prim (v_nonneg I v n st)
  | EFloat n => prim (v_float I v n st)
  | EStr s => prim (v_str I v s st)
  | ESeqStart => let r := v_seq I v st in (let* s := fst r in Ok (Some (LSeq s)), snd r)
  | EMapStart => let r := v_map I v st in (let* m := fst r in Ok (Some (LMap m)), snd r)
  end.

(** How the inner loop ends: `break` with a current visitor, layer and stack, or
    `break 'outer`. *)
Inductive inner_out :=
| IBreak (d : lex) (visitor : V) (l : layer SH MH) (stack : list (V * layer SH MH))
| IOuter (d : lex).

(** match &mut layer { .. finish .. }, json/de.rs:131-135. *)
Definition close_layer (close : byte) (l : layer SH MH) (st : St) : res unit * St :=
  match l with
  | LSeq s => if close =? 93 then s_finish I s st else (Err, st)
  | LMap m => if close =? 125 then m_finish I m st else (Err, st)
  end.

(** The inner loop, json/de.rs:123-152. The closed layer is dropped by the
    assignment `layer = frame.1` (which also takes place if that drop panics), or when `layer` goes out of scope at
    `break 'outer`. *)
Fixpoint inner (fuel : nat) (d : lex) (accept_comma : bool) (visitor : V) (l : layer SH MH)
    (stack : list (V * layer SH MH)) (st : St) : res inner_out * St :=
  match fuel with
  | O => (Fault FFuel, st)
  | S f =>
      match parse_whitespace inp d with
      | Fault e => on_fault e (l :: map snd stack) st
      | Err => fail_in l (map snd stack) st
      | Ok (o, d1) =>
          let c := match o with Some c => c | None => 0 end in
          if (c =? 44) && accept_comma then (Ok (IBreak (bump d1) visitor l stack), st)
          else if (c =? 93) || (c =? 125) then
            let d2 := bump d1 in
            match close_layer c l st with
            | (Fault e, st1) => on_fault e (l :: map snd stack) st1
            | (Err, st1) => fail_in l (map snd stack) st1
            | (Ok _, st1) =>
                match drop_layer l st1 with
                | (Fault e, st2) => on_fault e (map snd stack) st2
                | (_, st2) =>
                    match stack with
                    | [] => (Ok (IOuter d2), st2)
                    | (v', l') :: stack' => inner f d2 true v' l' stack' st2
                    end
                end
            end
          else if accept_comma then fail_in l (map snd stack) st
          else (Ok (IBreak d1 visitor l stack), st)
      end
  end.

(** Asking the current layer for the next place, json/de.rs:154-177. *)
Definition open_item (d : lex) (outer : V) (l : layer SH MH) (stack : list (V * layer SH MH))
    (st : St) : res (lex * V * list (V * layer SH MH)) * St :=
  match l with
  | LSeq s =>
      match s_element I s st with
      | (Fault e, st1) => on_fault e (l :: map snd stack) st1
      | (Err, st1) => fail_in l (map snd stack) st1
      | (Ok v, st1) => (Ok (d, v, (outer, l) :: stack), st1)
      end
  | LMap m =>
      match parse_whitespace inp d with
      | Fault e => on_fault e (l :: map snd stack) st
      | Err => fail_in l (map snd stack) st
      | Ok (o, d1) =>
          if match o with Some c => c =? 34 | None => false end then
            match parse_str oc inp (bump d1) with
            | Fault e => on_fault e (l :: map snd stack) st
            | Err => fail_in l (map snd stack) st
            | Ok (key, d2) =>
                match m_key I m key st with
                | (Fault e, st1) => on_fault e (l :: map snd stack) st1
                | (Err, st1) => fail_in l (map snd stack) st1
                | (Ok v, st1) =>
                    match parse_whitespace inp d2 with
                    | Fault e => on_fault e (l :: map snd stack) st1
                    | Err => fail_in l (map snd stack) st1
                    | Ok (o2, d3) =>
                        if match o2 with Some c => c =? 58 | None => false end then
                          (Ok (bump d3, v, (outer, l) :: stack), st1)
                        else fail_in l (map snd stack) st1
                    end
                end
            end
          else fail_in l (map snd stack) st
      end
  end.

Inductive turn_out :=
| TNext (d : lex) (v : V) (stack : list (V * layer SH MH))
| TEnd (d : lex).

(** From the choice of the current layer to the end of the loop body, json/de.rs:123-177. *)
Definition after_value (d : lex) (accept_comma : bool) (v : V) (l : layer SH MH)
    (stack : list (V * layer SH MH)) (st : St) : res turn_out * St :=
  match inner (S (len inp)) d accept_comma v l stack st with
  | (Fault e, st1) => (Fault e, st1)
  | (Err, st1) => (Err, st1)
  | (Ok (IOuter d1), st1) => (Ok (TEnd d1), st1)
  | (Ok (IBreak d1 v1 l1 stack1), st1) =>
      match open_item d1 v1 l1 stack1 st1 with
      | (Fault e, st2) => (Fault e, st2)
      | (Err, st2) => (Err, st2)
      | (Ok (d2, v2, stack2), st2) => (Ok (TNext d2 v2 stack2), st2)
      end
  end.

(** One iteration of 'outer, json/de.rs:70-178. *)
Definition turn (d : lex) (v : V) (stack : list (V * layer SH MH)) (st : St)
  : res turn_out * St :=
  match event_next oc inp d with
  | Fault e => on_fault e (map snd stack) st
  | Err => fail (map snd stack) st
  | Ok (ev, d1) =>
      match dispatch v ev st with
      | (Fault e, st1) => on_fault e (map snd stack) st1
      | (Err, st1) => fail (map snd stack) st1
      | (Ok (Some l), st1) => after_value d1 false v l stack st1
      | (Ok None, st1) =>
          match stack with
          | [] => (Ok (TEnd d1), st1)
          | (v', l') :: stack' => after_value d1 true v' l' stack' st1
          end
      end
  end.

(** json/de.rs:180-183. *)
Definition end_of_doc (d : lex) : res unit :=
  let* (o, _) := parse_whitespace inp d in
  match o with Some _ => Err | None => Ok tt end.

(** 'outer: loop, json/de.rs:70-183. *)
Fixpoint outer_loop (fuel : nat) (d : lex) (v : V) (stack : list (V * layer SH MH)) (st : St)
  : res unit * St :=
  match fuel with
  | O => (Fault FFuel, st)
  | S f =>
      match turn d v stack st with
      | (Fault e, st1) => (Fault e, st1)
      | (Err, st1) => (Err, st1)
      | (Ok (TEnd d1), st1) => (end_of_doc d1, st1)
      | (Ok (TNext d1 v1 stack1), st1) => outer_loop f d1 v1 stack1 st1
      end
  end.

(** json/de.rs:60-184. The iteration budget is one more than the input length. *)
Definition from_str_impl (v : V) (st : St) : res unit * St :=
  outer_loop (S (len inp)) (mklex 0 []) v [] st.

End Driver.
