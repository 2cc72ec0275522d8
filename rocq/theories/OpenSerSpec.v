(** C57: specification. *)
From Coq Require Import ZArith List Bool.
From Verif Require Import Base Utf8 F64 Lexer Types Ser SerSpec OpenSer.
Import ListNotations.
Open Scope Z_scope.

Section Spec.
Context {St X K SQ MP : Type}.
Variable U : user St X K SQ MP.
Variable ryu : f64 -> bytes.
Notation val := (cval X K).

(** Rust's methods return or panic, and strings are strs. *)
Definition runs {A} (r : res A) : Prop := (exists a, r = Ok a) \/ r = Fault FPanic.
Definition rust_like : Prop :=
  (forall x st, runs (fst (x_begin U x st)) /\ forall s st', x_begin U x st = (Ok (FStr s), st') -> str_ok s = true) /\
  (forall q st, runs (fst (fst (x_seq_next U q st)))) /\
  (forall m st, runs (fst (fst (x_map_next U m st))) /\ forall k c m' st', x_map_next U m st = (Ok (Some (k, c)), m', st') -> str_ok k = true) /\
  (forall q st, runs (fst (x_seq_drop U q st))) /\
  (forall m st, runs (fst (x_map_drop U m st))) /\
  (forall k st, runs (fst (x_key U k st)) /\ forall s st', x_key U k st = (Ok s, st') -> str_ok s = true).

(** json::to_string(&c) in the world st comes to an end with result r (a text, a panic, or
    an abort because of a panic while unwinding) and the world st'. *)
Definition writes (c : val) (st : St) (r : res bytes) (st' : St) : Prop :=
  exists fuel, to_string_impl (open_iface U) ryu fuel c st = (r, st') /\ r <> Fault FFuel.

(** The text of one more item in front of the others. *)
Definition and_then (s : bytes) (r : res (list bytes)) : res (list bytes) :=
  match r with Ok ss => Ok (s :: ss) | Err => Err | Fault f => Fault f end.

(** to_string of one value after the other; the first failure ends it. *)
Inductive each : list val -> St -> res (list bytes) -> St -> Prop :=
| ea_nil st : each [] st (Ok []) st
| ea_cons c l st s st1 r st2 :
    writes c st (Ok s) st1 -> each l st1 r st2 -> each (c :: l) st (and_then s r) st2
| ea_fault c l st f st1 : writes c st (Fault f) st1 -> each (c :: l) st (Fault f) st1.

(** to_string of each key and of each value. *)
Inductive each_entry : list (K * val) -> St -> res (list bytes) -> St -> Prop :=
| ee_nil st : each_entry [] st (Ok []) st
| ee_cons k c l st ks st1 s st2 r st3 :
    x_key U k st = (Ok ks, st1) -> writes c st1 (Ok s) st2 -> each_entry l st2 r st3 ->
    each_entry ((k, c) :: l) st (and_then (quote ks ++ 58 :: s) r) st3
| ee_key k c l st f st1 : x_key U k st = (Fault f, st1) -> each_entry ((k, c) :: l) st (Fault f) st1
| ee_fault k c l st ks st1 f st2 :
    x_key U k st = (Ok ks, st1) -> writes c st1 (Fault f) st2 -> each_entry ((k, c) :: l) st (Fault f) st2.

(** What any iterator yields, one next() after the other, each value written as to_string
    writes it. The iterator is dropped once: at its end, or by the panic of next() or of a
    value; when that drop panics too the process aborts. *)
Definition dropped_by_panic (r : res unit) : fault := match r with Ok _ => FPanic | _ => FAbort end.
Section Seq.
Context {Q : Type}.
Variable next : Q -> St -> res (option val) * Q * St.
Variable drop : Q -> St -> res unit * St.
Inductive drained : Q -> St -> res (list bytes) -> St -> Prop :=
| dr_end q st q' st1 st2 :
    next q st = (Ok None, q', st1) -> drop q' st1 = (Ok tt, st2) -> drained q st (Ok []) st2
| dr_end_panic q st q' st1 st2 :
    next q st = (Ok None, q', st1) -> drop q' st1 = (Fault FPanic, st2) -> drained q st (Fault FPanic) st2
| dr_panic q st q' st1 rd st2 :
    next q st = (Fault FPanic, q', st1) -> drop q' st1 = (rd, st2) ->
    drained q st (Fault (dropped_by_panic rd)) st2
| dr_item q st c q' st1 s st2 r st3 :
    next q st = (Ok (Some c), q', st1) -> writes c st1 (Ok s) st2 -> drained q' st2 r st3 ->
    drained q st (and_then s r) st3
| dr_item_panic q st c q' st1 st2 rd st3 :
    next q st = (Ok (Some c), q', st1) -> writes c st1 (Fault FPanic) st2 -> drop q' st2 = (rd, st3) ->
    drained q st (Fault (dropped_by_panic rd)) st3
| dr_item_abort q st c q' st1 st2 :
    next q st = (Ok (Some c), q', st1) -> writes c st1 (Fault FAbort) st2 -> drained q st (Fault FAbort) st2.
End Seq.
Section Map.
Context {M : Type}.
Variable next : M -> St -> res (option (bytes * val)) * M * St.
Variable drop : M -> St -> res unit * St.
Inductive drained_map : M -> St -> res (list bytes) -> St -> Prop :=
| dm_end m st m' st1 st2 :
    next m st = (Ok None, m', st1) -> drop m' st1 = (Ok tt, st2) -> drained_map m st (Ok []) st2
| dm_end_panic m st m' st1 st2 :
    next m st = (Ok None, m', st1) -> drop m' st1 = (Fault FPanic, st2) -> drained_map m st (Fault FPanic) st2
| dm_panic m st m' st1 rd st2 :
    next m st = (Fault FPanic, m', st1) -> drop m' st1 = (rd, st2) ->
    drained_map m st (Fault (dropped_by_panic rd)) st2
| dm_item m st k c m' st1 s st2 r st3 :
    next m st = (Ok (Some (k, c)), m', st1) -> writes c st1 (Ok s) st2 -> drained_map m' st2 r st3 ->
    drained_map m st (and_then (quote k ++ 58 :: s) r) st3
| dm_item_panic m st k c m' st1 st2 rd st3 :
    next m st = (Ok (Some (k, c)), m', st1) -> writes c st1 (Fault FPanic) st2 -> drop m' st2 = (rd, st3) ->
    drained_map m st (Fault (dropped_by_panic rd)) st3
| dm_item_abort m st k c m' st1 st2 :
    next m st = (Ok (Some (k, c)), m', st1) -> writes c st1 (Fault FAbort) st2 -> drained_map m st (Fault FAbort) st2.
End Map.

(** "[" .. "," .. "]" and "{" .. "," .. "}". *)
Definition in_brackets (r : res (list bytes)) : res bytes :=
  match r with Ok ss => Ok (91 :: commas ss ++ [93]) | Err => Err | Fault f => Fault f end.
Definition in_braces (r : res (list bytes)) : res bytes :=
  match r with Ok ss => Ok (123 :: commas ss ++ [125]) | Err => Err | Fault f => Fault f end.
(** The members of a struct: its field names, quoted, with the fields' texts. *)
Definition with_names (names : list bytes) (r : res (list bytes)) : res (list bytes) :=
  match r with Ok ss => Ok (map (fun ns => quote (fst ns) ++ 58 :: snd ns) (combine names ss)) | Err => Err | Fault f => Fault f end.
End Spec.
