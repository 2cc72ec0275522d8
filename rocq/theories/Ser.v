(** The serializer: src/ser/mod.rs, src/json/ser.rs, src/ser/impls.rs, the Serialize
    impls of src/json/*.rs and the code generated by derive/src/ser.rs. *)
From Coq Require Import String ZArith List Bool Floats.SpecFloat.
From Verif Require Import Base Utf8 F64 Lexer Types.
Import ListNotations.
Open Scope Z_scope.

(** enum Fragment, ser/mod.rs:103-112; [SQ] and [MP] are `Box<dyn Seq>`, `Box<dyn Map>`. *)
Inductive fragment (SQ MP : Type) :=
| FNull
| FBool (b : bool)
| FStr (s : bytes)
| FU64 (n : Z)
| FI64 (n : Z)
| FF64 (f : f64)
| FSeq (q : SQ)
| FMap (m : MP).
Arguments FNull {SQ MP}. Arguments FBool {SQ MP}. Arguments FStr {SQ MP}.
Arguments FU64 {SQ MP}. Arguments FI64 {SQ MP}. Arguments FF64 {SQ MP}.
Arguments FSeq {SQ MP}. Arguments FMap {SQ MP}.

(** The traits Serialize, Seq, Map, ser/mod.rs:117-133. [D] is `&dyn Serialize`; [St]
    is everything the methods can mutate besides the iterator they are called on
    (interior mutability); the drop methods are the drop glue of the boxes. A method that
    panics returns [Fault FPanic] (and leaves the iterator in some state); Rust's methods
    are infallible, so they do not return [Err]. *)
Record siface (St D SQ MP : Type) := mk_siface {
  i_begin : D -> St -> res (fragment SQ MP) * St;
  i_seq_next : SQ -> St -> res (option D) * SQ * St;
  i_map_next : MP -> St -> res (option (bytes * D)) * MP * St;
  i_seq_drop : SQ -> St -> res unit * St;
  i_map_drop : MP -> St -> res unit * St
}.
Arguments i_begin {St D SQ MP}. Arguments i_seq_next {St D SQ MP}.
Arguments i_map_next {St D SQ MP}. Arguments i_seq_drop {St D SQ MP}.
Arguments i_map_drop {St D SQ MP}.

(** json/ser.rs:181-188. *)
Definition sBB := 98. Definition sTT := 116. Definition sNN := 110. Definition sFF := 102.
Definition sRR := 114. Definition sQU := 34. Definition sBS := 92. Definition sU := 117.

(** json/ser.rs:193-211. *)
Definition SER_ESCAPE : list Z :=
  let BB := sBB in let TT := sTT in let NN := sNN in let FF := sFF in let RR := sRR in
  let QU := sQU in let BS := sBS in let U := sU in
  [ U;  U;  U;  U;  U;  U;  U;  U; BB; TT; NN;  U; FF; RR;  U;  U; (* 0 *)
    U;  U;  U;  U;  U;  U;  U;  U;  U;  U;  U;  U;  U;  U;  U;  U; (* 1 *)
    0;  0; QU;  0;  0;  0;  0;  0;  0;  0;  0;  0;  0;  0;  0;  0; (* 2 *)
    0;  0;  0;  0;  0;  0;  0;  0;  0;  0;  0;  0;  0;  0;  0;  0; (* 3 *)
    0;  0;  0;  0;  0;  0;  0;  0;  0;  0;  0;  0;  0;  0;  0;  0; (* 4 *)
    0;  0;  0;  0;  0;  0;  0;  0;  0;  0;  0;  0; BS;  0;  0;  0; (* 5 *)
    0;  0;  0;  0;  0;  0;  0;  0;  0;  0;  0;  0;  0;  0;  0;  0; (* 6 *)
    0;  0;  0;  0;  0;  0;  0;  0;  0;  0;  0;  0;  0;  0;  0;  0; (* 7 *)
    0;  0;  0;  0;  0;  0;  0;  0;  0;  0;  0;  0;  0;  0;  0;  0; (* 8 *)
    0;  0;  0;  0;  0;  0;  0;  0;  0;  0;  0;  0;  0;  0;  0;  0; (* 9 *)
    0;  0;  0;  0;  0;  0;  0;  0;  0;  0;  0;  0;  0;  0;  0;  0; (* A *)
    0;  0;  0;  0;  0;  0;  0;  0;  0;  0;  0;  0;  0;  0;  0;  0; (* B *)
    0;  0;  0;  0;  0;  0;  0;  0;  0;  0;  0;  0;  0;  0;  0;  0; (* C *)
    0;  0;  0;  0;  0;  0;  0;  0;  0;  0;  0;  0;  0;  0;  0;  0; (* D *)
    0;  0;  0;  0;  0;  0;  0;  0;  0;  0;  0;  0;  0;  0;  0;  0; (* E *)
    0;  0;  0;  0;  0;  0;  0;  0;  0;  0;  0;  0;  0;  0;  0;  0  (* F *) ].

(** json/ser.rs:164. *)
Definition HEX_DIGITS : bytes := bs "0123456789abcdef".

(** match escape { .. }, json/ser.rs:154-169; the last arm is unreachable!(). *)
Definition escape_text (escape byte : Z) : res bytes :=
  if escape =? sBB then Ok [92; 98]
  else if escape =? sTT then Ok [92; 116]
  else if escape =? sNN then Ok [92; 110]
  else if escape =? sFF then Ok [92; 102]
  else if escape =? sRR then Ok [92; 114]
  else if escape =? sQU then Ok [92; 34]
  else if escape =? sBS then Ok [92; 92]
  else if escape =? sU then
    let* h := idx HEX_DIGITS (Z.to_nat (Z.shiftr byte 4)) in
    let* l := idx HEX_DIGITS (Z.to_nat (Z.land byte 15)) in
    Ok (bs "\u00" ++ [h; l])
  else Fault FPanic.

(** The for loop of escape_str, json/ser.rs:144-172: [rest] are the bytes from index
    [i] on; returns the final `start` and output. *)
Fixpoint escape_loop (value rest : bytes) (i start : nat) (out : bytes) : res (nat * bytes) :=
  match rest with
  | [] => Ok (start, out)
  | byte :: rest' =>
      let* escape := idx SER_ESCAPE (Z.to_nat byte) in
      if escape =? 0 then escape_loop value rest' (S i) start out
      else
        let* out1 :=
          if Nat.ltb start i then let* s := str_slice value start i in Ok (out ++ s)
          else Ok out in
        let* e := escape_text escape byte in
        escape_loop value rest' (S i) (S i) (out1 ++ e)
  end.

(** json/ser.rs:138-179. *)
Definition escape_str (value out : bytes) : res bytes :=
  let* (start, out1) := escape_loop value value 0 0 (out ++ [34]) in
  let* out2 :=
    if Nat.eqb start (List.length value) then Ok out1
    else let* s := str_slice value start (List.length value) in Ok (out1 ++ s) in
  Ok (out2 ++ [34]).

Section Serializer.
Context {St D SQ MP : Type}.
Variable I : siface St D SQ MP.
(** ryu::Buffer::format_finite (an external crate). *)
Variable ryu : f64 -> bytes.

(** enum Layer, json/ser.rs:39-42. *)
Inductive slayer := SLSeq (q : SQ) | SLMap (m : MP).

(** How one round of the loop ends: `return out`, or `fragment = d.begin(); continue`. *)
Inductive sstep :=
| SReturn (out : bytes)
| SBegin (d : D) (stack : list slayer) (out : bytes).

(** Drop glue of a Layer. *)
Definition sdrop (l : slayer) (st : St) : res unit * St :=
  match l with SLSeq q => i_seq_drop I q st | SLMap m => i_map_drop I m st end.

(** A panic unwinds: Serializer::drop (json/ser.rs:44-51) pops and drops the open layers,
    the innermost first. A second panic meanwhile aborts the process. (On a normal return
    the stack is empty.) Other faults do not unwind. *)
Fixpoint sunwind {A} (ls : list slayer) (st : St) : res A * St :=
  match ls with
  | [] => (Fault FPanic, st)
  | l :: ls' =>
      match sdrop l st with
      | (Fault FPanic, st') => (Fault FAbort, st')
      | (Fault f, st') => (Fault f, st')
      | (_, st') => sunwind ls' st'
      end
  end.
Definition son_fault {A} (f : fault) (ls : list slayer) (st : St) : res A * St :=
  match f with FPanic => sunwind ls st | _ => (Fault f, st) end.

(** The inner loop, json/ser.rs:101-132. *)
Fixpoint ser_pop (stack : list slayer) (out : bytes) (st : St) : res sstep * St :=
  match stack with
  | [] => (Ok (SReturn out), st)
  | SLSeq q :: stack' =>
      match i_seq_next I q st with
      | (Ok (Some d), q', st1) => (Ok (SBegin d (SLSeq q' :: stack') (out ++ [44])), st1)
      | (Ok None, q', st1) =>
          match i_seq_drop I q' st1 with
          | (Fault f, st2) => son_fault f stack' st2
          | (_, st2) => ser_pop stack' (out ++ [93]) st2
          end
      | (Err, q', st1) => (Err, st1)
      | (Fault f, q', st1) => son_fault f (SLSeq q' :: stack') st1
      end
  | SLMap m :: stack' =>
      match i_map_next I m st with
      | (Ok (Some (key, d)), m', st1) =>
          match escape_str key (out ++ [44]) with
          | Ok out1 => (Ok (SBegin d (SLMap m' :: stack') (out1 ++ [58])), st1)
          | Err => (Err, st1)
          | Fault f => son_fault f (SLMap m' :: stack') st1
          end
      | (Ok None, m', st1) =>
          match i_map_drop I m' st1 with
          | (Fault f, st2) => son_fault f stack' st2
          | (_, st2) => ser_pop stack' (out ++ [125]) st2
          end
      | (Err, m', st1) => (Err, st1)
      | (Fault f, m', st1) => son_fault f (SLMap m' :: stack') st1
      end
  end.

(** Scalars: continue with the inner loop. *)
Definition ser_scalar (s : res bytes) (stack : list slayer) (st : St) : res sstep * St :=
  match s with
  | Ok out => ser_pop stack out st
  | Err => (Err, st)
  | Fault f => son_fault f stack st
  end.

(** One round of the outer loop on a fragment, json/ser.rs:59-132. *)
Definition ser_turn (f : fragment SQ MP) (stack : list slayer) (out : bytes) (st : St)
  : res sstep * St :=
  match f with
  | FNull => ser_scalar (Ok (out ++ bs "null")) stack st
  | FBool b => ser_scalar (Ok (out ++ bs (if b then "true" else "false"))) stack st
  | FStr s => ser_scalar (escape_str s out) stack st
  | FU64 n => ser_scalar (Ok (out ++ itoa n)) stack st
  | FI64 n => ser_scalar (Ok (out ++ itoa n)) stack st
  | FF64 n => ser_scalar (Ok (out ++ if f_is_finite n then ryu n else bs "null")) stack st
  | FSeq q =>
      match i_seq_next I q st with
      | (Ok (Some d), q', st1) => (Ok (SBegin d (SLSeq q' :: stack) (out ++ [91])), st1)
      | (Ok None, q', st1) =>
          match i_seq_drop I q' st1 with
          | (Fault f, st2) => son_fault f stack st2
          | (_, st2) => ser_pop stack (out ++ [91] ++ [93]) st2
          end
      | (Err, q', st1) => (Err, st1)
      | (Fault e, q', st1) => son_fault e (SLSeq q' :: stack) st1
      end
  | FMap m =>
      match i_map_next I m st with
      | (Ok (Some (key, d)), m', st1) =>
          match escape_str key (out ++ [123]) with
          | Ok out1 => (Ok (SBegin d (SLMap m' :: stack) (out1 ++ [58])), st1)
          | Err => (Err, st1)
          | Fault f => son_fault f (SLMap m' :: stack) st1
          end
      | (Ok None, m', st1) =>
          match i_map_drop I m' st1 with
          | (Fault f, st2) => son_fault f stack st2
          | (_, st2) => ser_pop stack (out ++ [123] ++ [125]) st2
          end
      | (Err, m', st1) => (Err, st1)
      | (Fault e, m', st1) => son_fault e (SLMap m' :: stack) st1
      end
  end.

(** begin() followed by the loop, json/ser.rs:53-134. A user-defined Serialize may
    describe an infinite tree, hence the budget [fuel]. *)
Fixpoint ser_loop (fuel : nat) (d : D) (stack : list slayer) (out : bytes) (st : St)
  : res bytes * St :=
  match fuel with
  | O => (Fault FFuel, st)
  | S n =>
      match i_begin I d st with
      | (Ok f, st1) =>
          match ser_turn f stack out st1 with
          | (Ok (SReturn out'), st2) => (Ok out', st2)
          | (Ok (SBegin d' stack' out'), st2) => ser_loop n d' stack' out' st2
          | (Err, st2) => (Err, st2)
          | (Fault e, st2) => (Fault e, st2)
          end
      | (Err, st1) => (Err, st1)
      | (Fault e, st1) => son_fault e stack st1
      end
  end.

Definition to_string_impl (fuel : nat) (d : D) (st : St) : res bytes * St :=
  ser_loop fuel d [] [] st.

End Serializer.
Arguments SLSeq {SQ MP}. Arguments SLMap {SQ MP}.
Arguments SReturn {D SQ MP}. Arguments SBegin {D SQ MP}.

(** ** The crate's impls. `&dyn Serialize` is a value with its static type. *)
Definition dyn : Type := ty * val.

Inductive sqh :=
(* TupleStream, ser/impls.rs:126-130 *)
| QTuple (first second : dyn) (state : nat)
(* SliceStream, ser/impls.rs:219: the elements not yet yielded *)
| QSlice (t : ty) (rest : list val)
(* SliceStream over the Values of a json::Array, json/array.rs:107-111 *)
| QJson (rest : list jval).

Inductive mph :=
(* HashMapStream / BTreeMapStream, ser/impls.rs:187, 239: the entries not yet yielded *)
| PMap (t : ty) (rest : list (val * val))
(* ObjectIter, json/object.rs:103 *)
| PObject (rest : list (bytes * jval))
(* __Map, derive/src/ser.rs:65-68 *)
| PStruct (fs : list (bytes * ty)) (data : list val) (state : nat).

Section Impls.
Variable E : env.
(** The iteration order of the n-th HashMap that is serialized. *)
Variable hm_order : nat -> list (val * val) -> list (val * val).

(** json/number.rs:24-32. *)
Definition number_begin (n : jnum) : fragment sqh mph :=
  match n with NU64 n => FU64 n | NI64 n => FI64 n | NF64 f => FF64 f end.

(** json/value.rs:59-70, array.rs:107-111, object.rs:101-114. *)
Definition value_begin (j : jval) : fragment sqh mph :=
  match j with
  | JvNull => FNull
  | JvBool b => FBool b
  | JvNum n => number_begin n
  | JvStr s => FStr s
  | JvArr l => FSeq (QJson l)
  | JvObj l => FMap (PObject l)
  end.

(** Serialize::begin. [k] is the native recursion budget (Box and Option delegate).
    The state counts the HashMaps begun so far. *)
Fixpoint ser_begin (k : nat) (t : ty) (v : val) (n : nat) : res (fragment sqh mph) * nat :=
  match k with
  | O => (Fault FDeep, n)
  | S k' =>
      match t, v with
      | TUnit, VUnit => (Ok FNull, n)                                 (* ser/impls.rs:15 *)
      | TBool, VBool b => (Ok (FBool b), n)                           (* ser/impls.rs:21 *)
      | TString, VStr s => (Ok (FStr s), n)                           (* ser/impls.rs:33 *)
      | TInt false _, VInt z => (Ok (FU64 (wrap_u 64 z)), n)          (* ser/impls.rs:39-52 *)
      | TInt true _, VInt z => (Ok (FI64 (wrap_s 64 z)), n)           (* ser/impls.rs:54-67 *)
      | TF32, VF32 f => (Ok (FF64 (f64_of_f32 f)), n)                 (* ser/impls.rs:69-79 *)
      | TF64, VF64 f => (Ok (FF64 f), n)
      | TBox t', VBox v' => ser_begin k' t' v' n                      (* ser/impls.rs:90-97 *)
      | TOption _, VNone => (Ok FNull, n)                             (* ser/impls.rs:99-109 *)
      | TOption t', VSome v' => ser_begin k' t' v' n
      | TPair a b, VPair va vb => (Ok (FSeq (QTuple (a, va) (b, vb) 0)), n) (* ser/impls.rs:120-150 *)
      | TVec t', VSeq l => (Ok (FSeq (QSlice t' l)), n)               (* ser/impls.rs:170-177, 215-232 *)
      | TArr t' _, VSeq l => (Ok (FSeq (QSlice t' l)), n)             (* ser/impls.rs:161-168 *)
      | TMap true _ t', VMap l => (Ok (FMap (PMap t' (hm_order n l))), S n) (* ser/impls.rs:180-202 *)
      | TMap false _ t', VMap l => (Ok (FMap (PMap t' l)), n)         (* ser/impls.rs:204-212, 234-256 *)
      | TValue, VJson j => (Ok (value_begin j), n)
      | TNumber, VNum m => (Ok (number_begin m), n)
      | TArray, VJArr l => (Ok (FSeq (QJson l)), n)
      | TObject, VJObj l => (Ok (FMap (PObject l)), n)
      | TNamed id, VStruct vs =>                                      (* derive/src/ser.rs:57-64 *)
          match nth_error E id with
          | Some (DStruct fs) => (Ok (FMap (PStruct fs vs 0)), n)
          | _ => (Fault FUB, n)
          end
      | TNamed id, VEnum i =>                                         (* derive/src/ser.rs:120-128 *)
          match nth_error E id with
          | Some (DEnum ns) =>
              match nth_error ns i with
              | Some s => (Ok (FStr s), n)
              | None => (Fault FUB, n)
              end
          | _ => (Fault FUB, n)
          end
      | _, _ => (Fault FUB, n)                                        (* ill-typed value *)
      end
  end.

(** Seq::next. *)
Definition seq_next (q : sqh) : option dyn * sqh :=
  match q with
  | QTuple a b state =>                                               (* ser/impls.rs:133-141 *)
      (match state with O => Some a | S O => Some b | _ => None end, QTuple a b (S state))
  | QSlice t [] => (None, QSlice t [])                                (* ser/impls.rs:225-228 *)
  | QSlice t (v :: rest) => (Some (t, v), QSlice t rest)
  | QJson [] => (None, QJson [])
  | QJson (j :: rest) => (Some (TValue, VJson j), QJson rest)
  end.

(** Map::next. *)
Definition map_next (m : mph) : option (bytes * dyn) * mph :=
  match m with
  | PMap t [] => (None, PMap t [])                                    (* ser/impls.rs:194-197, 249-252 *)
  | PMap t ((k, v) :: rest) => (Some (key_to_string k, (t, v)), PMap t rest)
  | PObject [] => (None, PObject [])                                  (* json/object.rs:106-109 *)
  | PObject ((k, j) :: rest) => (Some (k, (TValue, VJson j)), PObject rest)
  | PStruct fs vs state =>                                            (* derive/src/ser.rs:71-83 *)
      (match nth_error fs state, nth_error vs state with
       | Some (name, t), Some v => Some (name, (t, v))
       | _, _ => None
       end, PStruct fs vs (S state))
  end.

Definition val_iface (k : nat) : siface nat dyn sqh mph := {|
  i_begin := fun d n => ser_begin k (fst d) (snd d) n;
  i_seq_next := fun q n => (Ok (fst (seq_next q)), snd (seq_next q), n);
  i_map_next := fun m n => (Ok (fst (map_next m)), snd (map_next m), n);
  i_seq_drop := fun _ n => (Ok tt, n);
  i_map_drop := fun _ n => (Ok tt, n)
|}.

(** json/ser.rs:28-33. [fuel] bounds the number of begin() calls. *)
Definition to_string (ryu : f64 -> bytes) (k fuel : nat) (t : ty) (v : val) : res bytes :=
  fst (to_string_impl (val_iface k) ryu fuel (t, v) 0%nat).

End Impls.
