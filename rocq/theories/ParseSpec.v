(** Specifications used by the parsing properties: the successful walk of a document by a
    visitor, logging of visitor calls, token structure of a text. *)
From Coq Require Import String ZArith List Bool Floats.SpecFloat.
From Verif Require Import Base Utf8 F64 Lexer Driver Grammar LexSpec Types Reading.
Import ListNotations.
Open Scope Z_scope.

(** ** The successful walk of a document *)
Section Visit.
Context {St V SH MH : Type}.
Variable I : iface St V SH MH.

(** [Visit d v st st']: started in state st, the calls that present document d to the
    visitor v, in document order, all succeed and lead to state st'. *)
Inductive Visit : doc -> V -> St -> St -> Prop :=
| vi_null v st st' : v_null I v st = (Ok tt, st') -> Visit DNull v st st'
| vi_bool b v st st' : v_bool I v b st = (Ok tt, st') -> Visit (DBool b) v st st'
| vi_str s v st st' : v_str I v s st = (Ok tt, st') -> Visit (DStr s) v st st'
| vi_nonneg n z v st st' : reads_u n z -> v_nonneg I v z st = (Ok tt, st') -> Visit (DNum n) v st st'
| vi_neg n z v st st' : reads_i n z -> v_neg I v z st = (Ok tt, st') -> Visit (DNum n) v st st'
| vi_float n f v st st' : reads_f n f -> v_float I v f st = (Ok tt, st') -> Visit (DNum n) v st st'
| vi_seq l v q st st1 st2 st3 r st4 :
    v_seq I v st = (Ok q, st1) -> VisitItems q l st1 st2 ->
    s_finish I q st2 = (Ok tt, st3) -> s_drop I q st3 = (r, st4) -> is_fault r = false ->
    Visit (DArr l) v st st4
| vi_map l v m st st1 st2 st3 r st4 :
    v_map I v st = (Ok m, st1) -> VisitMembers m l st1 st2 ->
    m_finish I m st2 = (Ok tt, st3) -> m_drop I m st3 = (r, st4) -> is_fault r = false ->
    Visit (DObj l) v st st4
with VisitItems : SH -> list doc -> St -> St -> Prop :=
| vis_nil q st : VisitItems q [] st st
| vis_cons q d l v st st1 st2 st3 :
    s_element I q st = (Ok v, st1) -> Visit d v st1 st2 -> VisitItems q l st2 st3 ->
    VisitItems q (d :: l) st st3
with VisitMembers : MH -> list (bytes * doc) -> St -> St -> Prop :=
| vim_nil m st : VisitMembers m [] st st
| vim_cons m k d l v st st1 st2 st3 :
    m_key I m k st = (Ok v, st1) -> Visit d v st1 st2 -> VisitMembers m l st2 st3 ->
    VisitMembers m ((k, d) :: l) st st3.

(** ** Logging *)
Inductive call :=
| CNull (v : V) | CBool (v : V) (b : bool) | CStr (v : V) (s : bytes)
| CNeg (v : V) (n : Z) | CNonneg (v : V) (n : Z) | CFloat (v : V) (f : f64)
| CSeq (v : V) (opened : option SH) | CMap (v : V) (opened : option MH)
| CElement (q : SH) | CSeqFinish (q : SH) | CSeqDrop (q : SH)
| CKey (m : MH) (k : bytes) | CMapFinish (m : MH) | CMapDrop (m : MH).

Definition log_call {A} (c : res A -> call) (f : St -> res A * St) (sl : St * list call)
  : res A * (St * list call) :=
  let r := f (fst sl) in (fst r, (snd r, snd sl ++ [c (fst r)])).

Definition opened {A} (r : res A) : option A := match r with Ok a => Some a | _ => None end.

(** The implementation I, also recording every call. *)
Definition logged : iface (St * list call) V SH MH := {|
  v_null := fun v => log_call (fun _ => CNull v) (v_null I v);
  v_bool := fun v b => log_call (fun _ => CBool v b) (v_bool I v b);
  v_str := fun v s => log_call (fun _ => CStr v s) (v_str I v s);
  v_neg := fun v n => log_call (fun _ => CNeg v n) (v_neg I v n);
  v_nonneg := fun v n => log_call (fun _ => CNonneg v n) (v_nonneg I v n);
  v_float := fun v f => log_call (fun _ => CFloat v f) (v_float I v f);
  v_seq := fun v => log_call (fun r => CSeq v (opened r)) (v_seq I v);
  v_map := fun v => log_call (fun r => CMap v (opened r)) (v_map I v);
  s_element := fun q => log_call (fun _ => CElement q) (s_element I q);
  s_finish := fun q => log_call (fun _ => CSeqFinish q) (s_finish I q);
  s_drop := fun q => log_call (fun _ => CSeqDrop q) (s_drop I q);
  m_key := fun m k => log_call (fun _ => CKey m k) (m_key I m k);
  m_finish := fun m => log_call (fun _ => CMapFinish m) (m_finish I m);
  m_drop := fun m => log_call (fun _ => CMapDrop m) (m_drop I m)
|}.

(** Trait method calls, as opposed to drops. *)
Definition is_drop (c : call) : bool :=
  match c with CSeqDrop _ | CMapDrop _ => true | _ => false end.
Definition method_calls (l : list call) : nat := List.length (filter (fun c => negb (is_drop c)) l).

(** Every Seq/Map handed out is dropped exactly once, after all uses, innermost first. *)
Inductive Bracketed : list call -> Prop :=
| br_nil : Bracketed []
| br_other c l :
    match c with CSeqDrop _ | CMapDrop _ | CSeq _ (Some _) | CMap _ (Some _) => False | _ => True end ->
    Bracketed l -> Bracketed (c :: l)
| br_seq v q l1 l2 : Bracketed l1 -> Bracketed l2 -> Bracketed (CSeq v (Some q) :: l1 ++ CSeqDrop q :: l2)
| br_map v m l1 l2 : Bracketed l1 -> Bracketed l2 -> Bracketed (CMap v (Some m) :: l1 ++ CMapDrop m :: l2).

(** from_str was left by returning or by unwinding, not by killing the process (or by
    undefined behaviour). *)
Definition orderly {A} (r : res A) : bool :=
  match r with Fault FPanic => true | Fault _ => false | _ => true end.

(** The arguments are legal: strings are valid UTF-8, integers in range with the sign
    their method is for, floats finite. *)
Definition args_ok (c : call) : Prop :=
  match c with
  | CStr _ s | CKey _ s => Utf8 s
  | CNeg _ n => i64_MIN <= n <= 0
  | CNonneg _ n => 0 <= n <= u64_MAX
  | CFloat _ f => f_is_finite f = true
  | _ => True
  end.

(** No method ever faults (panics). *)
Definition never {A B} (f : A -> res B * A) : Prop := forall a, is_fault (fst (f a)) = false.
Definition faultless : Prop :=
  (forall v, never (v_null I v)) /\ (forall v b, never (v_bool I v b)) /\ (forall v s, never (v_str I v s)) /\
  (forall v n, never (v_neg I v n)) /\ (forall v n, never (v_nonneg I v n)) /\ (forall v f, never (v_float I v f)) /\
  (forall v, never (v_seq I v)) /\ (forall v, never (v_map I v)) /\
  (forall q, never (s_element I q)) /\ (forall q, never (s_finish I q)) /\ (forall q, never (s_drop I q)) /\
  (forall m k, never (m_key I m k)) /\ (forall m, never (m_finish I m)) /\ (forall m, never (m_drop I m)).
End Visit.
Arguments call : clear implicits.

(** ** Tokens: punctuation, string literals, and words (maximal runs of other
    characters), separated by optional whitespace. *)
Definition punct (c : Z) : Prop := c = 91 \/ c = 93 \/ c = 123 \/ c = 125 \/ c = 44 \/ c = 58.
Definition word_char (c : Z) : Prop := ~ punct c /\ ~ ws_char c /\ c <> 34.
(** The inside of a string literal, lexically: no unescaped quote. *)
Inductive QBody : bytes -> Prop :=
| qb_nil : QBody []
| qb_raw c t : c <> 34 -> c <> 92 -> QBody t -> QBody (c :: t)
| qb_esc c t : QBody t -> QBody (92 :: c :: t).
Inductive Tokens : bytes -> list bytes -> Prop :=
| tk_nil : Tokens [] []
| tk_ws c s ts : ws_char c -> Tokens s ts -> Tokens (c :: s) ts
| tk_punct c s ts : punct c -> Tokens s ts -> Tokens (c :: s) ([c] :: ts)
| tk_str b s ts : QBody b -> Tokens s ts -> Tokens (34 :: b ++ 34 :: s) ((34 :: b ++ [34]) :: ts)
| tk_word w s ts :
    w <> [] -> Forall word_char w -> match s with c :: _ => ~ word_char c | [] => True end ->
    Tokens s ts -> Tokens (w ++ s) (w :: ts).
