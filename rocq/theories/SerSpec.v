(** Specification of serialization: the tree a Serialize object describes, the JSON text
    of such a tree, and the document that text stands for. Nothing here refers to the
    serializer's loop or to its escape table. *)
From Coq Require Import String ZArith List Bool Reals Permutation Sorted Floats.SpecFloat.
From Flocq Require Import Core.Core IEEE754.BinarySingleNaN.
From Verif Require Import Base Utf8 F64 Lexer Grammar LexSpec Types Ser Reading NumValue DocSpec.
Import ListNotations.
Open Scope Z_scope.

(** ** The tree described by a Serialize object *)
Inductive stree :=
| STNull
| STBool (b : bool)
| STStr (s : bytes)
| STU64 (n : Z)
| STI64 (n : Z)
| STF64 (f : f64)
| STSeq (l : list stree)
| STMap (l : list (bytes * stree)).

Section Describes.
Context {St D SQ MP : Type}.
Variable I : siface St D SQ MP.

(** [Describes d st t st']: asking [d] in state [st] for its fragment, and exhausting the
    iterators met on the way (each dropped when it is exhausted), yields the tree [t] and
    ends in state [st']. *)
Inductive Describes : D -> St -> stree -> St -> Prop :=
| ds_begin d st f st1 t st2 :
    i_begin I d st = (Ok f, st1) -> FragDescribes f st1 t st2 -> Describes d st t st2
with FragDescribes : fragment SQ MP -> St -> stree -> St -> Prop :=
| fd_null st : FragDescribes FNull st STNull st
| fd_bool b st : FragDescribes (FBool b) st (STBool b) st
| fd_str s st : FragDescribes (FStr s) st (STStr s) st
| fd_u64 n st : FragDescribes (FU64 n) st (STU64 n) st
| fd_i64 n st : FragDescribes (FI64 n) st (STI64 n) st
| fd_f64 f st : FragDescribes (FF64 f) st (STF64 f) st
| fd_seq q st l st' : SeqDescribes q st l st' -> FragDescribes (FSeq q) st (STSeq l) st'
| fd_map m st l st' : MapDescribes m st l st' -> FragDescribes (FMap m) st (STMap l) st'
with SeqDescribes : SQ -> St -> list stree -> St -> Prop :=
| qd_nil q st q' st1 r st2 :
    i_seq_next I q st = (Ok None, q', st1) -> i_seq_drop I q' st1 = (r, st2) -> is_fault r = false ->
    SeqDescribes q st [] st2
| qd_cons q st d q' st1 t st2 l st3 :
    i_seq_next I q st = (Ok (Some d), q', st1) -> Describes d st1 t st2 ->
    SeqDescribes q' st2 l st3 -> SeqDescribes q st (t :: l) st3
with MapDescribes : MP -> St -> list (bytes * stree) -> St -> Prop :=
| pd_nil m st m' st1 r st2 :
    i_map_next I m st = (Ok None, m', st1) -> i_map_drop I m' st1 = (r, st2) -> is_fault r = false ->
    MapDescribes m st [] st2
| pd_cons m st k d m' st1 t st2 l st3 :
    i_map_next I m st = (Ok (Some (k, d)), m', st1) -> Describes d st1 t st2 ->
    MapDescribes m' st2 l st3 -> MapDescribes m st ((k, t) :: l) st3.

(** Every string handed to the serializer is a `str`. *)
Definition strs_valid : Prop :=
  (forall d st s st', i_begin I d st = (Ok (FStr s), st') -> str_ok s = true) /\
  (forall m st k d m' st', i_map_next I m st = (Ok (Some (k, d)), m', st') -> str_ok k = true).
(** No method panics (there is no way to return an error). *)
Definition methods_return : Prop :=
  (forall d st, exists f st', i_begin I d st = (Ok f, st')) /\
  (forall q st, exists o q' st', i_seq_next I q st = (Ok o, q', st')) /\
  (forall m st, exists o m' st', i_map_next I m st = (Ok o, m', st')) /\
  (forall q st, exists r st', i_seq_drop I q st = (r, st') /\ is_fault r = false) /\
  (forall m st, exists r st', i_map_drop I m st = (r, st') /\ is_fault r = false).
End Describes.

(** ** The text of a tree *)
Definition hex_char (v : Z) : Z := if v <? 10 then 48 + v else 87 + v.
Definition quote_char (c : Z) : bytes :=
  if c =? 34 then bs "\""" else if c =? 92 then bs "\\"
  else if c =? 8 then bs "\b" else if c =? 9 then bs "\t" else if c =? 10 then bs "\n"
  else if c =? 12 then bs "\f" else if c =? 13 then bs "\r"
  else if c <? 32 then bs "\u00" ++ [hex_char (c / 16); hex_char (c mod 16)]
  else [c].
Definition quote (s : bytes) : bytes := 34 :: flat_map quote_char s ++ [34].

(** Decimal text of an integer: no leading zeros, minus sign only when negative. *)
Definition int_text (z : Z) (t : bytes) : Prop :=
  exists n, NumText n t /\ n_frac n = None /\ n_exp n = None /\ lit_int n = z /\ n_neg n = (z <? 0).

Fixpoint commas (l : list bytes) : bytes :=
  match l with
  | [] => []
  | [x] => x
  | x :: l' => x ++ 44 :: commas l'
  end.

Section Render.
(** The texts of integers and of finite floats. *)
Variable itext : Z -> bytes.
Variable ftext : f64 -> bytes.
Fixpoint render (t : stree) : bytes :=
  match t with
  | STNull => bs "null"
  | STBool true => bs "true"
  | STBool false => bs "false"
  | STStr s => quote s
  | STU64 n | STI64 n => itext n
  | STF64 f => if f_is_finite f then ftext f else bs "null"
  | STSeq l => 91 :: commas (map render l) ++ [93]
  | STMap l => 123 :: commas (map (fun kt => quote (fst kt) ++ 58 :: render (snd kt)) l) ++ [125]
  end.
End Render.

(** ryu::Buffer::format_finite: a literal with a fraction or an exponent whose exact value
    rounds to the argument. (The length bound is generous: ryu prints at most 24 bytes.) *)
Definition prints_float (f : f64) (t : bytes) : Prop :=
  exists n, NumText n t /\ ~ is_int_lit n /\ n_neg n = sign_SF f /\
    nearest64 (lit_value n) = freal f.
Definition ryu_ok (ryu : f64 -> bytes) : Prop :=
  forall f, f64_ok f = true -> f_is_finite f = true ->
    prints_float f (ryu f) /\ Z.of_nat (List.length (ryu f)) <= 4000.

(** Trees as Rust can describe them. *)
Fixpoint stree_ok (t : stree) : bool :=
  match t with
  | STNull | STBool _ => true
  | STStr s => str_ok s
  | STU64 n => (0 <=? n) && (n <=? u64_MAX)
  | STI64 n => (i64_MIN <=? n) && (n <=? i64_MAX)
  | STF64 f => f64_ok f
  | STSeq l => forallb stree_ok l
  | STMap l => forallb (fun kt => str_ok (fst kt) && stree_ok (snd kt)) l
  end.

(** ** The document a tree stands for *)
Inductive Denotes : stree -> doc -> Prop :=
| dn_null : Denotes STNull DNull
| dn_bool b : Denotes (STBool b) (DBool b)
| dn_str s : Denotes (STStr s) (DStr s)
| dn_u64 z n : is_int_lit n -> lit_int n = z -> n_neg n = (z <? 0) -> Denotes (STU64 z) (DNum n)
| dn_i64 z n : is_int_lit n -> lit_int n = z -> n_neg n = (z <? 0) -> Denotes (STI64 z) (DNum n)
| dn_f64 f n :
    f_is_finite f = true -> ~ is_int_lit n -> n_neg n = sign_SF f ->
    nearest64 (lit_value n) = freal f -> Denotes (STF64 f) (DNum n)
| dn_nonfinite f : f_is_finite f = false -> Denotes (STF64 f) DNull
| dn_seq l ds : Forall2 Denotes l ds -> Denotes (STSeq l) (DArr ds)
| dn_map l ds :
    Forall2 (fun kt kd => fst kt = fst kd /\ Denotes (snd kt) (snd kd)) l ds ->
    Denotes (STMap l) (DObj ds).

(** The strings and keys of the tree are `str`s. *)
Fixpoint strs_ok (t : stree) : bool :=
  match t with
  | STStr s => str_ok s
  | STSeq l => forallb strs_ok l
  | STMap l => forallb (fun kt => str_ok (fst kt) && strs_ok (snd kt)) l
  | _ => true
  end.

(** Size and shape. *)
Fixpoint nodes (t : stree) : nat :=
  match t with
  | STSeq l => S (list_sum (map nodes l))
  | STMap l => S (list_sum (map (fun kt => nodes (snd kt)) l))
  | _ => 1%nat
  end.
Fixpoint containers (t : stree) : nat :=
  match t with
  | STSeq l => S (list_sum (map containers l))
  | STMap l => S (list_sum (map (fun kt => containers (snd kt)) l))
  | _ => 0%nat
  end.
Fixpoint height (t : stree) : nat :=
  match t with
  | STSeq l => S (list_max (map height l))
  | STMap l => S (list_max (map (fun kt => height (snd kt)) l))
  | _ => 0%nat
  end.

(** ** What a Rust value describes. [Writes E T v t]. *)
Section Writes.
Variable E : env.
Fixpoint jtree (j : jval) : stree :=
  match j with
  | JvNull => STNull
  | JvBool b => STBool b
  | JvNum (NU64 n) => STU64 n
  | JvNum (NI64 n) => STI64 n
  | JvNum (NF64 f) => STF64 f
  | JvStr s => STStr s
  | JvArr l => STSeq (map jtree l)
  | JvObj l => STMap (map (fun kj => (fst kj, jtree (snd kj))) l)
  end.
Definition ntree (n : jnum) : stree := jtree (JvNum n).

Inductive Writes : ty -> val -> stree -> Prop :=
| wr_unit : Writes TUnit VUnit STNull
| wr_bool b : Writes TBool (VBool b) (STBool b)
| wr_string s : Writes TString (VStr s) (STStr s)
| wr_uint b z : Writes (TInt false b) (VInt z) (STU64 z)
| wr_sint b z : Writes (TInt true b) (VInt z) (STI64 z)
| wr_f32 f : Writes TF32 (VF32 f) (STF64 (f64_of_f32 f))
| wr_f64 f : Writes TF64 (VF64 f) (STF64 f)
| wr_box T v t : Writes T v t -> Writes (TBox T) (VBox v) t
| wr_none T : Writes (TOption T) VNone STNull
| wr_some T v t : Writes T v t -> Writes (TOption T) (VSome v) t
| wr_pair A B a b ta tb : Writes A a ta -> Writes B b tb -> Writes (TPair A B) (VPair a b) (STSeq [ta; tb])
| wr_vec T l ts : Forall2 (Writes T) l ts -> Writes (TVec T) (VSeq l) (STSeq ts)
| wr_arr T n l ts : Forall2 (Writes T) l ts -> Writes (TArr T n) (VSeq l) (STSeq ts)
(** A BTreeMap lists its entries in key order, a HashMap in any order. *)
| wr_map (h : bool) K T m l ts :
    (if h then Permutation m l else m = l) ->
    Forall2 (fun kv kt => fst kt = key_to_string (fst kv) /\ Writes T (snd kv) (snd kt)) l ts ->
    Writes (TMap h K T) (VMap m) (STMap ts)
| wr_value j : Writes TValue (VJson j) (jtree j)
| wr_number n : Writes TNumber (VNum n) (ntree n)
| wr_array l : Writes TArray (VJArr l) (jtree (JvArr l))
| wr_object l : Writes TObject (VJObj l) (jtree (JvObj l))
| wr_struct id fs vs ts :
    nth_error E id = Some (DStruct fs) ->
    List.length vs = List.length fs ->
    Forall2 (fun fv kt => fst kt = fst (fst fv) /\ Writes (snd (fst fv)) (snd fv) (snd kt)) (combine fs vs) ts ->
    Writes (TNamed id) (VStruct vs) (STMap ts)
| wr_enum id ns i s :
    nth_error E id = Some (DEnum ns) -> nth_error ns i = Some s ->
    Writes (TNamed id) (VEnum i) (STStr s).
End Writes.

(** ** What comes back when a written value is read again *)

(** y is (almost) f: within 2^-49 relatively, or 2^-1071 absolutely, and of the same sign. *)
Definition f64_close (f y : f64) : Prop :=
  f64_ok y = true /\ f_is_finite y = true /\ sign_SF y = sign_SF f /\
  (Rabs (freal y - freal f) <= bpow radix2 (-49) * Rabs (freal f) + bpow radix2 (-1071))%R.
(** Not within 2^-49 (relatively) of overflow. *)
Definition f64_inner (f : f64) : Prop :=
  f_is_finite f = true /\ (Rabs (freal f) <= (1 - bpow radix2 (-49)) * f64_MAX)%R.

(** A json::Value comes back with nonnegative I64 as U64 and non-finite floats as Null. *)
Inductive JBack : jval -> jval -> Prop :=
| jb_null : JBack JvNull JvNull
| jb_bool b : JBack (JvBool b) (JvBool b)
| jb_str s : JBack (JvStr s) (JvStr s)
| jb_u64 n : JBack (JvNum (NU64 n)) (JvNum (NU64 n))
| jb_i64_neg n : n < 0 -> JBack (JvNum (NI64 n)) (JvNum (NI64 n))
| jb_i64_nonneg n : 0 <= n -> JBack (JvNum (NI64 n)) (JvNum (NU64 n))
| jb_f64 f y : f_is_finite f = true -> f64_close f y -> JBack (JvNum (NF64 f)) (JvNum (NF64 y))
| jb_nonfinite f : f_is_finite f = false -> JBack (JvNum (NF64 f)) JvNull
| jb_arr l l' : Forall2 JBack l l' -> JBack (JvArr l) (JvArr l')
| jb_obj l l' : Forall2 (fun a b => fst a = fst b /\ JBack (snd a) (snd b)) l l' -> JBack (JvObj l) (JvObj l').

(** No finite float within 2^-49 of overflow. *)
Fixpoint jfloats_ok (j : jval) : Prop :=
  match j with
  | JvNum (NF64 f) => f_is_finite f = true -> f64_inner f
  | JvArr l => (fix go l := match l with [] => True | x :: r => jfloats_ok x /\ go r end) l
  | JvObj l => (fix go l := match l with [] => True | x :: r => jfloats_ok (snd x) /\ go r end) l
  | _ => True
  end.

(** The value is written as null. *)
Fixpoint prints_null (v : val) : bool :=
  match v with
  | VUnit | VNone | VJson JvNull => true
  | VBox v | VSome v => prints_null v
  | VF32 f | VF64 f | VJson (JvNum (NF64 f)) | VNum (NF64 f) => negb (f_is_finite f)
  | _ => false
  end.
(** Floats are finite (and f64s not within 2^-49 of overflow), except where null is
    readable too. *)
Fixpoint floats_ok (v : val) : Prop :=
  match v with
  | VF32 f => f_is_finite f = true
  | VF64 f | VNum (NF64 f) => f64_inner f
  | VBox v => floats_ok v
  | VSome v => prints_null v = true \/ floats_ok v
  | VPair a b => floats_ok a /\ floats_ok b
  | VSeq l | VStruct l => (fix go l := match l with [] => True | x :: r => floats_ok x /\ go r end) l
  | VMap l => (fix go l := match l with [] => True | x :: r => floats_ok (snd x) /\ go r end) l
  | VJson j => jfloats_ok j
  | VJArr l => jfloats_ok (JvArr l)
  | VJObj l => jfloats_ok (JvObj l)
  | _ => True
  end.

Section Back.
Variable E : env.
Inductive Back : ty -> val -> val -> Prop :=
| bk_unit : Back TUnit VUnit VUnit
| bk_bool b : Back TBool (VBool b) (VBool b)
| bk_string s : Back TString (VStr s) (VStr s)
| bk_int sg b z : Back (TInt sg b) (VInt z) (VInt z)
| bk_f32 f : f_is_finite f = true -> Back TF32 (VF32 f) (VF32 f)
| bk_f64 f y : f64_close f y -> Back TF64 (VF64 f) (VF64 y)
| bk_box T v v' : Back T v v' -> Back (TBox T) (VBox v) (VBox v')
| bk_none T : Back (TOption T) VNone VNone
| bk_some_null T v : prints_null v = true -> Back (TOption T) (VSome v) VNone
| bk_some T v v' : prints_null v = false -> Back T v v' -> Back (TOption T) (VSome v) (VSome v')
| bk_pair A B a b a' b' : Back A a a' -> Back B b b' -> Back (TPair A B) (VPair a b) (VPair a' b')
| bk_vec T l l' : Forall2 (Back T) l l' -> Back (TVec T) (VSeq l) (VSeq l')
| bk_arr T n l l' : Forall2 (Back T) l l' -> Back (TArr T n) (VSeq l) (VSeq l')
| bk_map h K T l l' :
    Forall2 (fun a b => fst a = fst b /\ Back T (snd a) (snd b)) l l' -> Back (TMap h K T) (VMap l) (VMap l')
| bk_value j j' : JBack j j' -> Back TValue (VJson j) (VJson j')
| bk_number n n' : JBack (JvNum n) (JvNum n') -> Back TNumber (VNum n) (VNum n')
| bk_array l l' : JBack (JvArr l) (JvArr l') -> Back TArray (VJArr l) (VJArr l')
| bk_object l l' : JBack (JvObj l) (JvObj l') -> Back TObject (VJObj l) (VJObj l')
| bk_struct id fs vs vs' :
    nth_error E id = Some (DStruct fs) ->
    Forall2 (fun fv v' => Back (snd (fst fv)) (snd fv) v') (combine fs vs) vs' ->
    Back (TNamed id) (VStruct vs) (VStruct vs')
| bk_enum id i : Back (TNamed id) (VEnum i) (VEnum i).
End Back.

(** Values that come back unchanged: no f64, no nonnegative I64, no Some that prints as
    null, no non-finite f32. *)
Fixpoint jplain (j : jval) : bool :=
  match j with
  | JvNum (NF64 _) => false
  | JvNum (NI64 n) => n <? 0
  | JvArr l => forallb jplain l
  | JvObj l => forallb (fun kj => jplain (snd kj)) l
  | _ => true
  end.
Fixpoint plain (v : val) : bool :=
  match v with
  | VF32 f => f_is_finite f
  | VF64 _ => false
  | VBox v => plain v
  | VSome v => negb (prints_null v) && plain v
  | VPair a b => plain a && plain b
  | VSeq l | VStruct l => forallb plain l
  | VMap l => forallb (fun kv => plain (snd kv)) l
  | VJson j => jplain j
  | VNum n => jplain (JvNum n)
  | VJArr l => forallb jplain l
  | VJObj l => forallb (fun kj => jplain (snd kj)) l
  | _ => true
  end.

(** The names of a derived type's fields or variants are distinct. *)
Definition distinct_names (E : env) : Prop :=
  Forall (fun d => match d with DStruct fs => NoDup (map fst fs) | DEnum ns => NoDup ns end) E.

(** Field and variant names are `str`s (derive/src/attr.rs). *)
Definition names_ok (E : env) : bool :=
  forallb (fun d => match d with DStruct fs => forallb (fun f => str_ok (fst f)) fs | DEnum ns => forallb str_ok ns end) E.
(** A HashMap iterates over its entries in some order. *)
Definition orders (hm : nat -> list (val * val) -> list (val * val)) : Prop := forall n l, Permutation l (hm n l).

(** to_string(&v) returns [s] (the loop needs a finite number of rounds). *)
Definition to_string_is (E : env) (hm : nat -> list (val * val) -> list (val * val)) (ryu : f64 -> bytes)
    (k : nat) (T : ty) (v : val) (s : bytes) : Prop :=
  exists N, forall fuel, (N <= fuel)%nat -> to_string E hm ryu k fuel T v = Ok s.

(** Lexicographic order of byte strings (Rust's Ord for str). *)
Definition lex_lt (a b : bytes) : Prop :=
  (exists c r, b = a ++ c :: r) \/
  (exists p x y a' b', a = p ++ x :: a' /\ b = p ++ y :: b' /\ x < y).
(** Every object of the document lists its keys in strictly increasing order. *)
Fixpoint doc_sorted (d : doc) : Prop :=
  match d with
  | DArr l => (fix go l := match l with [] => True | x :: r => doc_sorted x /\ go r end) l
  | DObj l =>
      StronglySorted lex_lt (map fst l) /\
      (fix go l := match l with [] => True | x :: r => doc_sorted (snd x) /\ go r end) l
  | _ => True
  end.

(** No finite float; and the value that such a json::Value comes back as. *)
Fixpoint no_finite_floats (j : jval) : bool :=
  match j with
  | JvNum (NF64 f) => negb (f_is_finite f)
  | JvArr l => forallb no_finite_floats l
  | JvObj l => forallb (fun kj => no_finite_floats (snd kj)) l
  | _ => true
  end.
Fixpoint jnorm (j : jval) : jval :=
  match j with
  | JvNum (NI64 n) => if n <? 0 then j else JvNum (NU64 n)
  | JvNum (NF64 f) => if f_is_finite f then j else JvNull
  | JvArr l => JvArr (map jnorm l)
  | JvObj l => JvObj (map (fun kj => (fst kj, jnorm (snd kj))) l)
  | _ => j
  end.
