(** The universe of Rust types with Serialize/Deserialize impls, and their values. *)
From Coq Require Import String ZArith List Bool Floats.SpecFloat.
From Verif Require Import Base Utf8 F64 Lexer.
Import ListNotations.
Open Scope Z_scope.

(** Map key types K: FromStr + Ord + Hash + Eq + ToString (de/impls.rs:541-546,
    612-616; ser/impls.rs:180-183, 204-207). The bounds are open-ended in Rust;
    the model covers String, the integer types and bool. *)
Inductive kty :=
| KString
| KInt (signed : bool) (bits : Z)
| KBool.

(** Types. [TInt s b] is the b-bit (un)signed integer type; isize/usize are the
    integer types of the platform's pointer width. [TNamed i] is the i-th derived
    struct or enum of the environment, so derived types may be (mutually)
    recursive. A generic derived struct is modelled by its instances. *)
Inductive ty :=
| TUnit                          (* de/impls.rs:18, ser/impls.rs:15 *)
| TBool                          (* de/impls.rs:33, ser/impls.rs:21 *)
| TString                        (* de/impls.rs:48, ser/impls.rs:33 *)
| TInt (signed : bool) (bits : Z)(* de/impls.rs:63-125, ser/impls.rs:39-67 *)
| TF32                           (* de/impls.rs:156, ser/impls.rs:78 *)
| TF64                           (* de/impls.rs:157, ser/impls.rs:79 *)
| TBox (t : ty)                  (* de/impls.rs:159, ser/impls.rs:90 *)
| TOption (t : ty)               (* de/impls.rs:295, ser/impls.rs:99 *)
| TPair (a b : ty)               (* de/impls.rs:356, ser/impls.rs:120 *)
| TVec (t : ty)                  (* de/impls.rs:411, ser/impls.rs:170 *)
| TArr (t : ty) (n : nat)        (* de/impls.rs:465, ser/impls.rs:161 *)
| TMap (hash : bool) (k : kty) (v : ty) (* HashMap / BTreeMap, de/impls.rs:541, 612 *)
| TValue                         (* json/value.rs *)
| TNumber                        (* json/number.rs *)
| TArray                         (* json/array.rs *)
| TObject                        (* json/object.rs *)
| TNamed (id : nat).             (* derive/src/{de,ser}.rs *)

(** A derived struct: wire names and types of its fields, in declaration order;
    a derived enum: wire names of its variants (names as computed by
    derive/src/attr.rs, see Derive.v). *)
Inductive decl :=
| DStruct (fields : list (bytes * ty))
| DEnum (variants : list bytes).

Definition env := list decl.

(** enum Number, json/number.rs:8-12. *)
Inductive jnum := NU64 (n : Z) | NI64 (n : Z) | NF64 (f : f64).

(** enum Value, json/value.rs:29-37; Array = Vec<Value> (json/array.rs:15), Object =
    BTreeMap<String, Value> (json/object.rs:17), kept as the key-sorted list of its
    entries. *)
Inductive jval :=
| JvNull
| JvBool (b : bool)
| JvNum (n : jnum)
| JvStr (s : bytes)
| JvArr (l : list jval)
| JvObj (l : list (bytes * jval)).

(** Values of the universe. A map (hash or btree) is the key-sorted list of its
    entries, i.e. a canonical representation of a finite map; the iteration order
    of a HashMap is a parameter of the serializer. *)
Inductive val :=
| VUnit
| VBool (b : bool)
| VStr (s : bytes)
| VInt (z : Z)
| VF32 (f : f32)
| VF64 (f : f64)
| VBox (v : val)
| VNone
| VSome (v : val)
| VPair (a b : val)
| VSeq (l : list val)            (* Vec<T> and [T; N] *)
| VMap (l : list (val * val))    (* HashMap<K,V>, BTreeMap<K,V> *)
| VJson (j : jval)
| VNum (n : jnum)
| VJArr (l : list jval)
| VJObj (l : list (bytes * jval))
| VStruct (l : list val)
| VEnum (i : nat).

(** Ord for str / String: lexicographic on bytes. *)
Fixpoint bytes_cmp (a b : bytes) : comparison :=
  match a, b with
  | [], [] => Eq
  | [], _ => Lt
  | _, [] => Gt
  | x :: a', y :: b' => match x ?= y with Eq => bytes_cmp a' b' | c => c end
  end.

Definition bytes_eqb (a b : bytes) : bool :=
  match bytes_cmp a b with Eq => true | _ => false end.

Definition bool_cmp (a b : bool) : comparison :=
  match a, b with false, true => Lt | true, false => Gt | _, _ => Eq end.

(** Ord on keys (String, integers, bool). *)
Definition key_cmp (a b : val) : comparison :=
  match a, b with
  | VStr x, VStr y => bytes_cmp x y
  | VInt x, VInt y => x ?= y
  | VBool x, VBool y => bool_cmp x y
  | _, _ => Eq
  end.

(** BTreeMap::insert (and HashMap::insert on the canonical representation): an
    existing entry keeps its key and gets the new value. *)
Fixpoint minsert {K A} (cmp : K -> K -> comparison) (k : K) (v : A) (l : list (K * A))
  : list (K * A) :=
  match l with
  | [] => [(k, v)]
  | (k', v') :: l' =>
      match cmp k k' with
      | Lt => (k, v) :: l
      | Eq => (k', v) :: l'
      | Gt => (k', v') :: minsert cmp k v l'
      end
  end.

(** Integer type ranges: $ty::MIN and $ty::MAX. *)
Definition int_min (signed : bool) (bits : Z) : Z := if signed then - 2 ^ (bits - 1) else 0.
Definition int_max (signed : bool) (bits : Z) : Z :=
  if signed then 2 ^ (bits - 1) - 1 else 2 ^ bits - 1.
Definition int_ok (signed : bool) (bits z : Z) : bool :=
  (int_min signed bits <=? z) && (z <=? int_max signed bits).
Definition bits_ok (bits : Z) : bool :=
  (bits =? 8) || (bits =? 16) || (bits =? 32) || (bits =? 64).

(** core's FromStr for the integer types: optional '+', or '-' when signed, then at
    least one digit and nothing else; out-of-range values are errors. *)
Fixpoint digits_value (acc : Z) (s : bytes) : option Z :=
  match s with
  | [] => Some acc
  | c :: s' => if is_digit c then digits_value (acc * 10 + (c - 48)) s' else None
  end.

Definition int_from_str (signed : bool) (bits : Z) (s : bytes) : option Z :=
  let '(neg, ds) :=
    match s with
    | c :: r => if c =? 43 then (false, r)
                else if (c =? 45) && signed then (true, r)
                else (false, s)
    | [] => (false, s)
    end in
  match ds with
  | [] => None
  | _ =>
      match digits_value 0 ds with
      | Some n =>
          let z := if neg then - n else n in
          if int_ok signed bits z then Some z else None
      | None => None
      end
  end.

(** K::from_str for the modelled key types. *)
Definition key_from_str (k : kty) (s : bytes) : option val :=
  match k with
  | KString => Some (VStr s)
  | KInt sg b => option_map VInt (int_from_str sg b s)
  | KBool =>
      if bytes_eqb s (bs "true") then Some (VBool true)
      else if bytes_eqb s (bs "false") then Some (VBool false)
      else None
  end.

(** Decimal digits of a nonnegative integer, as written by itoa and by ToString. *)
Fixpoint dec_digits_aux (fuel : nat) (n : Z) (acc : bytes) : bytes :=
  match fuel with
  | O => acc
  | S f =>
      let acc' := (48 + n mod 10) :: acc in
      if n / 10 =? 0 then acc' else dec_digits_aux f (n / 10) acc'
  end.
Definition dec_digits (n : Z) : bytes := dec_digits_aux (S (Z.to_nat (Z.log2 n))) n [].

(** itoa::Buffer::format for u64 and i64. *)
Definition itoa (z : Z) : bytes :=
  if z <? 0 then 45 :: dec_digits (- z) else dec_digits z.

(** K::to_string for the modelled key types. *)
Definition key_to_string (k : val) : bytes :=
  match k with
  | VStr s => s
  | VInt z => itoa z
  | VBool b => if b then bs "true" else bs "false"
  | _ => []
  end.

(** Well-formedness of the values Rust can construct. *)
Definition f64_ok (f : f64) : bool := valid_binary 53 1024 f.
Definition f32_ok (f : f32) : bool := valid_binary 24 128 f.

Definition jnum_ok (n : jnum) : bool :=
  match n with
  | NU64 n => (0 <=? n) && (n <=? u64_MAX)
  | NI64 n => (i64_MIN <=? n) && (n <=? i64_MAX)
  | NF64 f => f64_ok f
  end.

Fixpoint sorted_keys {K A} (cmp : K -> K -> comparison) (l : list (K * A)) : bool :=
  match l with
  | [] => true
  | (k, _) :: l' =>
      match l' with
      | [] => true
      | (k', _) :: _ => match cmp k k' with Lt => sorted_keys cmp l' | _ => false end
      end
  end.

Fixpoint jval_ok (j : jval) : bool :=
  match j with
  | JvNull | JvBool _ => true
  | JvNum n => jnum_ok n
  | JvStr s => str_ok s
  | JvArr l => forallb jval_ok l
  | JvObj l => sorted_keys bytes_cmp l && forallb (fun kv => str_ok (fst kv) && jval_ok (snd kv)) l
  end.

Definition key_ok (k : kty) (v : val) : bool :=
  match k, v with
  | KString, VStr s => str_ok s
  | KInt sg b, VInt z => int_ok sg b z
  | KBool, VBool _ => true
  | _, _ => false
  end.

(** [has_type E T v]: v is a value of the Rust type T. *)
Inductive has_type (E : env) : ty -> val -> Prop :=
| ht_unit : has_type E TUnit VUnit
| ht_bool b : has_type E TBool (VBool b)
| ht_string s : str_ok s = true -> has_type E TString (VStr s)
| ht_int sg b z : int_ok sg b z = true -> has_type E (TInt sg b) (VInt z)
| ht_f32 f : f32_ok f = true -> has_type E TF32 (VF32 f)
| ht_f64 f : f64_ok f = true -> has_type E TF64 (VF64 f)
| ht_box T v : has_type E T v -> has_type E (TBox T) (VBox v)
| ht_none T : has_type E (TOption T) VNone
| ht_some T v : has_type E T v -> has_type E (TOption T) (VSome v)
| ht_pair A B a b : has_type E A a -> has_type E B b -> has_type E (TPair A B) (VPair a b)
| ht_vec T l : Forall (has_type E T) l -> has_type E (TVec T) (VSeq l)
| ht_arr T n l : length l = n -> Forall (has_type E T) l -> has_type E (TArr T n) (VSeq l)
| ht_map h K T l :
    sorted_keys key_cmp l = true ->
    Forall (fun kv => key_ok K (fst kv) = true) l ->
    Forall (fun kv => has_type E T (snd kv)) l ->
    has_type E (TMap h K T) (VMap l)
| ht_value j : jval_ok j = true -> has_type E TValue (VJson j)
| ht_number n : jnum_ok n = true -> has_type E TNumber (VNum n)
| ht_array l : jval_ok (JvArr l) = true -> has_type E TArray (VJArr l)
| ht_object l : jval_ok (JvObj l) = true -> has_type E TObject (VJObj l)
| ht_struct id fs vs :
    nth_error E id = Some (DStruct fs) ->
    Forall2 (fun f v => has_type E (snd f) v) fs vs ->
    has_type E (TNamed id) (VStruct vs)
| ht_enum id ns i :
    nth_error E id = Some (DEnum ns) -> (i < length ns)%nat ->
    has_type E (TNamed id) (VEnum i).
