(** Specification: what a Rust type reads from a JSON document. Written over documents
    (Grammar.v), independently of the parser, the visitors and the builders. *)
From Coq Require Import String ZArith List Bool Floats.SpecFloat.
From Verif Require Import Base Utf8 F64 Lexer Grammar LexSpec Types.
Import ListNotations.
Open Scope Z_scope.

(** ** Finite maps *)

(** The last occurrence of key k in l is bound to v. *)
Definition last_binding {K A} (l : list (K * A)) (k : K) (v : A) : Prop :=
  exists l1 l2, l = l1 ++ (k, v) :: l2 /\ Forall (fun kv => fst kv <> k) l2.

(** [m] is the finite map (strictly sorted by key) in which every key that occurs in
    [kvs] has the value of its last occurrence, and no other keys. *)
Definition MapOf {K A} (cmp : K -> K -> comparison) (kvs m : list (K * A)) : Prop :=
  sorted_keys cmp m = true /\ forall k v, In (k, v) m <-> last_binding kvs k v.

(** ** Numbers: an integer literal in the range of u64 (without minus sign) or i64 (with
    minus sign) is that integer; every other literal goes through the decimal to f64
    conversion, which is an error when the result is not finite. The conversion is
    characterised by C11-C13. *)
Definition reads_u (n : numlit) (z : Z) : Prop :=
  is_int_lit n /\ n_neg n = false /\ z = lit_int n /\ z <= u64_MAX.
Definition reads_i (n : numlit) (z : Z) : Prop :=
  is_int_lit n /\ n_neg n = true /\ z = lit_int n /\ i64_MIN <= z.
Definition reads_f (n : numlit) (f : f64) : Prop := lit_event n = Ok (EFloat f).

(** ** json::Value *)
Inductive JReads : doc -> jval -> Prop :=
| jr_null : JReads DNull JvNull
| jr_bool b : JReads (DBool b) (JvBool b)
| jr_str s : JReads (DStr s) (JvStr s)
| jr_u n z : reads_u n z -> JReads (DNum n) (JvNum (NU64 z))
| jr_i n z : reads_i n z -> JReads (DNum n) (JvNum (NI64 z))
| jr_f n f : reads_f n f -> JReads (DNum n) (JvNum (NF64 f))
| jr_arr l js : Forall2 JReads l js -> JReads (DArr l) (JvArr js)
| jr_obj l kvs m :
    Forall2 (fun kd kj => fst kd = fst kj /\ JReads (snd kd) (snd kj)) l kvs ->
    MapOf bytes_cmp kvs m ->
    JReads (DObj l) (JvObj m).

(** Well-formed as far as numbers are concerned: readable as a json::Value. *)
Definition readable (d : doc) : Prop := exists j, JReads d j.

(** k is the name of field number i (of type T), and of no earlier field. *)
Definition FieldAt (fs : list (bytes * ty)) (k : bytes) (i : nat) (T : ty) : Prop :=
  nth_error fs i = Some (k, T) /\
  forall j T', (j < i)%nat -> nth_error fs j <> Some (k, T').
Definition VariantAt (ns : list bytes) (k : bytes) (i : nat) : Prop :=
  nth_error ns i = Some k /\ forall j, (j < i)%nat -> nth_error ns j <> Some k.

(** ** Map keys: strings are themselves; an integer is an optional sign (minus only for
    signed types) and at least one decimal digit, in range; bools are spelt true, false. *)
Inductive KeySign (sg : bool) : bytes -> bool -> Prop :=
| ks_none : KeySign sg [] false
| ks_plus : KeySign sg [43] false
| ks_minus : sg = true -> KeySign sg [45] true.
Inductive KeyReads : kty -> bytes -> val -> Prop :=
| kr_string s : KeyReads KString s (VStr s)
| kr_int sg b sign neg d ds z :
    KeySign sg sign neg -> Forall digit (d :: ds) ->
    z = (if neg then - digits_val (d :: ds) else digits_val (d :: ds)) ->
    int_min sg b <= z <= int_max sg b ->
    KeyReads (KInt sg b) (sign ++ dtext (d :: ds)) (VInt z)
| kr_true : KeyReads KBool (bs "true") (VBool true)
| kr_false : KeyReads KBool (bs "false") (VBool false).

(** ** All types *)
Inductive Reads (E : env) : ty -> doc -> val -> Prop :=
| rd_unit : Reads E TUnit DNull VUnit
| rd_bool b : Reads E TBool (DBool b) (VBool b)
| rd_string s : Reads E TString (DStr s) (VStr s)
| rd_int sg b n :
    is_int_lit n -> (n_neg n = true -> sg = true) ->
    int_min sg b <= lit_int n <= int_max sg b ->
    Reads E (TInt sg b) (DNum n) (VInt (lit_int n))
| rd_f64_int n z : reads_u n z \/ reads_i n z -> Reads E TF64 (DNum n) (VF64 (f64_of_Z z))
| rd_f64 n f : reads_f n f -> Reads E TF64 (DNum n) (VF64 f)
| rd_f32_int n z : reads_u n z \/ reads_i n z -> Reads E TF32 (DNum n) (VF32 (f32_of_Z z))
| rd_f32 n f : reads_f n f -> Reads E TF32 (DNum n) (VF32 (f32_of_f64 f))
| rd_box T d v : Reads E T d v -> Reads E (TBox T) d (VBox v)
| rd_none T : Reads E (TOption T) DNull VNone
| rd_some T d v : d <> DNull -> Reads E T d v -> Reads E (TOption T) d (VSome v)
| rd_pair A B d1 d2 a b : Reads E A d1 a -> Reads E B d2 b -> Reads E (TPair A B) (DArr [d1; d2]) (VPair a b)
| rd_vec T l vs : Forall2 (Reads E T) l vs -> Reads E (TVec T) (DArr l) (VSeq vs)
| rd_arr T n l vs : List.length l = n -> Forall2 (Reads E T) l vs -> Reads E (TArr T n) (DArr l) (VSeq vs)
| rd_map h K T l kvs m :
    Forall2 (fun kd kv => KeyReads K (fst kd) (fst kv) /\ Reads E T (snd kd) (snd kv)) l kvs ->
    MapOf key_cmp kvs m ->
    Reads E (TMap h K T) (DObj l) (VMap m)
| rd_value d j : JReads d j -> Reads E TValue d (VJson j)
| rd_num_u n z : reads_u n z -> Reads E TNumber (DNum n) (VNum (NU64 z))
| rd_num_i n z : reads_i n z -> Reads E TNumber (DNum n) (VNum (NI64 z))
| rd_num_f n f : reads_f n f -> Reads E TNumber (DNum n) (VNum (NF64 f))
| rd_array l js : JReads (DArr l) (JvArr js) -> Reads E TArray (DArr l) (VJArr js)
| rd_object l m : JReads (DObj l) (JvObj m) -> Reads E TObject (DObj l) (VJObj m)
(** Every member is well-formed; every member whose key is a field name is readable at
    the field's type; a field has the value of its last occurrence, or is absent and of
    type Option. *)
| rd_struct id fs l vs :
    nth_error E id = Some (DStruct fs) ->
    Forall (fun kd => readable (snd kd)) l ->
    (forall k d i T, In (k, d) l -> FieldAt fs k i T -> exists v, Reads E T d v) ->
    List.length vs = List.length fs ->
    (forall i n T v, nth_error fs i = Some (n, T) -> nth_error vs i = Some v ->
       (FieldAt fs n i T /\ exists d, last_binding l n d /\ Reads E T d v) \/
       ((~ FieldAt fs n i T \/ forall d, ~ In (n, d) l) /\
        (exists T', T = TOption T') /\ v = VNone)) ->
    Reads E (TNamed id) (DObj l) (VStruct vs)
| rd_enum id ns k i :
    nth_error E id = Some (DEnum ns) -> VariantAt ns k i ->
    Reads E (TNamed id) (DStr k) (VEnum i).

(** Integer types of the Rust language have 8, 16, 32 or 64 bits here. *)
Fixpoint ty_ok (T : ty) : bool :=
  match T with
  | TInt _ b => bits_ok b
  | TBox t | TOption t | TVec t | TArr t _ => ty_ok t
  | TPair a b => ty_ok a && ty_ok b
  | TMap _ k t => (match k with KInt _ b => bits_ok b | _ => true end) && ty_ok t
  | _ => true
  end.
Definition env_ok (E : env) : bool :=
  forallb (fun d => match d with DStruct fs => forallb (fun f => ty_ok (snd f)) fs | DEnum _ => true end) E.
