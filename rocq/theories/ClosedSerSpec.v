(** C57: the values of the closed universe of types (Types.v) as values of the open world
    (OpenSer.v). A json::Value looks like the containers it is made of. *)
From Coq Require Import ZArith List Bool Permutation Floats.SpecFloat.
From Verif Require Import Base Utf8 F64 Types Ser OpenSer.
Import ListNotations.

(** No user-defined objects; the key of an entry is the text that ToString gives. *)
Definition no_users : user unit Empty_set rstr Empty_set Empty_set := {|
  x_begin := fun x : Empty_set => match x with end;
  x_seq_next := fun q : Empty_set => match q with end;
  x_map_next := fun m : Empty_set => match m with end;
  x_seq_drop := fun q : Empty_set => match q with end;
  x_map_drop := fun m : Empty_set => match m with end;
  x_key := fun k st => (Ok (text k), st)
|}.
Notation oval := (cval Empty_set rstr).

Inductive EmbedsNum : jnum -> oval -> Prop :=
| en_u z : EmbedsNum (NU64 z) (CUnsigned z)
| en_i z : EmbedsNum (NI64 z) (CSigned z)
| en_f f : EmbedsNum (NF64 f) (CFloat f).
Inductive EmbedsJson : jval -> oval -> Prop :=
| ej_null : EmbedsJson JvNull CUnit
| ej_bool b : EmbedsJson (JvBool b) (CBool b)
| ej_num n c : EmbedsNum n c -> EmbedsJson (JvNum n) c
| ej_str r : EmbedsJson (JvStr (text r)) (CStr r)
| ej_arr l cs : Forall2 EmbedsJson l cs -> EmbedsJson (JvArr l) (CSlice cs)
| ej_obj l cs : Forall2 (fun kj kc => text (fst kc) = fst kj /\ EmbedsJson (snd kj) (snd kc)) l cs -> EmbedsJson (JvObj l) (CMap cs).

Section Embeds.
Variable E : env.
Inductive Embeds : ty -> val -> oval -> Prop :=
| em_unit : Embeds TUnit VUnit CUnit
| em_bool b : Embeds TBool (VBool b) (CBool b)
| em_string r : Embeds TString (VStr (text r)) (CStr r)
| em_uint b z : Embeds (TInt false b) (VInt z) (CUnsigned z)
| em_sint b z : Embeds (TInt true b) (VInt z) (CSigned z)
| em_f32 f : Embeds TF32 (VF32 f) (CFloat (f64_of_f32 f))
| em_f64 f : Embeds TF64 (VF64 f) (CFloat f)
| em_box T v c : Embeds T v c -> Embeds (TBox T) (VBox v) (CRef c)
| em_none T : Embeds (TOption T) VNone (COption None)
| em_some T v c : Embeds T v c -> Embeds (TOption T) (VSome v) (COption (Some c))
| em_pair A B a b ca cb : Embeds A a ca -> Embeds B b cb -> Embeds (TPair A B) (VPair a b) (CPair ca cb)
| em_vec T l cs : Forall2 (Embeds T) l cs -> Embeds (TVec T) (VSeq l) (CSlice cs)
| em_arr T n l cs : Forall2 (Embeds T) l cs -> Embeds (TArr T n) (VSeq l) (CSlice cs)
(** The entries in the order of iteration: a BTreeMap's by key, a HashMap's in any order. *)
| em_map (h : bool) K T m l cs :
    (if h then Permutation m l else m = l) ->
    Forall2 (fun kv kc => text (fst kc) = key_to_string (fst kv) /\ Embeds T (snd kv) (snd kc)) l cs ->
    Embeds (TMap h K T) (VMap m) (CMap cs)
| em_value j c : EmbedsJson j c -> Embeds TValue (VJson j) c
| em_number n c : EmbedsNum n c -> Embeds TNumber (VNum n) c
| em_array l c : EmbedsJson (JvArr l) c -> Embeds TArray (VJArr l) c
| em_object l c : EmbedsJson (JvObj l) c -> Embeds TObject (VJObj l) c
| em_struct id fs vs cs :
    nth_error E id = Some (DStruct fs) -> List.length vs = List.length fs ->
    Forall2 (fun fv kc => text (fst kc) = fst (fst fv) /\ Embeds (snd (fst fv)) (snd fv) (snd kc)) (combine fs vs) cs ->
    Embeds (TNamed id) (VStruct vs) (CStruct cs)
| em_enum id ns i r :
    nth_error E id = Some (DEnum ns) -> nth_error ns i = Some (text r) ->
    Embeds (TNamed id) (VEnum i) (CVariant r).
End Embeds.
