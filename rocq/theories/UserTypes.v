(** The generic Deserialize impls, over arbitrary user-defined type parameters.

    A user-defined type T: Deserialize (src/de/mod.rs:216-229) is modelled by whatever its
    methods do: [uV], [uS], [uM] are the `&mut dyn Visitor`, `Box<dyn Seq>`, `Box<dyn Map>`
    it hands out, [u_ops] their methods. The methods may read and write
    - a state of type G that stands for everything outside the place (statics, thread
      locals, cells shared between several types, ...),
    - the content [option A] of the place `out` that begin(out) was given,
    - the builders that borrow the place, of type [uU].
    They may fail and panic. Simplification: dropping a value of type A has no effect of
    its own (the drops of values are the subject of C53, C54, C55). *)
From Coq Require Import ZArith List Bool.
From Verif Require Import Base Lexer Driver.
Import ListNotations.
Open Scope Z_scope.

Record utype (G A : Type) := mk_utype {
  uU : Type; uV : Type; uS : Type; uM : Type;
  u_ops : iface (G * (option A * uU)) uV uS uM;
  (** begin(out), de/mod.rs:222; it may also write to the place, or panic. *)
  u_begin : G -> option A -> res uV * (G * (option A * uU));
  (** default(), de/mod.rs:225-228. *)
  u_default : G -> res (option A) * G;
  (** No builder borrows the place. *)
  u_idle : uU
}.
Arguments uU {G A}. Arguments uV {G A}. Arguments uS {G A}. Arguments uM {G A}.
Arguments u_ops {G A}. Arguments u_begin {G A}. Arguments u_default {G A}. Arguments u_idle {G A}.

(** The default implementation of default(): None, de/mod.rs:226-228. *)
Definition no_default {G A} (g : G) : res (option A) * G := (Ok None, g).

Definition rmap {A B} (f : A -> B) (r : res A) : res B :=
  match r with Ok a => Ok (f a) | Err => Err | Fault e => Fault e end.

(** The Visitor method of a scalar event, de/mod.rs:237-266. *)
Definition scalar {St V SH MH} (I : iface St V SH MH) (v : V) (ev : event) (st : St) : res unit * St :=
  match ev with
  | ENull => v_null I v st
  | EBool b => v_bool I v b st
  | EStr s => v_str I v s st
  | ENeg n => v_neg I v n st
  | ENonneg n => v_nonneg I v n st
  | EFloat f => v_float I v f st
  | ESeqStart | EMapStart => (Err, st)
  end.

(** ** Visitors around visitors

    The visitors, Seqs and Maps reachable from a container are its own ones ([Own]) and
    those that the impl of the type parameter handed out ([Inn]): calls on the latter go
    directly there and act on the part of the state that belongs to the parameter, which
    [get] finds and [set] replaces. (No such part: a call on a dangling reference.) *)
Inductive hdl (O X : Type) := Own (o : O) | Inn (x : X).
Arguments Own {O X} o. Arguments Inn {O X} x.

Record outer (S OV OS OM V SH MH : Type) := mk_outer {
  o_scalar : OV -> event -> S -> res unit * S;
  o_seq : OV -> S -> res (hdl OS SH) * S;
  o_map : OV -> S -> res (hdl OM MH) * S;
  o_element : OS -> S -> res (hdl OV V) * S;
  o_sfinish : OS -> S -> res unit * S;
  o_sdrop : OS -> S -> res unit * S;
  o_key : OM -> bytes -> S -> res (hdl OV V) * S;
  o_mfinish : OM -> S -> res unit * S;
  o_mdrop : OM -> S -> res unit * S
}.
Arguments o_scalar {S OV OS OM V SH MH}. Arguments o_seq {S OV OS OM V SH MH}. Arguments o_map {S OV OS OM V SH MH}.
Arguments o_element {S OV OS OM V SH MH}. Arguments o_sfinish {S OV OS OM V SH MH}. Arguments o_sdrop {S OV OS OM V SH MH}.
Arguments o_key {S OV OS OM V SH MH}. Arguments o_mfinish {S OV OS OM V SH MH}. Arguments o_mdrop {S OV OS OM V SH MH}.

Section Nest.
Context {S OV OS OM S0 V SH MH : Type}.
Variable I : iface S0 V SH MH.
Variable get : S -> option S0.
Variable set : S0 -> S -> S.
Variable O : outer S OV OS OM V SH MH.

Definition inside {R R'} (j : R -> R') (f : S0 -> res R * S0) (st : S) : res R' * S :=
  match get st with
  | Some s => let r := f s in (rmap j (fst r), set (snd r) st)
  | None => (Fault FUB, st)
  end.

Definition nest : iface S (hdl OV V) (hdl OS SH) (hdl OM MH) := {|
  v_null := fun h st => match h with Own o => o_scalar O o ENull st | Inn v => inside (fun u => u) (v_null I v) st end;
  v_bool := fun h b st => match h with Own o => o_scalar O o (EBool b) st | Inn v => inside (fun u => u) (v_bool I v b) st end;
  v_str := fun h s st => match h with Own o => o_scalar O o (EStr s) st | Inn v => inside (fun u => u) (v_str I v s) st end;
  v_neg := fun h n st => match h with Own o => o_scalar O o (ENeg n) st | Inn v => inside (fun u => u) (v_neg I v n) st end;
  v_nonneg := fun h n st => match h with Own o => o_scalar O o (ENonneg n) st | Inn v => inside (fun u => u) (v_nonneg I v n) st end;
  v_float := fun h f st => match h with Own o => o_scalar O o (EFloat f) st | Inn v => inside (fun u => u) (v_float I v f) st end;
  v_seq := fun h st => match h with Own o => o_seq O o st | Inn v => inside Inn (v_seq I v) st end;
  v_map := fun h st => match h with Own o => o_map O o st | Inn v => inside Inn (v_map I v) st end;
  s_element := fun h st => match h with Own o => o_element O o st | Inn s => inside Inn (s_element I s) st end;
  s_finish := fun h st => match h with Own o => o_sfinish O o st | Inn s => inside (fun u => u) (s_finish I s) st end;
  s_drop := fun h st => match h with Own o => o_sdrop O o st | Inn s => inside (fun u => u) (s_drop I s) st end;
  m_key := fun h k st => match h with Own o => o_key O o k st | Inn m => inside Inn (m_key I m k) st end;
  m_finish := fun h st => match h with Own o => o_mfinish O o st | Inn m => inside (fun u => u) (m_finish I m) st end;
  m_drop := fun h st => match h with Own o => o_mdrop O o st | Inn m => inside (fun u => u) (m_drop I m) st end
|}.
End Nest.

(** Two type parameters side by side. *)
Section Sum.
Context {G S1 V1 SH1 MH1 S2 V2 SH2 MH2 : Type}.
Variable I1 : iface (G * S1) V1 SH1 MH1.
Variable I2 : iface (G * S2) V2 SH2 MH2.

Definition left_in {R R'} (j : R -> R') (f : G * S1 -> res R * (G * S1)) (st : G * (S1 * S2)) : res R' * (G * (S1 * S2)) :=
  let '(g, (s1, s2)) := st in
  let r := f (g, s1) in (rmap j (fst r), (fst (snd r), (snd (snd r), s2))).
Definition right_in {R R'} (j : R -> R') (f : G * S2 -> res R * (G * S2)) (st : G * (S1 * S2)) : res R' * (G * (S1 * S2)) :=
  let '(g, (s1, s2)) := st in
  let r := f (g, s2) in (rmap j (fst r), (fst (snd r), (s1, snd (snd r)))).
Definition lr {R1 R2 X1 X2} (f1 : X1 -> G * S1 -> res R1 * (G * S1)) (f2 : X2 -> G * S2 -> res R2 * (G * S2))
    (h : X1 + X2) : G * (S1 * S2) -> res (R1 + R2) * (G * (S1 * S2)) :=
  match h with inl x => left_in inl (f1 x) | inr x => right_in inr (f2 x) end.
Definition same {X1 X2} (f1 : X1 -> G * S1 -> res unit * (G * S1)) (f2 : X2 -> G * S2 -> res unit * (G * S2))
    (h : X1 + X2) : G * (S1 * S2) -> res unit * (G * (S1 * S2)) :=
  match h with inl x => left_in (fun u => u) (f1 x) | inr x => right_in (fun u => u) (f2 x) end.

Definition sum_iface : iface (G * (S1 * S2)) (V1 + V2) (SH1 + SH2) (MH1 + MH2) := {|
  v_null := same (v_null I1) (v_null I2);
  v_bool := fun h b => same (fun v => v_bool I1 v b) (fun v => v_bool I2 v b) h;
  v_str := fun h s => same (fun v => v_str I1 v s) (fun v => v_str I2 v s) h;
  v_neg := fun h n => same (fun v => v_neg I1 v n) (fun v => v_neg I2 v n) h;
  v_nonneg := fun h n => same (fun v => v_nonneg I1 v n) (fun v => v_nonneg I2 v n) h;
  v_float := fun h f => same (fun v => v_float I1 v f) (fun v => v_float I2 v f) h;
  v_seq := lr (v_seq I1) (v_seq I2);
  v_map := lr (v_map I1) (v_map I2);
  s_element := lr (s_element I1) (s_element I2);
  s_finish := same (s_finish I1) (s_finish I2);
  s_drop := same (s_drop I1) (s_drop I2);
  m_key := fun h k => lr (fun m => m_key I1 m k) (fun m => m_key I2 m k) h;
  m_finish := same (m_finish I1) (m_finish I2);
  m_drop := same (m_drop I1) (m_drop I2)
|}.
End Sum.

(** The result of begin (or of a method) of the parameter, as seen by the container: [h]
    says how the result is passed on, [w] how the world and the parameter's slot are
    stored. *)
Definition pass {G S R R' S'} (h : R -> R') (w : G -> S -> S') (r : res R * (G * S)) : res R' * S' :=
  (rmap h (fst r), w (fst (snd r)) (snd (snd r))).

Definition olist {A} (o : option A) : list A := match o with Some a => [a] | None => [] end.

(** A container's state: the world, the container's own place, and its builder if there is
    one, which consists of data [X] of its own and the slot of the parameter. *)
Definition bget {G C X Sl} (st : G * (option C * option (X * Sl))) : option (G * Sl) :=
  match st with (g, (_, Some (_, sl))) => Some (g, sl) | _ => None end.
Definition bset {G C X Sl} (s : G * Sl) (st : G * (option C * option (X * Sl)))
  : G * (option C * option (X * Sl)) :=
  match st with
  | (_, (out, Some (x, _))) => (fst s, (out, Some (x, snd s)))
  | _ => st
  end.

Section Containers.
Context {G : Type}.

(** ** Vec<T>, de/impls.rs:411-463 *)
Section Vec.
Context {A : Type}.
Variable T : utype G A.

Definition vec_st : Type := (G * (option (list A) * option (list A * (option A * uU T))))%type.

(** struct VecBuilder { out, vec, element }: the data is [vec], the slot is [element]. *)
Definition vec_outer : outer vec_st unit unit Empty_set (uV T) (uS T) (uM T) := {|
  o_scalar := fun _ _ st => (Err, st);
  (* impls.rs:422-428 *)
  o_seq := fun _ st => let '(g, (out, _)) := st in (Ok (Own tt), (g, (out, Some ([], (None, u_idle T)))));
  o_map := fun _ st => (Err, st);
  (* element: shift, then begin(&mut self.element), impls.rs:438-442, 449-452 *)
  o_element := fun _ st =>
    match st with
    | (g, (out, Some (vec, (e, _)))) =>
        pass Inn (fun g' sl => (g', (out, Some (vec ++ olist e, sl)))) (u_begin T g None)
    | _ => (Fault FUB, st)
    end;
  (* finish: shift, then *self.out = Some(mem::take(&mut self.vec)), impls.rs:454-458 *)
  o_sfinish := fun _ st =>
    match st with
    | (g, (_, Some (vec, (e, u)))) => (Ok tt, (g, (Some (vec ++ olist e), Some ([], (None, u)))))
    | _ => (Fault FUB, st)
    end;
  o_sdrop := fun _ st => let '(g, (out, _)) := st in (Ok tt, (g, (out, None)));
  o_key := fun m : Empty_set => match m with end;
  o_mfinish := fun m : Empty_set => match m with end;
  o_mdrop := fun m : Empty_set => match m with end
|}.

Definition uvec : utype G (list A) := {|
  u_ops := nest (u_ops T) bget bset vec_outer;
  u_begin := fun g o => (Ok (Own tt), (g, (o, None)));
  u_default := no_default;
  u_idle := None
|}.
End Vec.

(** ** [T; N], de/impls.rs:465-539. The array of MaybeUninit<T> and `len` are the list of
    the initialised elements (their memory is the subject of C53). *)
Section Arr.
Context {A : Type}.
Variable T : utype G A.
Variable N : nat.

(** fn shift, impls.rs:495-503: the element is taken out of its place in any case. *)
Definition arr_shift (arr : list A) (e : option A) : option (list A) :=
  match e with
  | Some a => if (List.length arr <? N)%nat then Some (arr ++ [a]) else None
  | None => Some arr
  end.

Definition arr_outer : outer (vec_st T) unit unit Empty_set (uV T) (uS T) (uM T) := {|
  o_scalar := fun _ _ st => (Err, st);
  (* impls.rs:476-483 *)
  o_seq := fun _ st => let '(g, (out, _)) := st in (Ok (Own tt), (g, (out, Some ([], (None, u_idle T)))));
  o_map := fun _ st => (Err, st);
  (* impls.rs:510-513 *)
  o_element := fun _ st =>
    match st with
    | (g, (out, Some (arr, (e, u)))) =>
        match arr_shift arr e with
        | Some arr' => pass Inn (fun g' sl => (g', (out, Some (arr', sl)))) (u_begin T g None)
        | None => (Err, (g, (out, Some (arr, (None, u)))))
        end
    | _ => (Fault FUB, st)
    end;
  (* impls.rs:515-528 *)
  o_sfinish := fun _ st =>
    match st with
    | (g, (out, Some (arr, (e, u)))) =>
        match arr_shift arr e with
        | Some arr' =>
            if (List.length arr' <? N)%nat then (Err, (g, (out, Some (arr', (None, u)))))
            else (Ok tt, (g, (Some arr', Some ([], (None, u)))))
        | None => (Err, (g, (out, Some (arr, (None, u)))))
        end
    | _ => (Fault FUB, st)
    end;
  o_sdrop := fun _ st => let '(g, (out, _)) := st in (Ok tt, (g, (out, None)));
  o_key := fun m : Empty_set => match m with end;
  o_mfinish := fun m : Empty_set => match m with end;
  o_mdrop := fun m : Empty_set => match m with end
|}.

Definition uarr : utype G (list A) := {|
  u_ops := nest (u_ops T) bget bset arr_outer;
  u_begin := fun g o => (Ok (Own tt), (g, (o, None)));
  u_default := no_default;
  u_idle := None
|}.
End Arr.

(** ** Option<T>, de/impls.rs:295-354. The content of the place is the place of T. *)
Section Opt.
Context {A : Type}.
Variable T : utype G A.

Definition opt_st : Type := (G * (option (option A) * uU T))%type.
Definition oget (st : opt_st) : option (G * (option A * uU T)) :=
  match st with (g, (Some e, u)) => Some (g, (e, u)) | _ => None end.
Definition oset (s : G * (option A * uU T)) (st : opt_st) : opt_st :=
  (fst s, (Some (fst (snd s)), snd (snd s))).

(** self.out = Some(None); Deserialize::begin(self.out.as_mut().unwrap()).method(..) *)
Definition opt_forward {R R'} (j : R -> R') (m : uV T -> G * (option A * uU T) -> res R * (G * (option A * uU T)))
    (st : opt_st) : res R' * opt_st :=
  let '(g, _) := st in
  match u_begin T g None with
  | (Ok v, s) => pass j (fun g' sl => (g', (Some (fst sl), snd sl))) (m v s)
  | (Err, s) => (Err, (fst s, (Some (fst (snd s)), snd (snd s))))
  | (Fault f, s) => (Fault f, (fst s, (Some (fst (snd s)), snd (snd s))))
  end.

Definition opt_outer : outer opt_st unit Empty_set Empty_set (uV T) (uS T) (uM T) := {|
  (* impls.rs:311-339 *)
  o_scalar := fun _ ev st =>
    match ev with
    | ENull => let '(g, (_, u)) := st in (Ok tt, (g, (Some None, u)))
    | _ => opt_forward (fun u => u) (fun v => scalar (u_ops T) v ev) st
    end;
  (* impls.rs:341-349: the Seq and Map of T are handed out as they are *)
  o_seq := fun _ st => opt_forward Inn (v_seq (u_ops T)) st;
  o_map := fun _ st => opt_forward Inn (v_map (u_ops T)) st;
  o_element := fun s : Empty_set => match s with end;
  o_sfinish := fun s : Empty_set => match s with end;
  o_sdrop := fun s : Empty_set => match s with end;
  o_key := fun m : Empty_set => match m with end;
  o_mfinish := fun m : Empty_set => match m with end;
  o_mdrop := fun m : Empty_set => match m with end
|}.

Definition uopt : utype G (option A) := {|
  u_ops := nest (u_ops T) oget oset opt_outer;
  u_begin := fun g o => (Ok (Own tt), (g, (o, u_idle T)));
  (* impls.rs:299-302 *)
  u_default := fun g => (Ok (Some None), g);
  u_idle := u_idle T
|}.
End Opt.

(** The visitors and builders that are a container's own, next to <dyn Visitor>::ignore(),
    ignore.rs:17-71. *)
Inductive ov := Place | Ign.
Inductive ob (X : Type) := Bld (x : X) | IgnB.

(** ** Box<T>, de/impls.rs:159-293 *)
Section Box.
Context {A : Type}.
Variable T : utype G A.

(** struct BoxSeq { out, value, seq }: the slot is [value] with its builders; the boxed
    Seq (Map) of T is in the handle, and the data says whether it is still there (or was
    replaced by Ignore). *)
Definition box_st : Type := (G * (option A * option (bool * (option A * uU T))))%type.

Definition box_begin {R} (k : uV T -> G * (option A * uU T) -> res R * box_st)
    (out : option A) (b : option (bool * (option A * uU T))) (g : G) : res R * box_st :=
  match u_begin T g None with
  | (Ok v, s) => k v s
  | (Err, s) => (Err, (fst s, (out, b)))
  | (Fault f, s) => (Fault f, (fst s, (out, b)))
  end.

(** seq / map, impls.rs:212-230. If T's method fails, `value` is dropped. *)
Definition box_open {R R'} (j : R -> R') (m : uV T -> G * (option A * uU T) -> res R * (G * (option A * uU T)))
    (st : box_st) : res R' * box_st :=
  let '(g, (out, b)) := st in
  box_begin (fun v s =>
    match m v s with
    | (Ok q, s') => (Ok (j q), (fst s', (out, Some (true, snd s'))))
    | (Err, s') => (Err, (fst s', (out, b)))
    | (Fault f, s') => (Fault f, (fst s', (out, b)))
    end) out b g.

(** Seq::finish, Map::finish, impls.rs:255-260, 283-288: finish T's builder; replace it by
    Ignore, which drops it (the assignment also takes place when that drop panics); then
    value.take().unwrap(). *)
Definition box_finish (fin drp : G * (option A * uU T) -> res unit * (G * (option A * uU T))) (st : box_st)
  : res unit * box_st :=
  match st with
  | (g, (out, Some (true, sl))) =>
      match fin (g, sl) with
      | (Ok _, s1) =>
          match drp s1 with
          | (Fault f, s2) => (Fault f, (fst s2, (out, Some (false, snd s2))))
          | (_, s2) =>
              match fst (snd s2) with
              | Some a => (Ok tt, (fst s2, (Some a, Some (false, (None, snd (snd s2))))))
              | None => (Fault FPanic, (fst s2, (out, Some (false, snd s2))))
              end
          end
      | (Err, s1) => (Err, (fst s1, (out, Some (true, snd s1))))
      | (Fault f, s1) => (Fault f, (fst s1, (out, Some (true, snd s1))))
      end
  | (g, (out, Some (false, (e, u)))) =>
      match e with
      | Some a => (Ok tt, (g, (Some a, Some (false, (None, u)))))
      | None => (Fault FPanic, st)
      end
  | _ => (Fault FUB, st)
  end.

(** Drop for BoxSeq, BoxMap, impls.rs:240-244, 268-272; then `value` is dropped. *)
Definition box_drop (drp : G * (option A * uU T) -> res unit * (G * (option A * uU T))) (st : box_st)
  : res unit * box_st :=
  match st with
  | (g, (out, Some (true, sl))) => pass (fun u => u) (fun g' _ => (g', (out, None))) (drp (g, sl))
  | (g, (out, _)) => (Ok tt, (g, (out, None)))
  end.

(** element / key, impls.rs:251-253, 279-281: T's builder, or Ignore after finish. *)
Definition box_item (m : G * (option A * uU T) -> res (uV T) * (G * (option A * uU T))) (st : box_st)
  : res (hdl ov (uV T)) * box_st :=
  match st with
  | (g, (out, Some (true, sl))) => pass Inn (fun g' sl' => (g', (out, Some (true, sl')))) (m (g, sl))
  | (_, (_, Some (false, _))) => (Ok (Own Ign), st)
  | _ => (Fault FUB, st)
  end.

Definition box_outer : outer box_st ov (ob (uS T)) (ob (uM T)) (uV T) (uS T) (uM T) := {|
  (* impls.rs:170-210 *)
  o_scalar := fun o ev st =>
    match o with
    | Place =>
        let '(g, (out, b)) := st in
        box_begin (fun v s =>
          match scalar (u_ops T) v ev s with
          | (Ok _, (g', (Some a, _))) => (Ok tt, (g', (Some a, b)))
          | (Ok _, (g', (None, _))) => (Fault FPanic, (g', (out, b)))
          | (Err, (g', _)) => (Err, (g', (out, b)))
          | (Fault f, (g', _)) => (Fault f, (g', (out, b)))
          end) out b g
    | Ign => (Ok tt, st)
    end;
  o_seq := fun o st =>
    match o with Place => box_open (fun s => Own (Bld _ s)) (v_seq (u_ops T)) st | Ign => (Ok (Own (IgnB _)), st) end;
  o_map := fun o st =>
    match o with Place => box_open (fun m => Own (Bld _ m)) (v_map (u_ops T)) st | Ign => (Ok (Own (IgnB _)), st) end;
  o_element := fun o st =>
    match o with Bld _ s => box_item (s_element (u_ops T) s) st | IgnB _ => (Ok (Own Ign), st) end;
  o_sfinish := fun o st =>
    match o with Bld _ s => box_finish (s_finish (u_ops T) s) (s_drop (u_ops T) s) st | IgnB _ => (Ok tt, st) end;
  o_sdrop := fun o st =>
    match o with Bld _ s => box_drop (s_drop (u_ops T) s) st | IgnB _ => (Ok tt, st) end;
  o_key := fun o k st =>
    match o with Bld _ m => box_item (m_key (u_ops T) m k) st | IgnB _ => (Ok (Own Ign), st) end;
  o_mfinish := fun o st =>
    match o with Bld _ m => box_finish (m_finish (u_ops T) m) (m_drop (u_ops T) m) st | IgnB _ => (Ok tt, st) end;
  o_mdrop := fun o st =>
    match o with Bld _ m => box_drop (m_drop (u_ops T) m) st | IgnB _ => (Ok tt, st) end
|}.

Definition ubox : utype G A := {|
  u_ops := nest (u_ops T) bget bset box_outer;
  u_begin := fun g o => (Ok (Own Place), (g, (o, None)));
  u_default := no_default;
  u_idle := None
|}.
End Box.

(** ** (A, B), de/impls.rs:356-409 *)
Section Pair.
Context {A B : Type}.
Variable TA : utype G A.
Variable TB : utype G B.

Definition pair_slot : Type := ((option A * uU TA) * (option B * uU TB))%type.
Definition pair_st : Type := (G * (option (A * B) * option (unit * pair_slot)))%type.

Definition pair_outer : outer pair_st unit unit Empty_set (uV TA + uV TB) (uS TA + uS TB) (uM TA + uM TB) := {|
  o_scalar := fun _ _ st => (Err, st);
  (* impls.rs:368-373 *)
  o_seq := fun _ st =>
    let '(g, (out, _)) := st in (Ok (Own tt), (g, (out, Some (tt, ((None, u_idle TA), (None, u_idle TB))))));
  o_map := fun _ st => (Err, st);
  (* impls.rs:386-394 *)
  o_element := fun _ st =>
    match st with
    | (g, (out, Some (_, ((None, _), sb)))) =>
        pass (fun v => Inn (inl v)) (fun g' sl => (g', (out, Some (tt, (sl, sb))))) (u_begin TA g None)
    | (g, (out, Some (_, (sa, (None, _))))) =>
        pass (fun v => Inn (inr v)) (fun g' sl => (g', (out, Some (tt, (sa, sl))))) (u_begin TB g None)
    | (_, (_, Some _)) => (Err, st)
    | _ => (Fault FUB, st)
    end;
  (* impls.rs:396-403 *)
  o_sfinish := fun _ st =>
    match st with
    | (g, (out, Some (_, ((oa, ua), (ob, ub))))) =>
        let b' := Some (tt, ((None, ua), (None, ub))) in
        match oa, ob with
        | Some a, Some b => (Ok tt, (g, (Some (a, b), b')))
        | _, _ => (Err, (g, (out, b')))
        end
    | _ => (Fault FUB, st)
    end;
  o_sdrop := fun _ st => let '(g, (out, _)) := st in (Ok tt, (g, (out, None)));
  o_key := fun m : Empty_set => match m with end;
  o_mfinish := fun m : Empty_set => match m with end;
  o_mdrop := fun m : Empty_set => match m with end
|}.

Definition upair : utype G (A * B) := {|
  u_ops := nest (sum_iface (u_ops TA) (u_ops TB)) bget bset pair_outer;
  u_begin := fun g o => (Ok (Own tt), (g, (o, None)));
  u_default := no_default;
  u_idle := None
|}.
End Pair.

(** ** HashMap<K, V, H> and BTreeMap<K, V>, de/impls.rs:541-676, for an arbitrary key type
    and an arbitrary implementation M of the map itself. *)
Section Map.
Context {K M A : Type}.
Variable parse : bytes -> G -> res K * G.    (* K::from_str *)
Variable empty : M.
Variable insert : K -> A -> M -> M.
Variable T : utype G A.

Definition map_st : Type := (G * (option M * option ((M * option K) * (option A * uU T))))%type.

(** fn shift, impls.rs:578-582, 647-651. *)
Definition map_shift (m : M) (k : option K) (e : option A) : M :=
  match k, e with Some k, Some a => insert k a m | _, _ => m end.

Definition map_outer : outer map_st unit Empty_set unit (uV T) (uS T) (uM T) := {|
  o_scalar := fun _ _ st => (Err, st);
  o_seq := fun _ st => (Err, st);
  (* impls.rs:555-562, 626-633 *)
  o_map := fun _ st =>
    let '(g, (out, _)) := st in (Ok (Own tt), (g, (out, Some ((empty, None), (None, u_idle T)))));
  o_element := fun s : Empty_set => match s with end;
  o_sfinish := fun s : Empty_set => match s with end;
  o_sdrop := fun s : Empty_set => match s with end;
  (* impls.rs:591-598, 659-666 *)
  o_key := fun _ k st =>
    match st with
    | (g, (out, Some ((m, ok), (e, u)))) =>
        let m' := map_shift m ok e in
        match parse k g with
        | (Ok key, g') =>
            pass Inn (fun g' sl => (g', (out, Some ((m', Some key), sl)))) (u_begin T g' None)
        | (Err, g') => (Err, (g', (out, Some ((m', None), (None, u)))))
        | (Fault f, g') => (Fault f, (g', (out, Some ((m', None), (None, u)))))
        end
    | _ => (Fault FUB, st)
    end;
  (* impls.rs:600-605, 668-672 *)
  o_mfinish := fun _ st =>
    match st with
    | (g, (out, Some ((m, ok), (e, u)))) => (Ok tt, (g, (Some (map_shift m ok e), Some ((empty, None), (None, u)))))
    | _ => (Fault FUB, st)
    end;
  o_mdrop := fun _ st => let '(g, (out, _)) := st in (Ok tt, (g, (out, None)))
|}.

Definition umap : utype G M := {|
  u_ops := nest (u_ops T) bget bset map_outer;
  u_begin := fun g o => (Ok (Own tt), (g, (o, None)));
  u_default := no_default;
  u_idle := None
|}.
End Map.

(** ** Derived structs, derive/src/de.rs:36-115, with fields of arbitrary types. The wire
    names are those computed by derive/src/attr.rs (Derive.v, C41). *)
Record ufield := mk_ufield { f_name : bytes; f_ty : Type; f_u : utype G f_ty }.

Section Struct.

(** A value of the struct; the fields of __State; the visitors etc. of the fields. *)
Fixpoint fvals (fs : list ufield) : Type :=
  match fs with [] => unit | f :: fs' => (f_ty f * fvals fs')%type end.
Fixpoint fslots (fs : list ufield) : Type :=
  match fs with [] => unit | f :: fs' => ((option (f_ty f) * uU (f_u f)) * fslots fs')%type end.
Fixpoint fV (fs : list ufield) : Type :=
  match fs with [] => Empty_set | f :: fs' => (uV (f_u f) + fV fs')%type end.
Fixpoint fS (fs : list ufield) : Type :=
  match fs with [] => Empty_set | f :: fs' => (uS (f_u f) + fS fs')%type end.
Fixpoint fM (fs : list ufield) : Type :=
  match fs with [] => Empty_set | f :: fs' => (uM (f_u f) + fM fs')%type end.

Definition empty_iface : iface (G * unit) Empty_set Empty_set Empty_set := {|
  v_null := fun v : Empty_set => match v with end; v_bool := fun v : Empty_set => match v with end; v_str := fun v : Empty_set => match v with end;
  v_neg := fun v : Empty_set => match v with end; v_nonneg := fun v : Empty_set => match v with end; v_float := fun v : Empty_set => match v with end;
  v_seq := fun v : Empty_set => match v with end; v_map := fun v : Empty_set => match v with end;
  s_element := fun v : Empty_set => match v with end; s_finish := fun v : Empty_set => match v with end; s_drop := fun v : Empty_set => match v with end;
  m_key := fun v : Empty_set => match v with end; m_finish := fun v : Empty_set => match v with end; m_drop := fun v : Empty_set => match v with end
|}.
Fixpoint fields_iface (fs : list ufield) : iface (G * fslots fs) (fV fs) (fS fs) (fM fs) :=
  match fs with
  | [] => empty_iface
  | f :: fs' => sum_iface (u_ops (f_u f)) (fields_iface fs')
  end.

(** #fieldname: Deserialize::default(), derive/src/de.rs:73-75. *)
Fixpoint fdefaults (fs : list ufield) (g : G) : res (fslots fs) * G :=
  match fs with
  | [] => (Ok tt, g)
  | f :: fs' =>
      match u_default (f_u f) g with
      | (Ok o, g1) =>
          let r := fdefaults fs' g1 in (rmap (fun ps => ((o, u_idle (f_u f)), ps)) (fst r), snd r)
      | (Err, g1) => (Err, g1)
      | (Fault x, g1) => (Fault x, g1)
      end
  end.

(** match __k { #fieldstr => Ok(Deserialize::begin(&mut self.#fieldname)), .. },
    derive/src/de.rs:89-96. None: no field of that name. *)
Fixpoint fbegin (fs : list ufield) (k : bytes) (g : G) : fslots fs -> option (res (fV fs) * (G * fslots fs)) :=
  match fs with
  | [] => fun _ => None
  | f :: fs' => fun ps =>
      if list_eq_dec Z.eq_dec k (f_name f) then
        Some (pass inl (fun g' sl => (g', (sl, snd ps))) (u_begin (f_u f) g (fst (fst ps))))
      else
        option_map (pass inr (fun g' ps' => (g', (fst ps, ps')))) (fbegin fs' k g (snd ps))
  end.

(** let #fieldname = self.#fieldname.take().ok_or(Error)?, derive/src/de.rs:100-102. *)
Fixpoint ftake (fs : list ufield) : fslots fs -> option (fvals fs) * fslots fs :=
  match fs with
  | [] => fun _ => (Some tt, tt)
  | f :: fs' => fun ps =>
      match fst (fst ps) with
      | Some a =>
          let r := ftake fs' (snd ps) in
          (option_map (pair a) (fst r), ((None, snd (fst ps)), snd r))
      | None => (None, ps)
      end
  end.

Variable fs : list ufield.
Definition struct_st : Type := (G * (option (fvals fs) * option (unit * fslots fs)))%type.

Definition struct_outer : outer struct_st ov unit (ob unit) (fV fs) (fS fs) (fM fs) := {|
  o_scalar := fun o _ st => match o with Place => (Err, st) | Ign => (Ok tt, st) end;
  o_seq := fun o st => match o with Place => (Err, st) | Ign => (Ok (Own tt), st) end;
  o_map := fun o st =>
    match o with
    | Place =>
        let '(g, (out, b)) := st in
        match fdefaults fs g with
        | (Ok ps, g') => (Ok (Own (Bld _ tt)), (g', (out, Some (tt, ps))))
        | (Err, g') => (Err, (g', (out, b)))
        | (Fault f, g') => (Fault f, (g', (out, b)))
        end
    | Ign => (Ok (Own (IgnB _)), st)
    end;
  o_element := fun _ st => (Ok (Own Ign), st);
  o_sfinish := fun _ st => (Ok tt, st);
  o_sdrop := fun _ st => (Ok tt, st);
  o_key := fun o k st =>
    match o with
    | Bld _ _ =>
        match st with
        | (g, (out, Some (_, ps))) =>
            match fbegin fs k g ps with
            | Some r => pass Inn (fun g' ps' => (g', (out, Some (tt, ps')))) r
            | None => (Ok (Own Ign), st)
            end
        | _ => (Fault FUB, st)
        end
    | IgnB _ => (Ok (Own Ign), st)
    end;
  o_mfinish := fun o st =>
    match o with
    | Bld _ _ =>
        match st with
        | (g, (out, Some (_, ps))) =>
            match ftake fs ps with
            | (Some vs, ps') => (Ok tt, (g, (Some vs, Some (tt, ps'))))
            | (None, ps') => (Err, (g, (out, Some (tt, ps'))))
            end
        | _ => (Fault FUB, st)
        end
    | IgnB _ => (Ok tt, st)
    end;
  o_mdrop := fun o st =>
    match o with
    | Bld _ _ => let '(g, (out, _)) := st in (Ok tt, (g, (out, None)))
    | IgnB _ => (Ok tt, st)
    end
|}.

Definition ustruct : utype G (fvals fs) := {|
  u_ops := nest (fields_iface fs) bget bset struct_outer;
  u_begin := fun g o => (Ok (Own Place), (g, (o, None)));
  u_default := no_default;
  u_idle := None
|}.
End Struct.

(** ** A derived enum, derive/src/de.rs:145-175: the variants are numbered in the order of
    their declaration, [names] are their wire names (attr::name_of_variant). *)
Section Enum.
Variable names : list bytes.

(** match s { #( #names => #ident::#var_idents, )* _ => return Err(Error) }, de.rs:165-168: the first arm that matches. *)
Fixpoint enum_arm (s : bytes) (ns : list bytes) (i : nat) : res nat :=
  match ns with
  | [] => Err
  | n :: ns' => if list_eq_dec Z.eq_dec s n then Ok i else enum_arm s ns' (S i)
  end.
Definition no_method {R S} (st : S) : res R * S := (Err, st).
(** impl Visitor for __Visitor, de.rs:163-172; the other methods are the trait's (de/mod.rs:237-274): Err(Error). *)
Definition enum_ops : iface (G * (option nat * unit)) unit Empty_set Empty_set := {|
  v_null := fun _ => no_method; v_bool := fun _ _ => no_method;
  v_str := fun _ s st =>
    match enum_arm s names O with
    | Ok value => (Ok tt, (fst st, (Some value, tt)))
    | Err => (Err, st)
    | Fault e => (Fault e, st)
    end;
  v_neg := fun _ _ => no_method; v_nonneg := fun _ _ => no_method; v_float := fun _ _ => no_method;
  v_seq := fun _ => no_method; v_map := fun _ => no_method;
  s_element := fun m : Empty_set => match m with end; s_finish := fun m : Empty_set => match m with end; s_drop := fun m : Empty_set => match m with end;
  m_key := fun m : Empty_set => match m with end; m_finish := fun m : Empty_set => match m with end; m_drop := fun m : Empty_set => match m with end |}.
Definition uenum : utype G nat := {|
  u_ops := enum_ops; u_begin := fun g o => (Ok tt, (g, (o, tt))); u_default := no_default; u_idle := tt |}.
End Enum.

(** ** json::from_str, json/de.rs:30-37 *)
Definition user_from_str {A} (T : utype G A) (oc : bool) (s : bytes) (g : G) : res A * G :=
  match u_begin T g None with
  | (Ok v, st) =>
      match from_str_impl (u_ops T) oc s v st with
      | (Ok _, (g', (Some a, _))) => (Ok a, g')
      | (Ok _, (g', (None, _))) => (Err, g')
      | (Err, (g', _)) => (Err, g')
      | (Fault f, (g', _)) => (Fault f, g')
      end
  | (Err, st) => (Err, fst st)
  | (Fault f, st) => (Fault f, fst st)
  end.
End Containers.
Arguments ufield : clear implicits.
