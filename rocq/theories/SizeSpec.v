(** Specification for C61: sizes of texts and values, nesting of brackets, builders alive. *)
From Coq Require Import String ZArith List Bool.
From Verif Require Import Base Utf8 F64 Lexer Grammar Types ParseSpec SerSpec.
Import ListNotations.
Open Scope Z_scope.

(** ** Builders *)
(** The Seq and Map objects alive after a sequence of calls: those handed out by Visitor::seq
    and Visitor::map, less those dropped. *)
Definition alive_change {V SH MH} (c : call V SH MH) : Z :=
  match c with
  | CSeq _ (Some _) | CMap _ (Some _) => 1
  | CSeqDrop _ | CMapDrop _ => -1
  | _ => 0
  end.
Fixpoint alive {V SH MH} (l : list (call V SH MH)) : Z :=
  match l with [] => 0 | c :: l' => alive_change c + alive l' end.

(** ** Brackets *)
(** The brackets open at the end of a text, not counting those inside string literals
    ([blank], Grammar.v). *)
Definition bracket (c : Z) : Z :=
  if (c =? 91) || (c =? 123) then 1 else if (c =? 93) || (c =? 125) then -1 else 0.
Fixpoint surplus (s : bytes) : Z :=
  match s with [] => 0 | c :: s' => bracket c + surplus s' end.
Definition open_brackets (s : bytes) : Z := surplus (blank QOut s).
(** The text is nested at most n deep: at no place are more than n brackets open. *)
Definition nested_within (n : Z) (s : bytes) : Prop := forall p q, s = p ++ q -> open_brackets p <= n.
(** The nesting of a document. *)
Fixpoint dheight (d : doc) : nat :=
  match d with
  | DArr l => S (list_max (map dheight l))
  | DObj l => S (list_max (map (fun kd => dheight (snd kd)) l))
  | _ => O
  end.

(** ** Sizes: one for every node, one for every byte of a string or key. Box and Some add
    nothing to what they hold, None (which may stand for a key that is not in the text)
    counts 0. *)
Definition total {A} (f : A -> nat) (l : list A) : nat := list_sum (map f l).
Fixpoint jsize (j : jval) : nat :=
  match j with
  | JvNull | JvBool _ | JvNum _ => 1
  | JvStr s => 1 + List.length s
  | JvArr l => 1 + list_sum (map jsize l)
  | JvObj l => 1 + list_sum (map (fun kj => (List.length (fst kj) + jsize (snd kj))%nat) l)
  end%nat.
Definition ksize (k : val) : nat := match k with VStr s => List.length s | _ => 0 end%nat.
Fixpoint vsize (v : val) : nat :=
  match v with
  | VNone => 0
  | VUnit | VBool _ | VInt _ | VF32 _ | VF64 _ | VNum _ | VEnum _ => 1
  | VStr s => 1 + List.length s
  | VBox v | VSome v => vsize v
  | VPair a b => 1 + (vsize a + vsize b)
  | VSeq l | VStruct l => 1 + list_sum (map vsize l)
  | VMap l => 1 + list_sum (map (fun kv => (ksize (fst kv) + vsize (snd kv))%nat) l)
  | VJson j => jsize j
  | VJArr l => jsize (JvArr l)
  | VJObj l => jsize (JvObj l)
  end%nat.

(** Trees described by Serialize: string and key bytes ([nodes], SerSpec.v). *)
Fixpoint strbytes (t : stree) : nat :=
  match t with
  | STStr s => List.length s
  | STSeq l => list_sum (map strbytes l)
  | STMap l => list_sum (map (fun kt => (List.length (fst kt) + strbytes (snd kt))%nat) l)
  | _ => 0
  end%nat.
