(** Facts about the model of Debug: the PadAdapter indents, writers are fed the text, and the
    text is a prefix code. *)
From Coq Require Import String ZArith List Bool Lia Floats.SpecFloat.
From Verif Require Import Base F64 Utf8 Utf8Facts Types JsonValue Grammar LexSpec SerSpec RenderFacts WriteFacts Unambiguous DocSpec FloatRT ClaimsJson DebugFmt DebugSpec.
Import ListNotations.
Open Scope Z_scope.

(** ** Actions that feed a writer pieces *)
Definition feeds (a : forall W, writer W -> action W) (pieces : list bytes) : Prop :=
  forall W wr w, a W wr w = feed wr pieces w.

Lemma feed_app {W} (wr : writer W) a b w : feed wr (a ++ b) w = (feed wr a >> feed wr b) w.
Proof.
  unfold andthen. revert w. induction a as [|p a IH]; intros w; [reflexivity|]. cbn [feed app]. destruct (wr p w) as [[u| |f] w1]; [|reflexivity|reflexivity]. apply IH.
Qed.
Lemma feeds_seq a b pa pb : feeds a pa -> feeds b pb -> feeds (fun W wr => a W wr >> b W wr) (pa ++ pb).
Proof.
  intros HA HB W wr w. rewrite feed_app. unfold andthen. rewrite HA. destruct (feed wr pa w) as [[u| |f] w1]; [apply HB|reflexivity|reflexivity].
Qed.
Lemma feeds_one s : feeds (fun W wr => wr s) [s].
Proof. intros W wr w. cbn. destruct (wr s w) as [[[]| |f] w1]; reflexivity. Qed.
Lemma feeds_nothing : feeds (fun W wr => nothing) [].
Proof. intros W wr w. reflexivity. Qed.
Lemma feeds_all l : feeds (fun W wr => write_all wr l) l.
Proof.
  induction l as [|c l IH]; [apply feeds_nothing|]. exact (feeds_seq _ _ [c] l (feeds_one c) IH).
Qed.

(** ** The PadAdapter *)
Fixpoint pad (on : bool) (s : bytes) : bytes :=
  match s with [] => [] | c :: r => (if on then bs "    " else []) ++ c :: pad (c =? 10) r end.
Fixpoint after (on : bool) (s : bytes) : bool := match s with [] => on | c :: r => after (c =? 10) r end.

Lemma pad_app on a b : pad on (a ++ b) = pad on a ++ pad (after on a) b.
Proof. revert on. induction a as [|c a IH]; intros on; [reflexivity|]. cbn [pad app after]. rewrite IH, <- app_assoc. reflexivity. Qed.
Lemma after_app on a b : after on (a ++ b) = after (after on a) b.
Proof. revert on. induction a as [|c a IH]; intros on; [reflexivity|]. cbn [after app]. apply IH. Qed.

Fixpoint padded_lines (on : bool) (ls : list bytes) : list bytes :=
  match ls with [] => [] | l :: r => (if on then [bs "    "] else []) ++ l :: padded_lines (ends_with_newline l) r end.
Fixpoint after_lines (on : bool) (ls : list bytes) : bool := match ls with [] => on | l :: r => after_lines (ends_with_newline l) r end.

Lemma pad_lines_feed {W} (wr : writer W) ls on w : exists on',
  pad_lines wr ls (on, w) = (fst (feed wr (padded_lines on ls) w), (on', snd (feed wr (padded_lines on ls) w))) /\
  (forall u, fst (feed wr (padded_lines on ls) w) = Ok u -> on' = after_lines on ls).
Proof.
  revert on w. induction ls as [|l ls IH]; intros on w; [exists on; split; reflexivity|].
  cbn [pad_lines padded_lines after_lines fst snd].
  assert (G : forall w1, exists on', (match wr l w1 with (Ok _, w2) => pad_lines wr ls (ends_with_newline l, w2) | (r, w2) => (r, (ends_with_newline l, w2)) end) =
      (fst (feed wr (l :: padded_lines (ends_with_newline l) ls) w1), (on', snd (feed wr (l :: padded_lines (ends_with_newline l) ls) w1))) /\
      (forall u, fst (feed wr (l :: padded_lines (ends_with_newline l) ls) w1) = Ok u -> on' = after_lines (ends_with_newline l) ls)).
  { intros w1. cbn [feed]. destruct (wr l w1) as [[[]| |f] w2]; [apply IH| |]; exists (ends_with_newline l); split; try reflexivity; intros u E; discriminate E. }
  destruct on; [|exact (G w)]. cbn [app feed]. destruct (wr (bs "    ") w) as [[[]| |f] w1]; [exact (G w1)| |]; exists true; split; try reflexivity; intros u E; discriminate E.
Qed.

Lemma split_nonempty s l : In l (split_inclusive s) -> l <> [].
Proof.
  revert l. induction s as [|c s IH]; intros l H; [destruct H|]. cbn [split_inclusive] in H. destruct (c =? 10).
  - destruct H as [<-|H]; [discriminate|apply IH, H].
  - destruct (split_inclusive s) as [|l0 ls] eqn:E; cbn in H; destruct H as [<-|H]; try discriminate; try contradiction. apply IH. right. exact H.
Qed.
Lemma split_concat s on : concat (padded_lines on (split_inclusive s)) = pad on s /\ after_lines on (split_inclusive s) = after on s.
Proof.
  revert on. induction s as [|c s IH]; intros on; [split; reflexivity|]. cbn [split_inclusive pad after]. destruct (Z.eqb_spec c 10) as [->|NE].
  - cbn [padded_lines after_lines]. change (ends_with_newline [10]) with true. destruct (IH true) as [A B]. split; [|exact B]. rewrite concat_app. cbn [concat app]. rewrite A. destruct on; reflexivity.
  - destruct (split_inclusive s) as [|l ls] eqn:E.
    + destruct (IH false) as [A B]. cbn [padded_lines after_lines concat] in *. unfold ends_with_newline. cbn [last]. rewrite (proj2 (Z.eqb_neq c 10) NE).
      split; [|exact B]. rewrite <- A. destruct on; reflexivity.
    + destruct (IH false) as [A B]. cbn [padded_lines after_lines concat app] in *.
      assert (EL : ends_with_newline (c :: l) = ends_with_newline l).
      { unfold ends_with_newline. destruct l as [|x l]; [|reflexivity]. exfalso. apply (split_nonempty s []); [rewrite E; left; reflexivity|reflexivity]. }
      rewrite EL. split; [|exact B]. rewrite <- A, concat_app. destruct on; reflexivity.
Qed.

(** The pieces that reach the writer below. *)
Fixpoint padded (on : bool) (ps : list bytes) : list bytes :=
  match ps with [] => [] | p :: r => padded_lines on (split_inclusive p) ++ padded (after on p) r end.
Lemma padded_text on ps : concat (padded on ps) = pad on (concat ps).
Proof.
  revert on. induction ps as [|p ps IH]; intros on; [reflexivity|]. cbn [padded concat]. rewrite concat_app, (proj1 (split_concat p on)), IH, pad_app. reflexivity.
Qed.
Lemma pad_feed {W} (wr : writer W) ps on w : exists on',
  feed (pad_writer wr) ps (on, w) = (fst (feed wr (padded on ps) w), (on', snd (feed wr (padded on ps) w))).
Proof.
  revert on w. induction ps as [|p ps IH]; intros on w; [exists on; reflexivity|]. cbn [feed padded]. unfold pad_writer at 1.
  destruct (pad_lines_feed wr (split_inclusive p) on w) as (on1 & -> & H1). rewrite feed_app. unfold andthen.
  destruct (feed wr (padded_lines on (split_inclusive p)) w) as [[u| |f] w1]; cbn [fst snd] in *; [|exists on1; reflexivity|exists on1; reflexivity].
  rewrite (H1 u eq_refl), (proj2 (split_concat p on)). apply IH.
Qed.
Lemma feeds_pretty a pa has : feeds a pa ->
  feeds (fun W wr => pretty_entry wr has (a (bool * W)%type)) ((if has then [] else [[10]]) ++ padded true (pa ++ [bs "," ++ [10]])).
Proof.
  intros HA. apply (feeds_seq (fun W wr => if has then nothing else wr [10]) (fun W wr w => match (a (bool * W)%type (pad_writer wr) >> pad_writer wr (bs "," ++ [10])) (true, w) with (r, (_, w1)) => (r, w1) end)).
  - destruct has; [apply feeds_nothing|apply feeds_one].
  - intros W wr w. pose proof (feeds_seq a (fun W wr => wr (bs "," ++ [10])) pa _ HA (feeds_one _) (bool * W)%type (pad_writer wr) (true, w)) as E. cbv beta in E. rewrite E.
    destruct (pad_feed wr (pa ++ [bs "," ++ [10]]) true w) as (on' & ->). destruct (feed wr _ w); reflexivity.
Qed.
Lemma feeds_flat a pa has : feeds a pa ->
  feeds (fun W wr => flat_entry wr has (a W)) ((if has then [bs ", "] else []) ++ pa).
Proof.
  intros HA. apply (feeds_seq (fun W wr => if has then wr (bs ", ") else nothing) a); [|exact HA]. destruct has; [apply feeds_one|apply feeds_nothing].
Qed.

(** ** The loop over the entries *)
Definition body := forall W, writer W -> action W.
Definition entry_of (alt has : bool) (b : body) : body :=
  fun W wr => if alt then pretty_entry wr has (b (bool * W)%type) else flat_entry wr has (b W).
Fixpoint entries_of (alt : bool) (close : bytes) (has : bool) (l : list body) : body :=
  match l with
  | [] => fun W wr => wr close
  | b :: r => fun W wr => entry_of alt has b W wr >> entries_of alt close true r W wr
  end.
Definition entry_pieces (alt has : bool) (p : list bytes) : list bytes :=
  if alt then (if has then [] else [[10]]) ++ padded true (p ++ [bs "," ++ [10]]) else (if has then [bs ", "] else []) ++ p.
Fixpoint entries_pieces (alt : bool) (close : bytes) (has : bool) (l : list (list bytes)) : list bytes :=
  match l with [] => [close] | p :: r => entry_pieces alt has p ++ entries_pieces alt close true r end.
Lemma entries_feed alt close l ps : Forall2 feeds l ps -> forall has, feeds (entries_of alt close has l) (entries_pieces alt close has ps).
Proof.
  intros H. induction H as [|b p l ps HB H IH]; intros has; [apply feeds_one|].
  apply (feeds_seq (entry_of alt has b) (entries_of alt close true l)); [|apply IH]. destruct alt; [apply (feeds_pretty b p has HB)|apply (feeds_flat b p has HB)].
Qed.

Lemma then_ext {W} (a b b' : action W) : (forall w, b w = b' w) -> forall w, (a >> b) w = (a >> b') w.
Proof. intros H w. unfold andthen. destruct (a w) as [[u| |f] w1]; [apply H|reflexivity|reflexivity]. Qed.

Section Value.
Variable sa : Z -> bool.
Variable ryu : f64 -> bytes.
Definition str_pieces (s : bytes) : list bytes := [34] :: map (escape_debug sa) (chars s) ++ [[34]].
Lemma str_feeds s : feeds (fun W wr => debug_str sa wr s) (str_pieces s).
Proof.
  apply (feeds_seq (fun W wr => wr [34]) (fun W wr => write_all wr (map (escape_debug sa) (chars s)) >> wr [34]) [[34]]); [apply feeds_one|].
  apply (feeds_seq (fun W wr => write_all wr (map (escape_debug sa) (chars s))) (fun W wr => wr [34])); [apply feeds_all|apply feeds_one].
Qed.
Lemma str_pieces_text s : concat (str_pieces s) = quoted sa (chars s).
Proof. unfold str_pieces, quoted. cbn [concat]. rewrite concat_app. cbn [concat app]. reflexivity. Qed.

Definition value_body (k : nat) (alt : bool) (v : jval) : body := fun W wr => debug_value sa ryu k alt wr v.
Definition member_body (k : nat) (alt : bool) (kv : bytes * jval) : body :=
  fun W wr => debug_str sa wr (fst kv) >> wr (bs ": ") >> debug_value sa ryu k alt wr (snd kv).
Lemma arr_unfold k alt l W (wr : writer W) w :
  debug_value sa ryu (S k) alt wr (JvArr l) w = (wr (bs "Array ") >> wr (bs "[") >> entries_of alt (bs "]") false (map (value_body k alt) l) W wr) w.
Proof.
  cbn [debug_value]. revert w. apply then_ext, then_ext. set (close := bs "]"). clearbody close. generalize false as has.
  induction l as [|e l IH]; intros has w; [reflexivity|]. cbn [map entries_of]. apply then_ext. intros w1. apply IH.
Qed.
Lemma obj_unfold k alt l W (wr : writer W) w :
  debug_value sa ryu (S k) alt wr (JvObj l) w = (wr (bs "Object ") >> wr (bs "{") >> entries_of alt (bs "}") false (map (member_body k alt) l) W wr) w.
Proof.
  cbn [debug_value]. revert w. apply then_ext, then_ext. set (close := bs "}"). set (colon := bs ": "). assert (EC : colon = bs ": ") by reflexivity. clearbody close colon. subst colon. set (colon := bs ": "). generalize false as has.
  induction l as [|[n e] l IH]; intros has w; [reflexivity|]. cbn [map entries_of]. apply then_ext. intros w1. apply IH.
Qed.
End Value.

(** ** Characters *)
Lemma chars_enc c s : is_scalar c = true -> chars (utf8_enc c ++ s) = c :: chars s.
Proof.
  intros H. apply is_scalar_spec in H. unfold utf8_enc.
  destruct (Z.ltb_spec c 128). { cbn [app chars]. rewrite (proj2 (Z.ltb_lt c 128)) by lia. reflexivity. }
  destruct (Z.ltb_spec c 2048).
  { cbn [app chars]. rewrite (proj2 (Z.ltb_ge _ 128)), (proj2 (Z.ltb_lt _ 224)) by (Z.to_euclidean_division_equations; lia). f_equal. Z.to_euclidean_division_equations; lia. }
  destruct (Z.ltb_spec c 65536).
  { cbn [app chars]. rewrite (proj2 (Z.ltb_ge _ 128)), (proj2 (Z.ltb_ge _ 224)), (proj2 (Z.ltb_lt _ 240)) by (Z.to_euclidean_division_equations; lia). f_equal. Z.to_euclidean_division_equations; lia. }
  cbn [app chars]. rewrite (proj2 (Z.ltb_ge _ 128)), (proj2 (Z.ltb_ge _ 224)), (proj2 (Z.ltb_ge _ 240)) by (Z.to_euclidean_division_equations; lia). f_equal. Z.to_euclidean_division_equations; lia.
Qed.
Lemma chars_all cs : forallb is_scalar cs = true -> chars (encode_all cs) = cs.
Proof.
  induction cs as [|c cs IH]; intros H; [reflexivity|]. cbn [forallb] in H. apply andb_true_iff in H. destruct H as [H1 H2].
  unfold encode_all. cbn [map concat]. rewrite chars_enc by exact H1. f_equal. apply IH, H2.
Qed.
Lemma chars_spec s : str_ok s = true -> forallb is_scalar (chars s) = true /\ encode_all (chars s) = s.
Proof. intros H. apply str_ok_spec in H. destruct H as (cs & H & ->). rewrite chars_all by exact H. split; [exact H|reflexivity]. Qed.
Lemma chars_inj s s' : str_ok s = true -> str_ok s' = true -> chars s = chars s' -> s = s'.
Proof. intros H H' E. rewrite <- (proj2 (chars_spec s H)), <- (proj2 (chars_spec s' H')), E. reflexivity. Qed.

(** Bytes of an escaped character: ASCII ones are printable, and \ is not the first one of a
    character that is written as it is. *)
Definition visible (b : Z) : Prop := 32 <= b < 127 \/ 128 <= b <= 255.
Lemma hex_visible fuel : forall c acc, 0 <= c -> Forall (fun b => 48 <= b <= 57 \/ 97 <= b <= 102) acc -> Forall (fun b => 48 <= b <= 57 \/ 97 <= b <= 102) (hex fuel c acc).
Proof.
  assert (HD : forall d, 0 <= d < 16 -> 48 <= hex_digit d <= 57 \/ 97 <= hex_digit d <= 102) by (intros d Hd; unfold hex_digit; destruct (Z.ltb_spec d 10); lia).
  induction fuel as [|f IH]; intros c acc Hc HA; [exact HA|]. cbn [hex]. destruct (Z.ltb_spec c 16); [constructor; [apply HD; lia|exact HA]|].
  apply IH; [apply Z.div_pos; lia|]. constructor; [apply HD; apply Z.mod_pos_bound; lia|exact HA].
Qed.
Definition cc (c : Z) : Prop := c < 32 \/ c = 127.
Local Ltac lit := let HI := fresh in intros HI; vm_compute in HI; lazymatch goal with Hx : _ \/ cc _ /\ _ |- _ => destruct Hx as [->|[[Hx|Hx] _]]; intuition lia end.
Lemma esc_bytes sa c : is_scalar c = true -> (forall x, x = 10 \/ cc x /\ (forall y, cc y -> sa y = false) -> ~ In x (escape_debug sa c)).
Proof.
  intros HC x Hx. unfold escape_debug.
  assert (VS : forall l, Forall (fun b => 32 <= b < 127) l -> ~ In x l).
  { intros l HF HI. rewrite Forall_forall in HF. specialize (HF x HI). destruct Hx as [->|[[Hx|Hx] _]]; lia. }
  destruct (Z.eqb_spec c 0); [lit|]. destruct (Z.eqb_spec c 9); [lit|].
  destruct (Z.eqb_spec c 13); [lit|]. destruct (Z.eqb_spec c 10); [lit|].
  destruct (Z.eqb_spec c 34); [lit|]. destruct (Z.eqb_spec c 92); [lit|].
  destruct (sa c) eqn:SA.
  - intros HI. assert (EX : x = c).
    { apply is_scalar_spec in HC. unfold utf8_enc in HI.
      destruct (Z.ltb_spec c 128); [destruct HI as [<-|[]]; reflexivity|]. exfalso.
      assert (x < 128) by (destruct Hx as [->|[[Hx|Hx] _]]; lia).
      destruct (Z.ltb_spec c 2048); [|destruct (Z.ltb_spec c 65536)]; cbn [In] in HI;
      repeat (destruct HI as [HI|HI]; [subst x; revert H; clear - HC H0; try clear H1; Z.to_euclidean_division_equations; lia|]); exact HI. }
    subst x. destruct Hx as [Hx|[Hx HT]]; [contradiction|]. rewrite (HT c Hx) in SA. discriminate SA.
  - apply VS. apply Forall_app. split; [repeat (constructor; [cbn; lia|]); constructor|]. apply Forall_app. split; [|repeat (constructor; [cbn; lia|]); constructor].
    apply is_scalar_spec in HC. eapply Forall_impl; [|apply hex_visible; [lia|constructor]]. cbv beta. intros. lia.
Qed.

(** ** Indentation *)
Lemma pad_flat s : ~ In 10 s -> pad false s = s /\ after false s = false.
Proof.
  induction s as [|c s IH]; intros H; [split; reflexivity|]. cbn [pad after app]. assert (NE : (c =? 10) = false) by (apply Z.eqb_neq; intros ->; apply H; left; reflexivity).
  rewrite NE. destruct IH as [-> ->]; [intros HI; apply H; right; exact HI|]. split; reflexivity.
Qed.
Lemma pad_on s : s <> [] -> pad true s = bs "    " ++ pad false s.
Proof. destruct s; [contradiction|reflexivity]. Qed.
Lemma after_on on on' s : s <> [] -> after on s = after on' s.
Proof. destruct s; [contradiction|reflexivity]. Qed.
Lemma spaces_add n : bs "    " ++ spaces n = spaces (n + 4).
Proof. unfold spaces. rewrite Nat.add_comm. reflexivity. Qed.
Lemma spaces_flat n : ~ In 10 (spaces n).
Proof. intros H. apply repeat_spec in H. discriminate H. Qed.

(** Text whose lines can be indented one by one. *)
Definition indents (t t' : bytes) : Prop := pad false t = t' /\ after false t = false.
Lemma indents_app a a' b b' : indents a a' -> indents b b' -> indents (a ++ b) (a' ++ b').
Proof. intros [A1 A2] [B1 B2]. unfold indents. rewrite pad_app, after_app, A2, A1, B1. split; [reflexivity|exact B2]. Qed.
Lemma indents_flat a : ~ In 10 a -> indents a a.
Proof. apply pad_flat. Qed.
Lemma indents_items ind (items items' : list bytes) close : close <> [] -> ~ In 10 close -> Forall2 (fun s s' => indents s s') items items' ->
  indents (laid_out true ind items ++ close) (laid_out true (ind + 4) items' ++ close).
Proof.
  intros HT HN H.
  set (body := fun ind items => concat (map (fun s : bytes => spaces (ind + 4) ++ s ++ bs "," ++ [10]) items)).
  assert (B : pad true (body ind items ++ spaces ind ++ close) = body (ind + 4)%nat items' ++ spaces (ind + 4) ++ close /\
    after true (body ind items ++ spaces ind ++ close) = false).
  { induction H as [|s s' l l' [HS HA] H IH].
    - cbn [body map concat app]. destruct (indents_flat (spaces ind ++ close)) as [E1 E2]. { intros HI. apply in_app_iff in HI. destruct HI as [HI|HI]; [exact (spaces_flat _ HI)|exact (HN HI)]. }
      assert (NE : spaces ind ++ close <> []) by (intros E; apply app_eq_nil in E; destruct E; contradiction).
      rewrite pad_on by exact NE. rewrite E1, app_assoc, spaces_add. split; [reflexivity|]. rewrite (after_on true false) by exact NE. exact E2.
    - unfold body in *. cbn [map concat]. rewrite <- !(app_assoc (spaces _ ++ _)). set (R := concat _ ++ _) in *. set (R' := concat (map _ l') ++ _) in *.
      set (F := spaces (ind + 4) ++ s ++ bs "," ++ [10]).
      assert (NE : F <> []) by (intros E; apply app_eq_nil in E; destruct E as [_ E]; apply app_eq_nil in E; destruct E as [_ E]; discriminate E).
      rewrite pad_app, after_app, (after_on true false F NE), (pad_on _ NE).
      destruct (indents_flat _ (spaces_flat (ind + 4))) as [S1 S2].
      assert (A1 : after false F = true) by (unfold F; rewrite after_app, S2, after_app, HA; reflexivity).
      assert (P1 : pad false F = spaces (ind + 4) ++ s' ++ bs "," ++ [10]).
      { unfold F. rewrite pad_app, S2, S1, pad_app, HA, HS. reflexivity. }
      rewrite A1, P1. destruct IH as [I1 I2]. rewrite I1, I2. split; [|reflexivity]. unfold R'. rewrite !app_assoc, spaces_add. reflexivity. }
  destruct H as [|s s' l l' HS H]; [cbn [laid_out app]; apply indents_flat, HN|].
  cbn [laid_out]. unfold body in B. destruct B as [B1 B2].
  rewrite <- !app_assoc. unfold indents. rewrite pad_app, after_app. change (after false [10]) with true. rewrite B1, B2. split; reflexivity.
Qed.

Section Text.
Variable sa : Z -> bool.
Variable ryu : f64 -> bytes.
Hypothesis HR : ryu_ok ryu.
Notation shown := (shown sa ryu).
Notation quoted := (quoted sa).

Lemma display_ascii n : jnum_ok n = true -> ascii_print (number_display ryu n).
Proof.
  destruct n as [z|z|f]; intros H; cbn [number_display].
  - destruct (itoa_spec z) as (l & A & _). eapply NumText_ascii, A.
  - destruct (itoa_spec z) as (l & A & _). eapply NumText_ascii, A.
  - destruct f as [s|s| |s m e]; cbn [ryu_format].
    + destruct (HR (S754_zero s) H eq_refl) as [(l & A & _) _]. eapply NumText_ascii, A.
    + destruct s; repeat (constructor; [cbn; lia|]); constructor.
    + repeat (constructor; [cbn; lia|]); constructor.
    + destruct (HR (S754_finite s m e) H eq_refl) as [(l & A & _) _]. eapply NumText_ascii, A.
Qed.
Lemma ascii_flat t : ascii_print t -> ~ In 10 t.
Proof. intros H HI. unfold ascii_print in H. rewrite Forall_forall in H. specialize (H _ HI). lia. Qed.
Lemma quoted_flat s : str_ok s = true -> ~ In 10 (quoted (chars s)).
Proof.
  intros H. destruct (chars_spec s H) as [HS _]. unfold DebugSpec.quoted. rewrite !in_app_iff. intros [[E|[]]|[E|[E|[]]]]; try discriminate E.
  apply in_concat in E. destruct E as (t & Ht & E). apply in_map_iff in Ht. destruct Ht as (c & <- & Hc). rewrite forallb_forall in HS. exact (esc_bytes sa c (HS c Hc) 10 (or_introl eq_refl) E).
Qed.
Lemma lit_flat (b : bool) t : t = bs (if b then "true" else "false") -> ~ In 10 t.
Proof. intros -> H. destruct b; vm_compute in H; intuition discriminate. Qed.
Local Ltac lf := let H := fresh in intros H; vm_compute in H; intuition discriminate.

Lemma shown_indents v : jval_ok v = true -> forall ind, indents (shown true ind v) (shown true (ind + 4) v).
Proof.
  induction v as [|b|n|s|l IH|l IH] using jval_ind'; intros HO ind; cbn [DebugSpec.shown jval_ok] in *.
  - apply indents_flat. lf.
  - apply indents_flat. destruct b; lf.
  - apply indents_app; [apply indents_flat; lf|]. apply indents_app; [apply indents_flat, ascii_flat, display_ascii, HO|apply indents_flat; lf].
  - apply indents_app; [apply indents_flat; lf|]. apply indents_app; [apply indents_flat, quoted_flat, HO|apply indents_flat; lf].
  - apply indents_app; [apply indents_flat; lf|]. apply indents_items; [discriminate|lf|]. rewrite forallb_forall in HO. rewrite Forall_forall in IH.
    clear - HO IH. induction l as [|e l IHl]; constructor; [apply IH; [left; reflexivity|apply HO; left; reflexivity]|]. apply IHl; intros x Hx; [apply IH|apply HO]; right; exact Hx.
  - apply andb_true_iff in HO. destruct HO as [_ HO]. apply indents_app; [apply indents_flat; lf|]. apply indents_items; [discriminate|lf|]. rewrite forallb_forall in HO. rewrite Forall_forall in IH.
    clear - HO IH. induction l as [|e l IHl]; constructor; [|apply IHl; intros x Hx; [apply IH|apply HO]; right; exact Hx].
    specialize (HO e (or_introl eq_refl)). apply andb_true_iff in HO. destruct HO as [H1 H2]. apply indents_app; [apply indents_flat, quoted_flat, H1|]. apply indents_app; [apply indents_flat; lf|]. apply IH; [left; reflexivity|exact H2].
Qed.

(** The text of the pieces of the entries. *)
Lemma flat_text close ps : concat (entries_pieces false close false ps) = laid_out false 0 (map (@concat Z) ps) ++ close.
Proof.
  cbn [laid_out]. assert (G : forall ps, concat (entries_pieces false close true ps) = concat (map (fun t => bs ", " ++ t) (map (@concat Z) ps)) ++ close).
  { clear ps. induction ps as [|p ps IH]; [cbn; rewrite app_nil_r; reflexivity|]. cbn [entries_pieces entry_pieces map concat app]. rewrite concat_app, IH, <- !app_assoc. reflexivity. }
  destruct ps as [|p ps]; [cbn; rewrite app_nil_r; reflexivity|]. cbn [entries_pieces entry_pieces map app]. rewrite concat_app, G.
  clear G. rewrite app_assoc. f_equal. generalize (concat p) as t. induction ps as [|q ps IH]; intros t; [cbn [map concat separated]; apply app_nil_r|]. cbn [map concat]. change (separated (t :: concat q :: map (@concat Z) ps)) with (t ++ bs ", " ++ separated (concat q :: map (@concat Z) ps)). rewrite <- IH. rewrite <- !app_assoc. reflexivity.
Qed.
Lemma pretty_text close ps items : Forall2 (fun p s => indents (concat p) s /\ concat p <> []) ps items ->
  concat (entries_pieces true close false ps) = laid_out true 0 items ++ close.
Proof.
  intros H. assert (G : forall ps items, Forall2 (fun p s => indents (concat p) s /\ concat p <> []) ps items ->
    concat (entries_pieces true close true ps) = concat (map (fun s : bytes => spaces (0 + 4) ++ s ++ bs "," ++ [10]) items) ++ close).
  { clear. intros ps items H. induction H as [|p s ps items [[H1 H2] HN] H IH]; [cbn; rewrite app_nil_r; reflexivity|]. cbn [entries_pieces entry_pieces map concat]. rewrite app_nil_l, concat_app, IH. rewrite padded_text, concat_app. cbn [concat]. rewrite app_nil_r.
    rewrite pad_on by (intros E; apply app_eq_nil in E; destruct E; contradiction). rewrite pad_app, H2, H1. rewrite <- !app_assoc. reflexivity. }
  destruct H as [|p s ps items HP H]; [cbn; rewrite app_nil_r; reflexivity|]. pose proof (G (p :: ps) (s :: items) (Forall2_cons _ _ HP H)) as E.
  cbn [entries_pieces entry_pieces laid_out] in *. rewrite <- app_assoc, concat_app. rewrite app_nil_l in E. rewrite E. change (spaces 0) with (@nil Z). rewrite app_nil_r. reflexivity.
Qed.

Lemma shown_nonempty alt ind v : shown alt ind v <> [].
Proof. destruct v; cbn [DebugSpec.shown]; discriminate. Qed.
Lemma shown_flat i j e : shown false i e = shown false j e.
Proof.
  revert i j. induction e as [|b|n|s|l IH|l IH] using jval_ind'; intros i j; try reflexivity; cbn [DebugSpec.shown laid_out]; rewrite Forall_forall in IH.
  - rewrite (map_ext_in (shown false (i + 4)) (shown false (j + 4)) l) by (intros x Hx; apply (IH x Hx)). reflexivity.
  - rewrite (map_ext_in _ (fun kv : bytes * jval => quoted (chars (fst kv)) ++ bs ": " ++ shown false (j + 4) (snd kv)) l) by (intros x Hx; rewrite (IH x Hx (i + 4)%nat (j + 4)%nat); reflexivity). reflexivity.
Qed.
Lemma value_pieces alt v : jval_ok v = true -> forall k, (jdepth v < k)%nat ->
  exists ps, feeds (value_body sa ryu k alt v) ps /\ concat ps = shown alt 0 v.
Proof.
  assert (SEQ : forall a b pa pb, feeds a pa -> feeds b pb -> feeds (fun W wr => a W wr >> b W wr) (pa ++ pb)) by (intros; apply feeds_seq; assumption).
  induction v as [|b|n|s|l IH|l IH] using jval_ind'; intros HO k Hk; (destruct k as [|k]; [lia|]); cbn [DebugSpec.shown jval_ok jdepth] in *.
  - exists [bs "Null"]. split; [apply (feeds_one (bs "Null"))|reflexivity].
  - exists ([bs "Bool("] ++ [bs (if b then "true" else "false")] ++ [bs ")"]). split; [|destruct b; reflexivity].
    apply (SEQ (fun W wr => wr (bs "Bool(")) (fun W wr => wr (bs (if b then "true" else "false")) >> wr (bs ")"))); [apply feeds_one|]. apply (SEQ (fun W wr => wr (bs (if b then "true" else "false"))) (fun W wr => wr (bs ")"))); apply feeds_one.
  - exists ([bs "Number("] ++ [number_display ryu n] ++ [bs ")"]). split; [|cbn [app concat]; rewrite app_nil_r; reflexivity].
    apply (SEQ (fun W wr => wr (bs "Number(")) (fun W wr => wr (number_display ryu n) >> wr (bs ")"))); [apply feeds_one|]. apply (SEQ (fun W wr => wr (number_display ryu n)) (fun W wr => wr (bs ")"))); apply feeds_one.
  - exists ([bs "String("] ++ str_pieces sa s ++ [bs ")"]). split; [|rewrite !concat_app, str_pieces_text; reflexivity].
    apply (SEQ (fun W wr => wr (bs "String(")) (fun W wr => debug_str sa wr s >> wr (bs ")"))); [apply feeds_one|]. apply (SEQ (fun W wr => debug_str sa wr s) (fun W wr => wr (bs ")"))); [apply str_feeds|apply feeds_one].
  - assert (P : exists ps, Forall2 feeds (map (value_body sa ryu k alt) l) ps /\ map (@concat Z) ps = map (shown alt 0) l).
    { rewrite forallb_forall in HO. rewrite Forall_forall in IH. clear - HO IH Hk. induction l as [|e l IHl]; [exists []; split; [constructor|reflexivity]|].
      unfold list_max in Hk; cbn [map fold_right] in Hk. destruct (IH e (or_introl eq_refl) (HO e (or_introl eq_refl)) k ltac:(lia)) as (p & F & T).
      destruct IHl as (ps & FS & TS); [intros x Hx; apply IH; right; exact Hx|intros x Hx; apply HO; right; exact Hx|unfold list_max; lia|]. exists (p :: ps). cbn [map]. split; [constructor; assumption|rewrite T, TS; reflexivity]. }
    destruct P as (ps & FS & TS). exists ([bs "Array "] ++ [bs "["] ++ entries_pieces alt (bs "]") false ps). split.
    + intros W wr w. unfold value_body. rewrite arr_unfold.
      apply (SEQ (fun W wr => wr (bs "Array ")) (fun W wr => wr (bs "[") >> entries_of alt (bs "]") false (map (value_body sa ryu k alt) l) W wr)); [apply feeds_one|].
      apply (SEQ (fun W wr => wr (bs "[")) (entries_of alt (bs "]") false (map (value_body sa ryu k alt) l))); [apply feeds_one|]. apply entries_feed, FS.
    + cbn [app concat]. rewrite !(app_assoc (bs "Array ")). change (bs "Array " ++ bs "[") with (bs "Array ["). f_equal. destruct alt.
      * apply pretty_text. rewrite forallb_forall in HO. clear - HO TS HR. revert ps TS. induction l as [|e l IHl]; intros [|p ps] TS; try discriminate TS; constructor.
        { injection TS as T TS. rewrite T. split; [apply (shown_indents e (HO e (or_introl eq_refl)) 0)|apply shown_nonempty]. }
        { injection TS as T TS. apply IHl; [intros x Hx; apply HO; right; exact Hx|exact TS]. }
      * rewrite flat_text, TS. rewrite (map_ext (shown false 0) (shown false (0 + 4)) (shown_flat 0 (0 + 4))). reflexivity.
  - apply andb_true_iff in HO. destruct HO as [_ HO].
    assert (P : exists ps, Forall2 feeds (map (member_body sa ryu k alt) l) ps /\ map (@concat Z) ps = map (fun kv => quoted (chars (fst kv)) ++ bs ": " ++ shown alt 0 (snd kv)) l).
    { rewrite forallb_forall in HO. rewrite Forall_forall in IH. clear - HO IH Hk SEQ. induction l as [|e l IHl]; [exists []; split; [constructor|reflexivity]|].
      unfold list_max in Hk; cbn [map fold_right] in Hk. pose proof (HO e (or_introl eq_refl)) as HE. apply andb_true_iff in HE. destruct HE as [_ HE]. destruct (IH e (or_introl eq_refl) HE k ltac:(lia)) as (p & F & T).
      destruct IHl as (ps & FS & TS); [intros x Hx; apply IH; right; exact Hx|intros x Hx; apply HO; right; exact Hx|unfold list_max; lia|]. exists ((str_pieces sa (fst e) ++ [bs ": "] ++ p) :: ps). cbn [map]. split.
      - constructor; [|exact FS]. apply (SEQ (fun W wr => debug_str sa wr (fst e)) (fun W wr => wr (bs ": ") >> debug_value sa ryu k alt wr (snd e))); [apply str_feeds|]. apply (SEQ (fun W wr => wr (bs ": ")) (value_body sa ryu k alt (snd e))); [apply feeds_one|exact F].
      - rewrite TS, !concat_app, str_pieces_text, T. reflexivity. }
    destruct P as (ps & FS & TS). exists ([bs "Object "] ++ [bs "{"] ++ entries_pieces alt (bs "}") false ps). split.
    + intros W wr w. unfold value_body. rewrite obj_unfold.
      apply (SEQ (fun W wr => wr (bs "Object ")) (fun W wr => wr (bs "{") >> entries_of alt (bs "}") false (map (member_body sa ryu k alt) l) W wr)); [apply feeds_one|].
      apply (SEQ (fun W wr => wr (bs "{")) (entries_of alt (bs "}") false (map (member_body sa ryu k alt) l))); [apply feeds_one|]. apply entries_feed, FS.
    + cbn [app concat]. rewrite !(app_assoc (bs "Object ")). change (bs "Object " ++ bs "{") with (bs "Object {"). f_equal. destruct alt.
      * apply pretty_text. rewrite forallb_forall in HO. clear - HO TS HR. revert ps TS. induction l as [|e l IHl]; intros [|p ps] TS; try discriminate TS; constructor.
        { pose proof (f_equal (hd []) TS) as T. cbn [map hd] in T. rewrite T. specialize (HO e (or_introl eq_refl)). apply andb_true_iff in HO. destruct HO as [H1 H2].
          split; [|unfold DebugSpec.quoted; discriminate]. apply indents_app; [apply indents_flat, quoted_flat, H1|]. apply indents_app; [apply indents_flat; lf|]. apply (shown_indents (snd e) H2 0). }
        { apply IHl; [intros x Hx; apply HO; right; exact Hx|exact (f_equal (@tl _) TS)]. }
      * rewrite flat_text, TS. rewrite (map_ext _ (fun kv : bytes * jval => quoted (chars (fst kv)) ++ bs ": " ++ shown false (0 + 4) (snd kv)) (fun kv => f_equal (fun t => quoted (chars (fst kv)) ++ bs ": " ++ t) (shown_flat 0 (0 + 4) (snd kv)))). reflexivity.
Qed.
End Text.
