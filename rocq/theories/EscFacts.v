(** escape_str writes the quoted string. *)
From Coq Require Import String ZArith List Bool Lia.
From Verif Require Import Base Utf8 Utf8Facts Grammar Types Ser SerSpec.
Import ListNotations.
Open Scope Z_scope.

Definition beq (a b : bytes) : bool := if list_eq_dec Z.eq_dec a b then true else false.
Definition esc_check (n : nat) : bool :=
  let b := Z.of_nat n in
  match idx SER_ESCAPE (Z.to_nat b) with
  | Ok e =>
      if e =? 0 then beq (quote_char b) [b]
      else (b <? 128) && match escape_text e b with Ok t => beq t (quote_char b) | _ => false end
  | _ => false
  end.
Lemma esc_checked : forallb esc_check (seq 0 256) = true.
Proof. vm_compute. reflexivity. Qed.
Lemma beq_eq a b : beq a b = true -> a = b.
Proof. unfold beq. destruct (list_eq_dec Z.eq_dec a b); [auto|discriminate]. Qed.
Lemma esc_table b : 0 <= b <= 255 ->
  exists e, idx SER_ESCAPE (Z.to_nat b) = Ok e /\
    if e =? 0 then quote_char b = [b] else b < 128 /\ escape_text e b = Ok (quote_char b).
Proof.
  intros Hb. pose proof esc_checked as H. rewrite forallb_forall in H.
  assert (Hin : In (Z.to_nat b) (seq 0 256)) by (apply in_seq; lia).
  specialize (H _ Hin). unfold esc_check in H. rewrite Z2Nat.id in H by lia.
  destruct (idx SER_ESCAPE (Z.to_nat b)) as [e| |] eqn:EI; try discriminate. exists e. split; [reflexivity|].
  destruct (e =? 0); [apply beq_eq in H; exact H|]. apply andb_true_iff in H. destruct H as [H1 H2].
  apply Z.ltb_lt in H1. split; [exact H1|]. destruct (escape_text e b) as [t| |]; try discriminate. apply beq_eq in H2. congruence.
Qed.

Lemma head_boundary pre c rest : str_ok (c :: rest) = true -> is_char_boundary (pre ++ c :: rest) (List.length pre) = true.
Proof.
  intros H. unfold is_char_boundary. rewrite nth_error_app2, Nat.sub_diag by lia. cbn [nth_error].
  cbn [str_ok] in H. destruct (inr 128 191 c) eqn:EC; [|reflexivity]. exfalso.
  apply inr_true in EC.
  assert (A : inr 0 127 c = false) by (apply inr_false; lia). rewrite A in H.
  destruct rest as [|b r]; [discriminate|].
  assert (B : inr 194 223 c = false) by (apply inr_false; lia). rewrite B in H. cbn [andb] in H.
  destruct r as [|b2 r]; [discriminate|].
  assert (C : forall lo hi, 191 < lo -> inr lo hi c = false) by (intros; apply inr_false; lia).
  rewrite !C in H by lia. cbn [andb orb] in H. rewrite !andb_false_r in H.
  destruct r as [|b3 r]; [discriminate|]. cbn [andb orb] in H. rewrite ?andb_false_r in H. discriminate.
Qed.
Lemma suffix_boundary pre rest : str_ok rest = true -> is_char_boundary (pre ++ rest) (List.length pre) = true.
Proof.
  intros H. destruct rest as [|c rest]; [|apply head_boundary, H].
  unfold is_char_boundary. rewrite app_nil_r, (proj2 (nth_error_None pre (List.length pre)) (le_n _)). apply Nat.eqb_refl.
Qed.
Lemma slice_mid (pre raw rest : bytes) :
  slice (pre ++ raw ++ rest) (List.length pre) (List.length pre + List.length raw) = Ok raw.
Proof.
  unfold slice. rewrite !app_length. rewrite (proj2 (Nat.leb_le _ _)) by lia. rewrite (proj2 (Nat.leb_le _ _)) by lia. cbn [andb].
  rewrite skipn_app, skipn_all, Nat.sub_diag. cbn [app skipn].
  replace (List.length pre + List.length raw - List.length pre)%nat with (List.length raw) by lia.
  rewrite firstn_app, firstn_all, Nat.sub_diag, app_nil_r. reflexivity.
Qed.
Lemma str_slice_mid pre raw rest : str_ok (raw ++ rest) = true -> str_ok rest = true ->
  str_slice (pre ++ raw ++ rest) (List.length pre) (List.length pre + List.length raw) = Ok raw.
Proof.
  intros H1 H2. unfold str_slice. rewrite suffix_boundary by exact H1.
  pose proof (suffix_boundary (pre ++ raw) rest H2) as K. rewrite app_length, <- app_assoc in K. rewrite K. cbn [andb]. apply slice_mid.
Qed.
Lemma ascii_suffix raw c rest : 0 <= c < 128 -> str_ok (raw ++ c :: rest) = true -> str_ok (c :: rest) = true /\ str_ok rest = true.
Proof.
  intros Hc H. apply str_ok_split in H; [|unfold is_cont; apply inr_false; lia]. destruct H as [_ H]. split; [exact H|].
  rewrite str_ok_ascii in H by (apply inr_true; lia). exact H.
Qed.

Lemma escape_loop_eq rest : forall pre raw out,
  str_ok (raw ++ rest) = true -> Forall (fun b => 0 <= b <= 255) rest -> flat_map quote_char raw = raw ->
  exists pre' raw' out', pre' ++ raw' = pre ++ raw ++ rest /\ str_ok raw' = true /\
    escape_loop (pre ++ raw ++ rest) rest (List.length pre + List.length raw) (List.length pre) out = Ok (List.length pre', out') /\
    out' ++ raw' = out ++ flat_map quote_char (raw ++ rest).
Proof.
  induction rest as [|c rest IH]; intros pre raw out HS HB HR.
  - exists pre, raw, out. rewrite app_nil_r in *. cbn [escape_loop]. rewrite HR. auto.
  - inversion HB as [|? ? Hc HB']; subst. destruct (esc_table c Hc) as (e & EI & HE). cbn [escape_loop]. rewrite EI. cbn [bind].
    destruct (e =? 0).
    + destruct (IH pre (raw ++ [c]) out) as (pre' & raw' & out' & A & B & C & D).
      * rewrite <- app_assoc. exact HS.
      * exact HB'.
      * rewrite flat_map_app, HR. cbn [flat_map]. rewrite HE, app_nil_r. reflexivity.
      * rewrite <- app_assoc in *. cbn [app] in *. exists pre', raw', out'. split; [exact A|]. split; [exact B|]. split; [|exact D].
        rewrite <- C. f_equal. rewrite app_length. cbn [List.length]. lia.
    + destruct HE as [HA HE]. destruct (ascii_suffix raw c rest ltac:(lia) HS) as [S1 S2].
      assert (EQ : (let* out1 := if (List.length pre <? List.length pre + List.length raw)%nat
                    then let* s := str_slice (pre ++ raw ++ c :: rest) (List.length pre) (List.length pre + List.length raw) in Ok (out ++ s)
                    else Ok out in
                    let* e0 := escape_text e c in
                    escape_loop (pre ++ raw ++ c :: rest) rest (S (List.length pre + List.length raw)) (S (List.length pre + List.length raw)) (out1 ++ e0)) =
                   escape_loop (pre ++ raw ++ c :: rest) rest (S (List.length pre + List.length raw)) (S (List.length pre + List.length raw)) ((out ++ raw) ++ quote_char c)).
      { rewrite HE. destruct raw as [|r raw].
        - cbn [List.length]. rewrite Nat.add_0_r, Nat.ltb_irrefl, app_nil_r. reflexivity.
        - rewrite (proj2 (Nat.ltb_lt _ _)) by (cbn [List.length]; lia). rewrite str_slice_mid by assumption. reflexivity. }
      rewrite EQ. clear EQ.
      destruct (IH (pre ++ raw ++ [c]) [] ((out ++ raw) ++ quote_char c)) as (pre' & raw' & out' & A & B & C & D).
      * exact S2.
      * exact HB'.
      * reflexivity.
      * cbn [app] in A, C, D. repeat (rewrite <- app_assoc in A; cbn [app] in A). exists pre', raw', out'. split; [exact A|]. split; [exact B|]. split.
        -- rewrite <- C. replace ((pre ++ raw ++ [c]) ++ rest) with (pre ++ raw ++ c :: rest) by (rewrite <- !app_assoc; reflexivity).
           cbn [List.length]. rewrite !app_length. cbn [List.length].
           replace (List.length pre + (List.length raw + 1) + 0)%nat with (S (List.length pre + List.length raw)) by lia.
           replace (List.length pre + (List.length raw + 1))%nat with (S (List.length pre + List.length raw)) by lia. reflexivity.
        -- rewrite D. rewrite flat_map_app, HR. cbn [flat_map]. rewrite !app_assoc. reflexivity.
Qed.

(** json/ser.rs:138-179. *)
Theorem escape_str_eq v out : str_ok v = true -> escape_str v out = Ok (out ++ quote v).
Proof.
  intros HS. unfold escape_str.
  destruct (escape_loop_eq v [] [] (out ++ [34]) HS (str_ok_bytes _ HS) eq_refl) as (pre & raw & out' & A & B & C & D).
  cbn [app List.length Nat.add] in A, C, D. rewrite C. cbn [bind].
  assert (EQ : (if (List.length pre =? List.length v)%nat then Ok out'
                else let* s := str_slice v (List.length pre) (List.length v) in Ok (out' ++ s)) = Ok (out' ++ raw)).
  { rewrite <- A, app_length. destruct raw as [|r raw].
    - cbn [List.length]. rewrite Nat.add_0_r, Nat.eqb_refl, app_nil_r. reflexivity.
    - rewrite (proj2 (Nat.eqb_neq _ _)) by (cbn [List.length]; lia).
      pose proof (str_slice_mid pre (r :: raw) []) as K. rewrite !app_nil_r in K. rewrite K by (assumption || reflexivity). reflexivity. }
  rewrite EQ. cbn [bind]. rewrite D. unfold quote. rewrite <- !app_assoc. reflexivity.
Qed.
