(** Property theorems C130: how the order of rows compares with the order of their texts. *)

(* Generated from tools/props/Sort.src: the proofs behind PropsSort.v. *)
From Coq Require Import Permutation.
From Verif Require Import Base Bell Stage Row Compare Format Spec SpecFormat ListFacts BellFacts RowFacts MulFacts GroupFacts FormatFacts SsvFacts.
From Verif Require Import FormatThms.
Local Open Scope list_scope.

Lemma pf_C130_as_texts_up_to_nine_bells :
  forall r r', valid_row r -> valid_row r' -> length r <= 9 -> length r' <= 9 ->
    (row_cmp r r' = Lt <-> lex_lt (map N.to_nat (row_display r)) (map N.to_nat (row_display r'))).
Proof.
  assert (T : forall r, valid_row r -> length r <= 9 -> map N.to_nat (row_display r) = map (fun b => 49 + b) r).
  { intros r V L. assert (F : forall b, In b r -> b < 9).
    { intros b B. apply V in B. lia. }
    clear V L. unfold row_display. induction r as [|b r IH]; auto. cbn [map concat]. rewrite map_app, IH by (intros; apply F; right; auto).
    assert (B : b < 9) by (apply F; left; auto). clear F IH. do 9 (destruct b as [|b]; [reflexivity|]). lia. }
  intros r r' V V' L L'. rewrite (T r V L), (T r' V' L'). rewrite <- (proj1 pf_C76_order_of_rows). clear.
  revert r'. induction r as [|x r IH]; intros [|y r']; cbn [map row_cmp]; try tauto.
  assert (E : Nat.compare (49 + x) (49 + y) = Nat.compare x y).
  { destruct (Nat.compare_spec x y) as [->|H|H]; [apply Nat.compare_refl|apply Nat.compare_lt_iff|apply Nat.compare_gt_iff]; lia. }
  rewrite E. destruct (Nat.compare x y); auto; tauto.
Qed.

Lemma pf_C130_not_from_ten_bells_on :
  forall s, 10 <= s -> exists r, vrow s r /\ row_cmp (row_rounds s) r = Lt /\
    lex_lt (map N.to_nat (row_display r)) (map N.to_nat (row_display (row_rounds s))).
Proof.
  intros s G. assert (E : row_rounds s = 0 :: seq 1 8 ++ 9 :: seq 10 (s - 10)).
  { rewrite rounds_seq. replace s with (9 + S (s - 10)) at 1 by lia. rewrite seq_app. reflexivity. }
  exists (9 :: seq 0 9 ++ seq 10 (s - 10)). assert (L : length (9 :: seq 0 9 ++ seq 10 (s - 10)) = s).
  { cbn [length]. rewrite app_length, !seq_length. lia. }
  splits.
  - split; auto. apply valid_row_perm. split; [discriminate|]. replace (seq 0 (length (9 :: seq 0 9 ++ seq 10 (s - 10)))) with (row_rounds s) by (rewrite L; apply rounds_seq). rewrite E.
    change (0 :: seq 1 8 ++ 9 :: seq 10 (s - 10)) with (seq 0 9 ++ 9 :: seq 10 (s - 10)). apply Permutation_middle.
  - rewrite E. reflexivity.
  - rewrite E. unfold row_display. cbn [map concat]. rewrite !map_app.
    apply (lex_smaller [] 48 49). lia.
Qed.
