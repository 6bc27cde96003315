(** Property theorems C130: how the order of rows compares with the order of their texts. *)

(* Generated from tools/props/Sort.src; the proofs are in SortThms.v. *)
From Coq Require Import Permutation.
From Verif Require Import Base Bell Stage Row Compare Format Spec SpecFormat ListFacts BellFacts RowFacts MulFacts GroupFacts FormatFacts SsvFacts.
From Verif Require Import FormatThms.
Local Open Scope list_scope.
From Verif Require Import SortThms.

(** C130: up to nine bells, rows are ordered as their texts are (characters by their code). *)
Theorem C130_as_texts_up_to_nine_bells :
  forall r r', valid_row r -> valid_row r' -> length r <= 9 -> length r' <= 9 ->
    (row_cmp r r' = Lt <-> lex_lt (map N.to_nat (row_display r)) (map N.to_nat (row_display r'))).
Proof. exact pf_C130_as_texts_up_to_nine_bells. Qed.
Print Assumptions C130_as_texts_up_to_nine_bells.

(** C130: from ten bells on they are not: rounds comes first among the rows, but not among the texts. *)
Theorem C130_not_from_ten_bells_on :
  forall s, 10 <= s -> exists r, vrow s r /\ row_cmp (row_rounds s) r = Lt /\
    lex_lt (map N.to_nat (row_display r)) (map N.to_nat (row_display (row_rounds s))).
Proof. exact pf_C130_not_from_ten_bells_on. Qed.
Print Assumptions C130_not_from_ten_bells_on.

Example C130_example :
  valid_row [1; 0; 2] /\ valid_row [1; 2; 0] /\ row_cmp [1; 0; 2] [1; 2; 0] = Lt /\
  map N.to_nat (row_display [1; 0; 2]) = [50; 49; 51] /\
  lex_lt (map N.to_nat (row_display [1; 0; 2])) (map N.to_nat (row_display [1; 2; 0])).
Proof. splits; try vr; try reflexivity. apply (lex_smaller [50] 49 51). lia. Qed.
