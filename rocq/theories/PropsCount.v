(** Property theorems C120: how many changes a stage has, and that changes reach every row. *)

(* Generated from tools/props/Count.src; the proofs are in CountThms.v. *)
From Coq Require Import Permutation.
From Verif Require Import Base Bell Stage Row Utils SameStageVec Block PlaceNot Spec SpecVec SpecBlock SpecPn SpecMask SpecCount ListFacts
  BellFacts RowFacts MulFacts GroupFacts SsvFacts BlockFacts PnFacts PnFacts2 PnFacts3 LawFacts ReachFacts.
From Verif Require Import PnThms.
Local Open Scope list_scope.
From Verif Require Import CountThms.

(** C120: on every stage the number of legal changes is the Fibonacci number of that stage. *)
Theorem C120_number_of_changes :
  forall s, 0 < s -> there_are (number_of_changes s) (fun places => legal (PlaceNot places s)).
Proof. exact pf_C120_number_of_changes. Qed.
Print Assumptions C120_number_of_changes.

(** C120: and that is how many rows are one change away from any given row: exactly so many rows have a place notation from it. *)
Theorem C120_rows_one_change_away :
  forall r, valid_row r -> there_are (number_of_changes (length r))
    (fun r' => valid_row r' /\ exists pn, pn_between r r' = Ret (Some pn)).
Proof. exact pf_C120_rows_one_change_away. Qed.
Print Assumptions C120_rows_one_change_away.

(** C120: changes work both ways: the place notation between two rows is that between them the other way round. *)
Theorem C120_both_ways :
  forall r1 r2, valid_row r1 -> valid_row r2 -> pn_between r1 r2 = pn_between r2 r1.
Proof. exact pf_C120_both_ways. Qed.
Print Assumptions C120_both_ways.

(** C120: between any two rows of a stage there is a list of changes which, rung from the first, end with the second. *)
Theorem C120_every_row_is_reached :
  forall r1 r2, valid_row r1 -> valid_row r2 -> length r1 = length r2 ->
    exists pns v rs, pns <> [] /\ Forall (fun pn => legal pn /\ pn_stage pn = length r1) pns /\
      pn_block_to_rows pns r1 = Ret (Ok v) /\ holds v (length r1) (r1 :: rs) /\ length rs = length pns /\ last (r1 :: rs) [] = r2.
Proof. exact pf_C120_every_row_is_reached. Qed.
Print Assumptions C120_every_row_is_reached.

Example C120_example :
  map number_of_changes [1; 2; 3; 4; 5; 6; 7; 8; 12] = [1; 2; 3; 5; 8; 13; 21; 34; 233] /\
  pn_between [0; 1; 2; 3; 4; 5] [1; 0; 2; 3; 5; 4] = pn_between [1; 0; 2; 3; 5; 4] [0; 1; 2; 3; 4; 5].
Proof. vm_compute. split; reflexivity. Qed.
