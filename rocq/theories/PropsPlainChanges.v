(** Property theorems C151: there is an extent on every stage. *)

(* Generated from tools/props/PlainChanges.src; the proofs are in PlainChangesThms.v. *)
From Coq Require Import Permutation.
From Verif Require Import Base Bell Stage Row Utils SameStageVec Block PlaceNot Spec SpecVec SpecBlock SpecPn SpecClass ListFacts
  BellFacts RowFacts MulFacts GroupFacts SsvFacts BlockFacts PnFacts PnFacts2 PnFacts3 LawFacts BetweenFacts PlainChangesFacts.
From Verif Require Import PnThms LawsThms BetweenThms.
Local Open Scope list_scope.
From Verif Require Import PlainChangesThms.

(** C151: on every stage of two bells or more, from every row, there is a block of changes which rings every row of the stage exactly once and comes back to its
    start; and at each change only one pair of neighbours is exchanged, as [swap] does it. *)
Theorem C151_extents_on_every_stage :
  forall start, valid_row start -> 2 <= length start ->
    exists pns v rows, length pns = fact (length start) /\ pn_block_from_vec pns = Ok pns /\
      pn_block_to_rows pns start = Ret (Ok v) /\ ssv_rows v = Ret (start :: rows) /\ last rows [] = start /\
      NoDup rows /\ (forall r, valid_row r -> length r = length start -> In r rows) /\
      forall i r r', nth_error (start :: rows) i = Some r -> nth_error (start :: rows) (i + 1) = Some r' ->
        exists p, row_swap r p (p + 1) = Ret r'.
Proof. exact pf_C151_extents_on_every_stage. Qed.
Print Assumptions C151_extents_on_every_stage.

(** The extent on three bells, by exchanging one pair at a time: "1.3.1.3.1.3". *)
Example C151_example :
  exists pns v, pn_block_parse (s2l "1.3.1.3.1.3") 3 = Ret (Ok pns) /\ length pns = fact 3 /\ pn_block_to_rows pns [0; 1; 2] = Ret (Ok v) /\
    ssv_rows v = Ret [[0; 1; 2]; [0; 2; 1]; [2; 0; 1]; [2; 1; 0]; [1; 2; 0]; [1; 0; 2]; [0; 1; 2]] /\
    row_swap [2; 0; 1] 1 2 = Ret [2; 1; 0].
Proof. do 2 eexists. splits; vm_compute; reflexivity. Qed.
