(** Property theorems C150: how many changes it takes from one row to another. *)

(* Generated from tools/props/Few.src; the proofs are in FewThms.v. *)
From Coq Require Import Permutation.
From Verif Require Import Base Bell Stage Row Utils SameStageVec Block PlaceNot Spec SpecVec SpecBlock SpecPn SpecClass ListFacts
  BellFacts RowFacts MulFacts GroupFacts SsvFacts BlockFacts PnFacts PnFacts2 PnFacts3 LawFacts BetweenFacts SortNetFacts FewFacts.
From Verif Require Import PnThms LawsThms BetweenThms.
Local Open Scope list_scope.
From Verif Require Import FewThms.

(** C150: between any two rows of a stage there is a block of as many changes as the stage has bells which, rung from the first, ends with the second. *)
Theorem C150_as_many_changes_as_bells :
  forall r1 r2, valid_row r1 -> valid_row r2 -> length r1 = length r2 ->
    exists pns v rows, length pns = length r1 /\ pn_block_from_vec pns = Ok pns /\
      pn_block_to_rows pns r1 = Ret (Ok v) /\ ssv_rows v = Ret (r1 :: rows) /\ last (r1 :: rows) [] = r2.
Proof. exact pf_C150_as_many_changes_as_bells. Qed.
Print Assumptions C150_as_many_changes_as_bells.

(** C150: in general no fewer are enough: on three bells or more, no block of fewer changes leads from rounds to backrounds. *)
Theorem C150_backrounds_needs_as_many :
  forall s pns v rows i, 3 <= s -> Forall (fun pn => legal pn /\ pn_stage pn = s) pns -> pns <> [] ->
    pn_block_to_rows pns (row_rounds s) = Ret (Ok v) -> ssv_rows v = Ret rows ->
    nth_error rows i = Some (row_backrounds s) -> s <= i /\ s <= length pns.
Proof. exact pf_C150_backrounds_needs_as_many. Qed.
Print Assumptions C150_backrounds_needs_as_many.

(** C150: a bell moves no more places than there are changes, so a block takes at least as many changes as any bell has places to go. *)
Theorem C150_at_least_as_many_as_places_to_go :
  forall s pns start v rows i r b p q, Forall (fun pn => legal pn /\ pn_stage pn = s) pns -> pns <> [] -> valid_row start -> length start = s ->
    pn_block_to_rows pns start = Ret (Ok v) -> ssv_rows v = Ret rows -> nth_error rows i = Some r ->
    place_of start b = Some p -> place_of r b = Some q -> p <= q + i /\ q <= p + i.
Proof. exact pf_C150_at_least_as_many_as_places_to_go. Qed.
Print Assumptions C150_at_least_as_many_as_places_to_go.

(** Plain hunting comes to backrounds with as many changes as bells; on two bells one change is enough. *)
Example C150_example :
  exists pns v, pn_block_parse (s2l "-14-14") 4 = Ret (Ok pns) /\ length pns = 4 /\ pn_block_to_rows pns [0; 1; 2; 3] = Ret (Ok v) /\
    ssv_rows v = Ret [[0; 1; 2; 3]; [1; 0; 3; 2]; [1; 3; 0; 2]; [3; 1; 2; 0]; [3; 2; 1; 0]] /\ row_backrounds 4 = [3; 2; 1; 0] /\
    exists pns2 v2, pn_block_parse (s2l "-") 2 = Ret (Ok pns2) /\ length pns2 = 1 /\ pn_block_to_rows pns2 [0; 1] = Ret (Ok v2) /\
      ssv_rows v2 = Ret [[0; 1]; row_backrounds 2].
Proof. do 2 eexists. splits; try (vm_compute; reflexivity). do 2 eexists. splits; vm_compute; reflexivity. Qed.
