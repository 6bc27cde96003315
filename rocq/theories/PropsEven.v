(** Property theorems C121: how many rows of a group, of a stage and of a touch are even. *)

(* Generated from tools/props/Even.src; the proofs are in EvenThms.v. *)
From Coq Require Import Permutation.
From Verif Require Import Base Bell Stage Parity Row Utils SameStageVec Block PlaceNot Spec SpecVec SpecBlock SpecPn ListFacts
  BellFacts RowFacts MulFacts ParityFacts GroupFacts GroupFacts2 SsvFacts BlockFacts PnFacts PnFacts2 PnFacts3 LawFacts LawFacts2 MaskFacts EvenFacts.
From Verif Require Import RowThms GroupThms PnThms Laws2Thms.
Local Open Scope list_scope.
From Verif Require Import EvenThms.

(** C121: the rows of a group are all even, or there are as many even ones as odd ones; the even ones are a group. *)
Theorem C121_groups :
  forall n set, NoDup set -> Forall (fun r => valid_row r /\ length r = n) set -> is_group_set set = Ret (Ok true) ->
    exists even odd, Permutation set (even ++ odd) /\
      (forall r fuel, In r even -> 2 * n < fuel -> exists x, row_parity fuel r = Ret (x, Even)) /\
      (forall r fuel, In r odd -> 2 * n < fuel -> exists x, row_parity fuel r = Ret (x, Odd)) /\
      (odd = [] \/ length even = length odd) /\ is_group_set even = Ret (Ok true).
Proof. exact pf_C121_groups. Qed.
Print Assumptions C121_groups.

(** C121: half of the rows of a stage of at least two bells are even. *)
Theorem C121_extents :
  forall n l, 2 <= n -> NoDup l -> (forall r, In r l <-> valid_row r /\ length r = n) ->
    exists even odd, Permutation l (even ++ odd) /\
      (forall r fuel, In r even -> 2 * n < fuel -> exists x, row_parity fuel r = Ret (x, Even)) /\
      (forall r fuel, In r odd -> 2 * n < fuel -> exists x, row_parity fuel r = Ret (x, Odd)) /\
      length even = length odd /\ 2 * length even = fact n.
Proof. exact pf_C121_extents. Qed.
Print Assumptions C121_extents.

(** C121: with changes which all swap an even number of pairs, no more than half of the rows of the stage can be rung
    before one of them comes again. *)
Theorem C121_even_changes :
  forall pns start s v rows k, 2 <= s -> pns <> [] -> Forall (fun pn => legal pn /\ pn_stage pn = s) pns ->
    Forall (fun pn => Nat.Even ((s - length (pn_places pn)) / 2)) pns ->
    valid_row start -> length start = s -> pn_block_to_rows pns start = Ret (Ok v) -> ssv_rows v = Ret rows ->
    k <= length rows -> NoDup (firstn k rows) -> 2 * k <= fact s.
Proof. exact pf_C121_even_changes. Qed.
Print Assumptions C121_even_changes.

(** The group which two rows generate has three even rows and three odd ones; that of one of them only even ones.  With the
    changes 3 and 1 on three bells, which are odd, all six rows are rung before rounds comes again. *)
Example C121_example :
  is_group_set [[0; 1; 2]; [1; 2; 0]; [2; 0; 1]; [1; 0; 2]; [2; 1; 0]; [0; 2; 1]] = Ret (Ok true) /\
  is_group_set [[0; 1; 2]; [1; 2; 0]; [2; 0; 1]] = Ret (Ok true) /\
  row_parity 9 [1; 2; 0] = Ret ([0; 1; 2], Even) /\ row_parity 9 [2; 1; 0] = Ret ([0; 1; 2], Odd) /\
  (exists v, pn_block_to_rows [PlaceNot [2] 3; PlaceNot [0] 3; PlaceNot [2] 3; PlaceNot [0] 3; PlaceNot [2] 3; PlaceNot [0] 3] [0; 1; 2] = Ret (Ok v) /\
     ssv_rows v = Ret [[0; 1; 2]; [1; 0; 2]; [1; 2; 0]; [2; 1; 0]; [2; 0; 1]; [0; 2; 1]; [0; 1; 2]]) /\
  (exists v, pn_block_to_rows [PlaceNot [] 4; PlaceNot [] 4] [0; 1; 2; 3] = Ret (Ok v) /\
     ssv_rows v = Ret [[0; 1; 2; 3]; [1; 0; 3; 2]; [0; 1; 2; 3]]) /\ Nat.Even ((4 - 0) / 2).
Proof.
  splits; try (vm_compute; reflexivity).
  - eexists. split; vm_compute; reflexivity.
  - eexists. split; vm_compute; reflexivity.
  - exists 1. reflexivity.
Qed.
