(** Property theorems C128: between which rows there is a place notation, and what it depends on. *)

(* Generated from tools/props/Between.src; the proofs are in BetweenThms.v. *)
From Verif Require Import Base Bell Stage Row Utils SameStageVec Block PlaceNot Spec SpecVec SpecBlock SpecPn ListFacts
  BellFacts RowFacts MulFacts GroupFacts SsvFacts BlockFacts PnFacts PnFacts2 PnFacts3 LawFacts BetweenFacts.
From Verif Require Import PnThms LawsThms.
Local Open Scope list_scope.
From Verif Require Import BetweenThms.

(** C128: there is a place notation between two rows of a stage exactly when no bell moves by more than one place. *)
Theorem C128_exists_exactly_when_no_bell_jumps :
  forall a b, valid_row a -> valid_row b -> length a = length b ->
    ((exists pn, pn_between a b = Ret (Some pn)) <->
     (forall bell p q, nth_error a p = Some bell -> nth_error b q = Some bell -> p <= q + 1 /\ q <= p + 1)) /\
    ((exists pn, pn_between a b = Ret (Some pn)) \/ pn_between a b = Ret None).
Proof. exact pf_C128_exists_exactly_when_no_bell_jumps. Qed.
Print Assumptions C128_exists_exactly_when_no_bell_jumps.

(** C128: it depends only on which places exchange, not on which bells do: multiplying both rows by the same row on the left
    changes nothing, and one may start from rounds. *)
Theorem C128_does_not_depend_on_the_bells :
  forall x a b, valid_row x -> valid_row a -> valid_row b -> length x = length a -> length a = length b ->
    exists xa xb ia t, row_mul x a = Ret xa /\ row_mul x b = Ret xb /\ pn_between xa xb = pn_between a b /\
      row_inv a = Ret ia /\ row_mul ia b = Ret t /\ pn_between (row_rounds (length a)) t = pn_between a b.
Proof. exact pf_C128_does_not_depend_on_the_bells. Qed.
Print Assumptions C128_does_not_depend_on_the_bells.

(** C128: hence every list of rows in which no bell jumps is rung by exactly one list of changes, found between its rows. *)
Theorem C128_rows_without_jumps_are_rung :
  forall s r rows, 0 < length rows -> Forall (fun x => valid_row x /\ length x = s) (r :: rows) ->
    (forall i a b, nth_error (r :: rows) i = Some a -> nth_error (r :: rows) (i + 1) = Some b ->
       forall bell p q, nth_error a p = Some bell -> nth_error b q = Some bell -> p <= q + 1 /\ q <= p + 1) ->
    exists pns v, length pns = length rows /\ pn_block_from_vec pns = Ok pns /\
      pn_block_to_rows pns r = Ret (Ok v) /\ ssv_rows v = Ret (r :: rows) /\
      forall pns' v', Forall (fun pn => legal pn /\ pn_stage pn = s) pns' -> pn_block_to_rows pns' r = Ret (Ok v') ->
        ssv_rows v' = Ret (r :: rows) -> pns' = pns.
Proof. exact pf_C128_rows_without_jumps_are_rung. Qed.
Print Assumptions C128_rows_without_jumps_are_rung.

(** From 2143 to 2413 each bell moves by at most one place; to 4213 one jumps.  Renamed, the change is the same. *)
Example C128_example :
  pn_between [1; 0; 3; 2] [1; 3; 0; 2] = Ret (Some (PlaceNot [0; 3] 4)) /\
  pn_between [1; 0; 3; 2] [3; 1; 0; 2] = Ret None /\
  row_mul [3; 2; 0; 1] [1; 0; 3; 2] = Ret [2; 3; 1; 0] /\ row_mul [3; 2; 0; 1] [1; 3; 0; 2] = Ret [2; 1; 3; 0] /\
  pn_between [2; 3; 1; 0] [2; 1; 3; 0] = Ret (Some (PlaceNot [0; 3] 4)) /\
  row_inv [1; 0; 3; 2] = Ret [1; 0; 3; 2] /\ row_mul [1; 0; 3; 2] [1; 3; 0; 2] = Ret [0; 2; 1; 3] /\
  pn_between [0; 1; 2; 3] [0; 2; 1; 3] = Ret (Some (PlaceNot [0; 3] 4)) /\
  exists v, pn_block_to_rows [PlaceNot [] 4; PlaceNot [0; 3] 4] [0; 1; 2; 3] = Ret (Ok v) /\
    ssv_rows v = Ret [[0; 1; 2; 3]; [1; 0; 3; 2]; [1; 3; 0; 2]].
Proof. splits; try (vm_compute; reflexivity). eexists. split; vm_compute; reflexivity. Qed.
