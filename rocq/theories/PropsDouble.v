(** Property theorems C152: double changes lead to every row of the same parity on five bells or more. *)

(* Generated from tools/props/Double.src; the proofs are in DoubleThms.v. *)
From Coq Require Import Permutation.
From Verif Require Import Base Bell Stage Parity Row Utils SameStageVec Block PlaceNot Spec SpecVec SpecBlock SpecPn SpecClass ListFacts
  BellFacts RowFacts MulFacts GroupFacts ParityFacts SsvFacts BlockFacts PnFacts PnFacts2 PnFacts3 LawFacts BetweenFacts PlainChangesFacts DoubleFacts.
From Verif Require Import PnThms LawsThms BetweenThms.
Local Open Scope list_scope.
From Verif Require Import DoubleThms.

(** C152: on five bells or more, two rows have the same parity, as [parity] computes it, exactly if there is a block of changes which leads from the one to the
    other and at each change of which exactly two pairs of neighbours are exchanged: two [swap]s of neighbours at places which do not meet. *)
Theorem C152_double_changes :
  forall a b fuel pa pb ra rb, valid_row a -> valid_row b -> length b = length a -> 5 <= length a -> 2 * length a < fuel ->
    row_parity fuel a = Ret (ra, pa) -> row_parity fuel b = Ret (rb, pb) ->
    (pa = pb <->
     exists pns v rows, pns <> [] /\ pn_block_from_vec pns = Ok pns /\ pn_block_to_rows pns a = Ret (Ok v) /\ ssv_rows v = Ret (a :: rows) /\
       last rows [] = b /\
       forall i r r', nth_error (a :: rows) i = Some r -> nth_error (a :: rows) (i + 1) = Some r' ->
         exists p q m, p + 2 <= q /\ row_swap r p (p + 1) = Ret m /\ row_swap m q (q + 1) = Ret r').
Proof. exact pf_C152_double_changes. Qed.
Print Assumptions C152_double_changes.

(** C152: four bells are too few: 1234 and 1342 have the same parity, and double changes, however many, do not lead from the one to the other. *)
Theorem C152_four_bells_are_too_few :
  row_parity 9 [0; 1; 2; 3] = Ret ([0; 1; 2; 3], Even) /\ row_parity 9 [0; 2; 3; 1] = Ret ([0; 1; 2; 3], Even) /\
  forall rows,
    (forall i r r', nth_error ([0; 1; 2; 3] :: rows) i = Some r -> nth_error ([0; 1; 2; 3] :: rows) (i + 1) = Some r' ->
       exists p q m, p + 2 <= q /\ row_swap r p (p + 1) = Ret m /\ row_swap m q (q + 1) = Ret r') ->
    ~ In [0; 2; 3; 1] rows.
Proof. exact pf_C152_four_bells_are_too_few. Qed.
Print Assumptions C152_four_bells_are_too_few.

(** On five bells, from 12345 to 13425 by three double changes. *)
Example C152_example :
  exists pns v, pn_block_parse (s2l "1.3.5") 5 = Ret (Ok pns) /\ pn_block_to_rows pns [0; 1; 2; 3; 4] = Ret (Ok v) /\
    ssv_rows v = Ret [[0; 1; 2; 3; 4]; [0; 2; 1; 4; 3]; [2; 0; 1; 3; 4]; [0; 2; 3; 1; 4]] /\
    row_parity 11 [0; 1; 2; 3; 4] = Ret ([0; 1; 2; 3; 4], Even) /\ row_parity 11 [0; 2; 3; 1; 4] = Ret ([0; 1; 2; 3; 4], Even).
Proof. do 2 eexists. splits; vm_compute; reflexivity. Qed.
