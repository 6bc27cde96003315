(** Property theorems C126: effective stages of products, inverses, powers, groups and blocks of changes. *)

(* Generated from tools/props/Still.src; the proofs are in StillThms.v. *)
From Verif Require Import Base Bell Stage Row Utils SameStageVec Block PlaceNot Spec SpecVec SpecBlock SpecPn ListFacts
  BellFacts RowFacts MulFacts GroupFacts SsvFacts BlockFacts PnFacts PnFacts2 PnFacts3 LawFacts ReachFacts StillFacts.
From Verif Require Import RowThms GroupThms BlockThms PnThms.
Local Open Scope list_scope.
From Verif Require Import StillThms.

(** C126: a product moves no bell behind those which its factors move, and if their effective stages differ, the larger one
    is that of the product; bells which both factors fix are fixed. *)
Theorem C126_products :
  forall a b ea eb, valid_row a -> valid_row b -> length a = length b ->
    effective_stage a = Ret ea -> effective_stage b = Ret eb ->
    exists c e, row_mul a b = Ret c /\ effective_stage c = Ret e /\ e <= Nat.max ea eb /\ (ea <> eb -> e = Nat.max ea eb) /\
      (forall x, In x (fixed_bells a) -> In x (fixed_bells b) -> In x (fixed_bells c)).
Proof. exact pf_C126_products. Qed.
Print Assumptions C126_products.

(** C126: the inverse of a row moves exactly the bells which the row moves, and its powers move no bells behind them. *)
Theorem C126_inverses_and_powers :
  forall a ea, valid_row a -> effective_stage a = Ret ea ->
    (exists i, row_inv a = Ret i /\ effective_stage i = Ret ea /\ fixed_bells i = fixed_bells a) /\
    (forall z, exists p e, pow_i a z = Ret p /\ effective_stage p = Ret e /\ e <= ea).
Proof. exact pf_C126_inverses_and_powers. Qed.
Print Assumptions C126_inverses_and_powers.

(** C126: the least group which contains some rows moves no bell behind those which these rows move. *)
Theorem C126_groups :
  forall n e rows fuel l, rows <> [] -> Forall (fun r => valid_row r /\ length r = n) rows ->
    Forall (fun r => exists er, effective_stage r = Ret er /\ er <= e) rows ->
    least_group_containing fuel rows = Ret (Ok l) -> Forall (fun r => exists er, effective_stage r = Ret er /\ er <= e) l.
Proof. exact pf_C126_groups. Qed.
Print Assumptions C126_groups.

(** C126: changes which make all the places from some place on leave the bells there alone: the effective stage of the block
    which they give is at most that place or what the starting row has. *)
Theorem C126_changes :
  forall A (d : A) pns start s e es, pns <> [] -> Forall (fun pn => legal pn /\ pn_stage pn = s) pns ->
    valid_row start -> length start = s -> effective_stage start = Ret es -> 1 <= e ->
    Forall (fun pn => forall p, e <= p -> p < s -> In p (pn_places pn)) pns ->
    exists b eb, pn_block_to_block d pns start = Ret (Ok b) /\ block_effective_stage b = Ret eb /\ es <= eb /\ eb <= Nat.max e es.
Proof. exact pf_C126_changes. Qed.
Print Assumptions C126_changes.

(** Two rows which move bells up to the third and the fourth place: their product moves that in the fourth place; but two rows
    which both do can have a product which does not.  On eight bells, changes which make places from the fifth on move only four. *)
Example C126_example :
  effective_stage [1; 2; 0; 3; 4] = Ret 3 /\ effective_stage [0; 3; 2; 1; 4] = Ret 4 /\
  (exists c, row_mul [1; 2; 0; 3; 4] [0; 3; 2; 1; 4] = Ret c /\ effective_stage c = Ret 4) /\
  (exists c, row_mul [0; 3; 2; 1; 4] [0; 3; 2; 1; 4] = Ret c /\ effective_stage c = Ret 1) /\
  (exists l, least_group_containing 20 [[1; 2; 0; 3; 4]; [1; 0; 2; 3; 4]] = Ret (Ok l) /\ length l = 6) /\
  exists pns b, pn_block_parse (s2l "5678.345678,125678") 8 = Ret (Ok pns) /\
    pn_block_to_block tt pns [0; 1; 2; 3; 4; 5; 6; 7] = Ret (Ok b) /\ block_effective_stage b = Ret 4.
Proof.
  splits; try (vm_compute; reflexivity); try (eexists; split; vm_compute; reflexivity).
  do 2 eexists. splits; vm_compute; reflexivity.
Qed.
