(** Property theorems C156: what is counted in extents and in blocks which ring every row equally often. *)

(* Generated from tools/props/Multi.src; the proofs are in MultiThms.v. *)
From Coq Require Import Permutation Factorial.
From Verif Require Import Base Bell Stage Row Utils SameStageVec Block PlaceNot Mask Spec SpecVec SpecBlock SpecClass SpecMask ListFacts
  BellFacts RowFacts MulFacts GroupFacts SsvFacts BlockFacts MaskFacts MaskFacts2 ClassFacts CourseExtentFacts MultiFacts.
From Verif Require Import BlockThms ExtentThms.
Local Open Scope list_scope.
From Verif Require Import MultiThms.

(** C156: if a block rings every row of its stage [k] times, every bell is in each place [k] times as often as there are orders of the other bells. *)
Theorem C156_bells_in_places :
  forall A (b : block A) s ars lo k bell path e p, block_holds b s ars lo ->
    (forall r, valid_row r -> length r = s -> count_occ (list_eq_dec Nat.eq_dec) (map fst ars) r = k) ->
    block_path_of b bell = Ret (Some (path, e)) -> p < s ->
    block_len b = k * fact s /\ visits path p = k * fact (s - 1).
Proof. exact pf_C156_bells_in_places. Qed.
Print Assumptions C156_bells_in_places.

(** C156: and as many of its rows match a mask of the stage, which specifies bells of the stage, each at most once, as [k] times the number of orders of the bells left open. *)
Theorem C156_rows_which_match_a_mask :
  forall A (b : block A) s ars lo k m, block_holds b s ars lo ->
    (forall r, valid_row r -> length r = s -> count_occ (list_eq_dec Nat.eq_dec) (map fst ars) r = k) ->
    length m = s -> each_bell_once m -> (forall p x, specifies m p x -> x < s) ->
    length (filter (fun r => match mask_matches m r with Ret v => v | _ => false end) (map fst ars)) = k * fact (length (mask_unspecified_places m)).
Proof. exact pf_C156_rows_which_match_a_mask. Qed.
Print Assumptions C156_rows_which_match_a_mask.

(** The extent on three bells rung twice. *)
Example C156_example :
  exists pns b path e rows, pn_block_parse (s2l "3.1.3.1.3.1.3.1.3.1.3.1") 3 = Ret (Ok pns) /\ pn_block_to_block_from_rounds tt pns = Ret b /\
    block_path_of b 1 = Ret (Some (path, e)) /\ map (visits path) [0; 1; 2] = [4; 4; 4] /\ 2 * fact (3 - 1) = 4 /\ block_len b = 12 /\
    block_rows b = Ret rows /\
    map (count_occ (list_eq_dec Nat.eq_dec) (firstn 12 rows)) [[0; 1; 2]; [0; 2; 1]; [1; 0; 2]; [1; 2; 0]; [2; 0; 1]; [2; 1; 0]] = repeat 2 6 /\
    length (filter (fun r => match mask_matches (mask_parse (s2l "x2x")) r with Ret v => v | _ => false end) (firstn 12 rows)) = 4.
Proof. do 5 eexists. splits; vm_compute; reflexivity. Qed.
