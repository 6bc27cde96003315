(** Property theorems C138: plain courses which are extents. *)

(* Generated from tools/props/CourseExtent.src; the proofs are in CourseExtentThms.v. *)
From Coq Require Import Factorial.
From Verif Require Import Base Spec ListFacts Bell Stage Row RowFacts MulFacts GroupFacts
  Utils SameStageVec SpecVec SsvFacts Block SpecBlock BlockFacts PlaceNot SpecPn Class SpecClass ClassFacts ClassFacts2 ClassFacts3
  Method SpecMethod SpecMask ExtentFacts CourseExtentFacts.
From Verif Require Import BlockThms ClassThms WorkThms.
From Verif Require WorkFacts LeadLenFacts.
Local Open Scope list_scope.
From Verif Require Import CourseExtentThms.

(** C138: a block (such as a plain course) on [s] bells without a repeated row has at most as many rows as there are orders of [s] bells, and exactly as many
    if and only if it contains every row. *)
Theorem C138_no_more_rows_than_orders :
  forall A (b : block A) s ars lo, block_holds b s ars lo -> NoDup (map fst ars) ->
    length ars <= fact s /\ (length ars = fact s <-> forall r, valid_row r -> length r = s -> In r (map fst ars)).
Proof. exact pf_C138_no_more_rows_than_orders. Qed.
Print Assumptions C138_no_more_rows_than_orders.

(** C138: if the plain course of a method rings every row exactly once, then in each lead every hunt bell is in every place equally often: the number of leads times the number of times
    is the number of orders of the other bells. *)
Theorem C138_hunt_bells_in_an_extent :
  forall m s ars lo fuel pc pars pe leads t q,
    block_holds (first_lead m) s ars lo -> ars <> [] -> is_identity (hd [] (map fst ars)) -> plain_course fuel m = Ret pc ->
    block_holds pc s pars pe -> NoDup (map fst pars) -> length pars = fact s -> length pars = leads * length ars ->
    hunt_bell lo t -> q < s ->
    leads * visits (path_in (map fst ars) t) q = fact (s - 1).
Proof. exact pf_C138_hunt_bells_in_an_extent. Qed.
Print Assumptions C138_hunt_bells_in_an_extent.

(** C138: so a method with a hunt bell whose plain course rings every row exactly once is not little, and not an Alliance method. *)
Theorem C138_class_of_an_extent :
  forall m s ars lo fuel pc pars pe hash_order fc,
    block_holds (first_lead m) s ars lo -> ars <> [] -> is_identity (hd [] (map fst ars)) -> plain_course fuel m = Ret pc ->
    block_holds pc s pars pe -> NoDup (map fst pars) -> length pars = fact s ->
    (forall i r1 r2, change_at (map fst ars) lo i r1 r2 -> no_jump r1 r2) ->
    (forall l, collected_set l (hash_order l)) -> classify hash_order (first_lead m) = Ret fc ->
    (exists t, hunt_bell lo t) -> is_little fc = false /\ fc_class fc <> Alliance.
Proof. exact pf_C138_class_of_an_extent. Qed.
Print Assumptions C138_class_of_an_extent.

(** Plain Bob Minimus: three leads, in each of which the treble is twice in each place; 3 * 2 = 3!. *)
Example C138_example :
  exists pns lead pc rows, pn_block_parse (s2l "-14-14,12") 4 = Ret (Ok pns) /\ pn_block_to_block_from_rounds None pns = Ret lead /\
    plain_course 9 (Method [] [] (FullClass false false false Bob) lead) = Ret pc /\ block_rows pc = Ret rows /\
    length (nodup (list_eq_dec Nat.eq_dec) rows) = fact 4 /\ length rows = fact 4 /\
    block_path_of lead 0 = Ret (Some ([0; 1; 2; 3; 3; 2; 1; 0], 0)) /\ 3 * visits [0; 1; 2; 3; 3; 2; 1; 0] 2 = fact 3 /\
    classify (nodup Nat.eq_dec) lead = Ret (FullClass false false false Bob).
Proof. do 4 eexists. splits; vm_compute; reflexivity. Qed.
