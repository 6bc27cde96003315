(** Property theorems C149: plain courses as products of a group with the rows of a lead. *)

(* Generated from tools/props/Part.src; the proofs are in PartThms.v. *)
From Coq Require Import Permutation.
From Verif Require Import Base Spec ListFacts Bell Stage Row RowFacts MulFacts GroupFacts GroupFacts2
  Utils SameStageVec SpecVec SsvFacts Block SpecBlock BlockFacts PlaceNot SpecPn PnFacts PnFacts2 PnFacts3
  Class Method Call SpecMethod MethodFacts TruthFacts LawFacts2 CycleFacts CosetFacts PartFacts.
From Verif Require Import RowThms GroupThms SsvThms MethodThms Laws2Thms.
Local Open Scope list_scope.
From Verif Require Import PartThms.

(** C149: the rows of the plain course are, in another order, the products of the powers of the lead head with the rows of a lead.
    One power after another, they are the rows of the plain course in their order. *)
Theorem C149_plain_courses_are_products :
  forall m s ars lo fuel pc pars pe fuel' powers,
    block_holds (first_lead m) s ars lo -> is_identity (hd [] (all_rows_of ars lo)) ->
    plain_course fuel m = Ret pc -> block_holds pc s pars pe -> closure_from_rounds fuel' lo = Ret powers ->
    (exists l, multi_cartesian_product [powers; map fst ars] = Ret (Ok l) /\ Permutation l (map fst pars)) /\
    exists leads, Forall2 (fun p lead => multi_cartesian_product [[p]; map fst ars] = Ret (Ok lead)) powers leads /\ map fst pars = concat leads.
Proof. exact pf_C149_plain_courses_are_products. Qed.
Print Assumptions C149_plain_courses_are_products.

(** C149: the products of any group which contains the lead head with the rows of a lead are whole plain courses: for some rows of the group, the products
    of these with the rows of the plain course are the same, in another order. *)
Theorem C149_groups_of_lead_heads_are_whole_courses :
  forall m s ars lo fuel pc pars pe fuel' powers group,
    block_holds (first_lead m) s ars lo -> is_identity (hd [] (all_rows_of ars lo)) ->
    plain_course fuel m = Ret pc -> block_holds pc s pars pe -> closure_from_rounds fuel' lo = Ret powers ->
    Forall (fun r => valid_row r /\ length r = s) group -> NoDup group -> is_group_set group = Ret (Ok true) -> In lo group ->
    exists heads l l', (forall h, In h heads -> In h group) /\ NoDup heads /\ length heads * length powers = length group /\
      multi_cartesian_product [group; map fst ars] = Ret (Ok l) /\
      multi_cartesian_product [heads; map fst pars] = Ret (Ok l') /\ Permutation l l'.
Proof. exact pf_C149_groups_of_lead_heads_are_whole_courses. Qed.
Print Assumptions C149_groups_of_lead_heads_are_whole_courses.

(** Plain Bob Minimus: the plain course is the extent, as three leads of eight rows, and as the products of the powers of the lead head with one lead.  The rows with the treble
    in its own place are a group of six which contains the lead head. *)
Example C149_example :
  exists pns lead pc l rs, pn_block_parse (s2l "-14-14,12") 4 = Ret (Ok pns) /\
    pn_block_to_block_from_rounds None pns = Ret lead /\ block_leftover_row lead = Ret [0; 2; 3; 1] /\
    plain_course 3 (Method [] [] (FullClass false false false Bob) lead) = Ret pc /\ block_len pc = 24 /\
    closure_from_rounds 5 [0; 2; 3; 1] = Ret [[0; 1; 2; 3]; [0; 2; 3; 1]; [0; 3; 1; 2]] /\
    ssv_rows (blk_rows lead) = Ret rs /\
    multi_cartesian_product [[[0; 1; 2; 3]; [0; 2; 3; 1]; [0; 3; 1; 2]]; removelast rs] = Ret (Ok l) /\ length l = 24 /\
    nth 1 l [] = [0; 2; 3; 1] /\ block_get_row pc 8 = Some [0; 2; 3; 1] /\
    is_group_set [[0; 1; 2; 3]; [0; 2; 3; 1]; [0; 3; 1; 2]; [0; 1; 3; 2]; [0; 3; 2; 1]; [0; 2; 1; 3]] = Ret (Ok true).
Proof. do 5 eexists. splits; vm_compute; reflexivity. Qed.
