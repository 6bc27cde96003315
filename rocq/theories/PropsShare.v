(** Property theorems C153: how often each bell is in each place in the plain course. *)

(* Generated from tools/props/Share.src; the proofs are in ShareThms.v. *)
From Verif Require Import Base Spec SpecBlock Class SpecClass SpecVec ListFacts Row RowFacts MulFacts GroupFacts SameStageVec Block SsvFacts BlockFacts
  PlaceNot ClassFacts SymFacts3 Method SpecMethod SpecCycle CycleFacts BellPathFacts DiffFacts WorkFacts SpecShare ShareFacts.
From Verif Require Import BlockThms MethodThms.
Local Open Scope list_scope.
From Verif Require Import ShareThms.

(** C153: in the plain course of a method whose lead starts at rounds, let [k] be the length of the cycle of the lead head on which bell [b] is, and [c] the number of
    rows of one lead with some bell of this cycle in place [p].  Then bell [b] is in place [p] in [c] of every [k] leads: the number of times
    in the course, times [k], is the number of leads times [c]. *)
Theorem C153_places_in_the_course :
  forall m s ars lo fuel pc b k p path e,
    block_holds (first_lead m) s ars lo -> ars <> [] -> is_identity (hd [] (map fst ars)) -> plain_course fuel m = Ret pc ->
    block_path_of pc b = Ret (Some (path, e)) -> cycle_length lo b k -> p < s ->
    exists leads, block_len pc = leads * lead_len m /\
      k * visits path p = leads * length (filter (fun r => on_cycle lo b k (nth p r 0)) (map fst ars)).
Proof. exact pf_C153_places_in_the_course. Qed.
Print Assumptions C153_places_in_the_course.

(** C153: if the lead head is one cycle on all the bells, each bell is in each place as often as a lead has rows. *)
Theorem C153_all_bells_working_together :
  forall m s ars lo fuel pc b p path e,
    block_holds (first_lead m) s ars lo -> ars <> [] -> is_identity (hd [] (map fst ars)) -> plain_course fuel m = Ret pc ->
    block_path_of pc b = Ret (Some (path, e)) -> cycle_length lo b s -> p < s ->
    block_len pc = s * lead_len m /\ visits path p = lead_len m.
Proof. exact pf_C153_all_bells_working_together. Qed.
Print Assumptions C153_all_bells_working_together.

(** C153: if one bell is a hunt bell and the others are on one cycle of the lead head, each of these is in each place, in the course, as often as the hunt bell is in
    other places in one lead. *)
Theorem C153_one_hunt_bell :
  forall m s ars lo fuel pc b h p path e lead_path f,
    block_holds (first_lead m) s ars lo -> ars <> [] -> is_identity (hd [] (map fst ars)) -> plain_course fuel m = Ret pc ->
    hunt_bell lo h -> b <> h -> cycle_length lo b (s - 1) ->
    block_path_of pc b = Ret (Some (path, e)) -> block_path_of (first_lead m) h = Ret (Some (lead_path, f)) -> p < s ->
    block_len pc = (s - 1) * lead_len m /\ visits path p + visits lead_path p = lead_len m.
Proof. exact pf_C153_one_hunt_bell. Qed.
Print Assumptions C153_one_hunt_bell.

(** In the plain course of Plain Bob Minimus each of 2, 3 and 4 is in each place six times; the treble is there twice in a lead of eight. *)
Example C153_example :
  exists pns lead pc p e tp f, pn_block_parse (s2l "-14-14,12") 4 = Ret (Ok pns) /\
    pn_block_to_block_from_rounds None pns = Ret lead /\
    plain_course 3 (Method [] [] (FullClass false false false Bob) lead) = Ret pc /\
    lead_head (Method [] [] (FullClass false false false Bob) lead) = Ret [0; 2; 3; 1] /\ cycle_length [0; 2; 3; 1] 1 3 /\ hunt_bell [0; 2; 3; 1] 0 /\
    block_path_of pc 1 = Ret (Some (p, e)) /\ block_path_of lead 0 = Ret (Some (tp, f)) /\
    map (visits p) [0; 1; 2; 3] = [6; 6; 6; 6] /\ map (visits tp) [0; 1; 2; 3] = [2; 2; 2; 2].
Proof.
  do 7 eexists. splits; try (vm_compute; reflexivity). split; [lia|]. split; [reflexivity|]. intros j Hj. assert (j = 1 \/ j = 2) as [->| ->] by lia; discriminate.
Qed.

(** Plain hunting on three bells as a principle with leads of two rows: each bell is in each place twice. *)
Example C153_example_principle :
  exists pns lead pc p e, pn_block_parse (s2l "3.1") 3 = Ret (Ok pns) /\
    pn_block_to_block_from_rounds None pns = Ret lead /\
    plain_course 3 (Method [] [] (FullClass false false false Principle) lead) = Ret pc /\
    lead_head (Method [] [] (FullClass false false false Principle) lead) = Ret [1; 2; 0] /\ cycle_length [1; 2; 0] 1 3 /\
    block_path_of pc 1 = Ret (Some (p, e)) /\ map (visits p) [0; 1; 2] = [2; 2; 2].
Proof.
  do 5 eexists. splits; try (vm_compute; reflexivity). split; [lia|]. split; [reflexivity|]. intros j Hj. assert (j = 1 \/ j = 2) as [->| ->] by lia; discriminate.
Qed.
