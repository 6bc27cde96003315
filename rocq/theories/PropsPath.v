(** Property theorems C123: the paths of the bells. *)

(* Generated from tools/props/Path.src; the proofs are in PathThms.v. *)
From Verif Require Import Base Spec ListFacts Bell Stage Row RowFacts MulFacts GroupFacts
  Utils SameStageVec SpecVec SsvFacts Block SpecBlock BlockFacts PlaceNot SpecPn PnFacts PnFacts2 PnFacts3 LawFacts
  Class Method SpecMethod MethodFacts BellPathFacts.
From Verif Require Import SsvThms BlockThms PnThms MethodThms.
Local Open Scope list_scope.
From Verif Require Import PathThms.

(** C123: at each row, each place is on the path of exactly one bell. *)
Theorem C123_one_bell_at_each_place :
  forall v s rs i p, holds v s rs -> i < length rs -> p < s ->
    exists b, b < s /\ forall c path, ssv_path_of v c = Ret (Some path) -> (nth_error path i = Some p <-> c = b).
Proof. exact pf_C123_one_bell_at_each_place. Qed.
Print Assumptions C123_one_bell_at_each_place.

(** C123: two buffers of rows of a stage in which every bell has the same path are the same. *)
Theorem C123_paths_determine_the_rows :
  forall v w s rs ss, holds v s rs -> holds w s ss -> (forall b, b < s -> ssv_path_of v b = ssv_path_of w b) -> v = w.
Proof. exact pf_C123_paths_determine_the_rows. Qed.
Print Assumptions C123_paths_determine_the_rows.

(** C123: a change leaves the bells in the places it makes where they are, and moves every other bell by one place. *)
Theorem C123_one_place_at_a_time :
  forall pns start s v b path i p q pn, pns <> [] -> Forall (fun pn => legal pn /\ pn_stage pn = s) pns ->
    valid_row start -> length start = s -> pn_block_to_rows pns start = Ret (Ok v) ->
    ssv_path_of v b = Ret (Some path) -> nth_error pns i = Some pn -> nth_error path i = Some p -> nth_error path (i + 1) = Some q ->
    (In p (pn_places pn) -> q = p) /\
    (~ In p (pn_places pn) -> ~ In q (pn_places pn) /\ (q = p + 1 \/ p = q + 1)).
Proof. exact pf_C123_one_place_at_a_time. Qed.
Print Assumptions C123_one_place_at_a_time.

(** C123: in the plain course a bell which starts a lead in some place rings, during that lead, the path which the bell of
    that place has in the first lead. *)
Theorem C123_place_bells :
  forall m s ars lo fuel pc pars pe j h c b lead_path e path f i p,
    block_holds (first_lead m) s ars lo -> is_identity (hd [] (all_rows_of ars lo)) ->
    plain_course fuel m = Ret pc -> block_holds pc s pars pe ->
    power lo j h -> nth_error h c = Some b ->
    block_path_of (first_lead m) c = Ret (Some (lead_path, e)) -> block_path_of pc b = Ret (Some (path, f)) ->
    i < length ars -> nth_error path (j * length ars + i) = Some p -> nth_error lead_path i = Some p.
Proof. exact pf_C123_place_bells. Qed.
Print Assumptions C123_place_bells.

(** Plain Bob Minimus: in the third lead bell 3 (written 4) is the bell of place 1 (written 2), since the second power of the lead head
    has it there; the path of the course has the path of bell 1 in the first lead from row 16 on. *)
Example C123_example :
  exists pns lead pc p q e f, pn_block_parse (s2l "-14-14,12") 4 = Ret (Ok pns) /\
    pn_block_to_block_from_rounds None pns = Ret lead /\
    plain_course 3 (Method [] [] (FullClass false false false Bob) lead) = Ret pc /\
    block_leftover_row lead = Ret [0; 2; 3; 1] /\ pow_u [0; 2; 3; 1] 2 = Ret [0; 3; 1; 2] /\
    block_path_of lead 1 = Ret (Some (p, e)) /\ block_path_of pc 3 = Ret (Some (q, f)) /\
    p = [1; 0; 0; 1; 2; 3; 3; 2] /\ skipn 16 q = p /\ firstn 8 q = [3; 2; 1; 0; 0; 1; 2; 3].
Proof. do 7 eexists. splits; vm_compute; reflexivity. Qed.
