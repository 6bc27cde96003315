(** Property theorems C134: the work of the bells in the plain course. *)

(* Generated from tools/props/Work.src; the proofs are in WorkThms.v. *)
From Verif Require Import Base Spec SpecBlock Class SpecClass SpecVec ListFacts Row RowFacts MulFacts GroupFacts SameStageVec Block SsvFacts BlockFacts
  PlaceNot ClassFacts SymFacts3 Method SpecMethod SpecCycle CycleFacts BellPathFacts DiffFacts WorkFacts.
From Verif Require Import BlockThms MethodThms.
Local Open Scope list_scope.
From Verif Require Import WorkThms.

(** C134: in the plain course of a method whose lead starts at rounds, the path of bell [b] is that of bell [c] begun [k] leads later
    exactly when [k] steps along the lead head go from [b] to [c].  So two bells do the same work, one some leads after the
    other, exactly when they are on the same cycle of the lead head. *)
Theorem C134_the_same_work :
  forall m s ars lo fuel pc b c path_b path_c e f,
    block_holds (first_lead m) s ars lo -> ars <> [] -> is_identity (hd [] (map fst ars)) -> plain_course fuel m = Ret pc ->
    block_path_of pc b = Ret (Some (path_b, e)) -> block_path_of pc c = Ret (Some (path_c, f)) ->
    (forall k, k * lead_len m < length path_b ->
       (path_b = skipn (k * lead_len m) path_c ++ firstn (k * lead_len m) path_c <-> follow lo k b = c)) /\
    ((exists k, k * lead_len m < length path_b /\ path_b = skipn (k * lead_len m) path_c ++ firstn (k * lead_len m) path_c) <->
     same_cycle lo b c).
Proof. exact pf_C134_the_same_work. Qed.
Print Assumptions C134_the_same_work.

(** C134: a hunt bell does the same in every lead, and no other bell does. *)
Theorem C134_hunt_bells :
  forall m s ars lo fuel pc x lead_path e path f,
    block_holds (first_lead m) s ars lo -> ars <> [] -> is_identity (hd [] (map fst ars)) -> plain_course fuel m = Ret pc ->
    block_path_of (first_lead m) x = Ret (Some (lead_path, e)) -> block_path_of pc x = Ret (Some (path, f)) ->
    (hunt_bell lo x <-> exists n, path = concat (repeat lead_path n)).
Proof. exact pf_C134_hunt_bells. Qed.
Print Assumptions C134_hunt_bells.

(** Plain Bob Minimus: the lead head is "1342"; two steps along it go from bell 1 (written 2) to bell 3 (written 4), so bell 1 begins with what bell 3
    does from the third lead on. *)
Example C134_example :
  exists pns lead pc p q e f, pn_block_parse (s2l "-14-14,12") 4 = Ret (Ok pns) /\
    pn_block_to_block_from_rounds None pns = Ret lead /\
    plain_course 3 (Method [] [] (FullClass false false false Bob) lead) = Ret pc /\
    block_path_of pc 1 = Ret (Some (p, e)) /\ block_path_of pc 3 = Ret (Some (q, f)) /\
    lead_head (Method [] [] (FullClass false false false Bob) lead) = Ret [0; 2; 3; 1] /\ follow [0; 2; 3; 1] 2 1 = 3 /\
    p = skipn 16 q ++ firstn 16 q /\ p <> skipn 8 q ++ firstn 8 q.
Proof. do 7 eexists. splits; vm_compute; try reflexivity. discriminate. Qed.
