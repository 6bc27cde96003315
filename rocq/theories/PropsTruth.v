(** Property theorems C105: repeated rows are found by comparing the rows of one lead. *)

(* Generated from tools/props/Truth.src; the proofs are in TruthThms.v. *)
From Verif Require Import Base Spec ListFacts Bell Stage Row RowFacts MulFacts GroupFacts
  Utils SameStageVec SpecVec SsvFacts Block SpecBlock BlockFacts PlaceNot SpecPn PnFacts PnFacts2 PnFacts3
  Class Method Call SpecMethod MethodFacts TruthFacts.
From Verif Require Import RowThms GroupThms SsvThms MethodThms.
Local Open Scope list_scope.
From Verif Require Import TruthThms.

(** C105: the rows [v] multiplied by [a] and the same rows multiplied by [b] have a row in common exactly when the
    row which takes [b] to [a] is the transposition between two of the rows of [v]. *)
Theorem C105_leads_with_a_row_in_common :
  forall v s rs a b va vb rows_a rows_b x, holds v s rs -> valid_row a -> valid_row b -> length a = s -> length b = s ->
    ssv_pre_multiply v a = Ret (va, Ok tt) -> ssv_rows va = Ret rows_a ->
    ssv_pre_multiply v b = Ret (vb, Ok tt) -> ssv_rows vb = Ret rows_b ->
    solve_ax_equals_b b a = Ret (Ok x) ->
    ((exists r, In r rows_a /\ In r rows_b) <->
     (exists p q, In p rs /\ In q rs /\ solve_xa_equals_b p q = Ret (Ok x))).
Proof. exact pf_C105_leads_with_a_row_in_common. Qed.
Print Assumptions C105_leads_with_a_row_in_common.

(** C105: a touch made of the rows [v] multiplied by one row of [heads] after another has no repeated row exactly when
    [v] has none and the row which takes one head to a later one is never the transposition between two rows of [v]. *)
Theorem C105_true_touches :
  forall v s rs heads leads, holds v s rs -> Forall (fun h => valid_row h /\ length h = s) heads -> heads <> [] ->
    Forall2 (fun h lead => exists vh, ssv_pre_multiply v h = Ret (vh, Ok tt) /\ ssv_rows vh = Ret lead) heads leads ->
    (NoDup (concat leads) <->
     NoDup rs /\
     forall i j a b x p q, i < j -> nth_error heads i = Some a -> nth_error heads j = Some b ->
       solve_ax_equals_b a b = Ret (Ok x) -> In p rs -> In q rs -> solve_xa_equals_b p q <> Ret (Ok x)).
Proof. exact pf_C105_true_touches. Qed.
Print Assumptions C105_true_touches.

(** C105: the plain course of a method has no repeated row exactly when its lead has none and no power of the lead
    head is the transposition between two different rows of the lead. *)
Theorem C105_true_plain_courses :
  forall m s ars lo fuel pc pars pe fuel' powers,
    block_holds (first_lead m) s ars lo -> is_identity (hd [] (all_rows_of ars lo)) ->
    plain_course fuel m = Ret pc -> block_holds pc s pars pe -> closure fuel' lo = Ret powers ->
    (NoDup (map fst pars) <->
     NoDup (map fst ars) /\
     forall p q x, In p (map fst ars) -> In q (map fst ars) -> solve_xa_equals_b p q = Ret (Ok x) -> In x powers -> p = q).
Proof. exact pf_C105_true_plain_courses. Qed.
Print Assumptions C105_true_plain_courses.

(** Two methods on three bells.  The course of the first has no repeated row; the lead of the second has none either, but
    its course has, because the second power of its lead head takes its first row to its third. *)
Example C105_example :
  (exists pns lead pc, pn_block_parse (s2l "3.1") 3 = Ret (Ok pns) /\ pn_block_to_block_from_rounds None pns = Ret lead /\
    plain_course 9 (Method [] [] (FullClass false false false Principle) lead) = Ret pc /\
    block_all_rows pc = Ret [[0; 1; 2]; [1; 0; 2]; [1; 2; 0]; [2; 1; 0]; [2; 0; 1]; [0; 2; 1]; [0; 1; 2]]) /\
  (exists pns lead pc, pn_block_parse (s2l "3.1.3.1") 3 = Ret (Ok pns) /\ pn_block_to_block_from_rounds None pns = Ret lead /\
    block_holds lead 3 [([0; 1; 2], None); ([1; 0; 2], None); ([1; 2; 0], None); ([2; 1; 0], None)] [2; 0; 1] /\
    plain_course 9 (Method [] [] (FullClass false false false Principle) lead) = Ret pc /\
    block_all_rows pc = Ret [[0; 1; 2]; [1; 0; 2]; [1; 2; 0]; [2; 1; 0]; [2; 0; 1]; [0; 2; 1]; [0; 1; 2]; [1; 0; 2]; [1; 2; 0];
                             [2; 1; 0]; [2; 0; 1]; [0; 2; 1]; [0; 1; 2]]) /\
  solve_xa_equals_b [0; 1; 2] [1; 2; 0] = Ret (Ok [1; 2; 0]) /\ closure 9 [2; 0; 1] = Ret [[2; 0; 1]; [1; 2; 0]; [0; 1; 2]].
Proof.
  splits; try (vm_compute; reflexivity).
  - do 3 eexists. split; [vm_compute; reflexivity|]. split; [vm_compute; reflexivity|]. split; vm_compute; reflexivity.
  - do 3 eexists. split; [vm_compute; reflexivity|]. split; [vm_compute; reflexivity|]. split; [|split; vm_compute; reflexivity].
    apply brep_holds. split; [|reflexivity]. apply rep_intro; [lia|repeat (apply Forall_cons; [split; [vr|reflexivity]|]); apply Forall_nil|reflexivity|reflexivity].
Qed.

(** Three leads of the rows 123, 213 make a touch without repeated rows when the heads are 123, 231 and 312, and one
    with repeated rows when the heads are 123 and 213. *)
Example C105_touch_example :
  exists v l1 l2 l3 l4 v1 v2 v3 v4, holds v 3 [[0; 1; 2]; [1; 0; 2]] /\
    ssv_pre_multiply v [0; 1; 2] = Ret (v1, Ok tt) /\ ssv_rows v1 = Ret l1 /\
    ssv_pre_multiply v [1; 2; 0] = Ret (v2, Ok tt) /\ ssv_rows v2 = Ret l2 /\
    ssv_pre_multiply v [2; 0; 1] = Ret (v3, Ok tt) /\ ssv_rows v3 = Ret l3 /\
    ssv_pre_multiply v [1; 0; 2] = Ret (v4, Ok tt) /\ ssv_rows v4 = Ret l4 /\
    concat [l1; l2; l3] = [[0; 1; 2]; [1; 0; 2]; [1; 2; 0]; [2; 1; 0]; [2; 0; 1]; [0; 2; 1]] /\
    concat [l1; l4] = [[0; 1; 2]; [1; 0; 2]; [1; 0; 2]; [0; 1; 2]] /\
    solve_ax_equals_b [0; 1; 2] [1; 0; 2] = Ret (Ok [1; 0; 2]) /\ solve_xa_equals_b [0; 1; 2] [1; 0; 2] = Ret (Ok [1; 0; 2]).
Proof.
  exists (Ssv [0; 1; 2; 1; 0; 2] 3). do 8 eexists.
  split; [apply holds_rep, rep_intro; [lia|repeat (apply Forall_cons; [split; [vr|reflexivity]|]); apply Forall_nil|reflexivity|reflexivity]|].
  do 10 (split; [vm_compute; reflexivity|]). vm_compute. auto.
Qed.
