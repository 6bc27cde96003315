(** Property theorems C137: where the repeated rows of a plain course can be. *)

(* Generated from tools/props/RepeatPlace.src; the proofs are in RepeatPlaceThms.v. *)
From Verif Require Import Base Spec ListFacts Bell Stage Row RowFacts MulFacts GroupFacts
  Utils SameStageVec SpecVec SsvFacts Block SpecBlock BlockFacts PlaceNot SpecPn Class SpecClass ClassFacts ClassFacts2 ClassFacts3
  Method SpecMethod SpecHunt BellPathFacts PlainFacts RepeatPlaceFacts.
From Verif Require Import TruthThms.
Local Open Scope list_scope.
From Verif Require Import RepeatPlaceThms.

(** C137: the plain course of a method has no repeated row exactly when no power of the lead head takes a row of the lead to another one
    in which every hunt bell is in the same place as in the first. *)
Theorem C137_hunt_bells_in_the_same_places :
  forall m s ars lo fuel pc pars pe fuel' powers,
    block_holds (first_lead m) s ars lo -> is_identity (hd [] (all_rows_of ars lo)) ->
    plain_course fuel m = Ret pc -> block_holds pc s pars pe -> closure fuel' lo = Ret powers ->
    (NoDup (map fst pars) <->
     forall i j r q x, i <> j -> nth_error (map fst ars) i = Some r -> nth_error (map fst ars) j = Some q ->
       (forall b, hunt_bell lo b -> place_in r b = place_in q b) -> solve_xa_equals_b r q = Ret (Ok x) -> ~ In x powers).
Proof. exact pf_C137_hunt_bells_in_the_same_places. Qed.
Print Assumptions C137_hunt_bells_in_the_same_places.

(** C137: if some hunt bell plain hunts (as in every Bob and Place method but those of C135 which dodge), then it is in the same place in two rows of the lead only if they are
    mirror images of each other in its path; so it is enough to look at these pairs of rows, one of them for each row of half a lead. *)
Theorem C137_plain_methods :
  forall m s ars lo fuel pc pars pe fuel' powers t a h k,
    block_holds (first_lead m) s ars lo -> is_identity (hd [] (all_rows_of ars lo)) ->
    plain_course fuel m = Ret pc -> block_holds pc s pars pe -> closure fuel' lo = Ret powers ->
    hunt_bell lo t -> length ars = 2 * h ->
    (forall i, i < 2 * h -> nth_error (path_in (map fst ars) t) ((k + i) mod (2 * h)) = Some (a + out_and_in h i)) ->
    (NoDup (map fst pars) <->
     forall i r q x, i < h -> nth_error (map fst ars) ((k + i) mod (2 * h)) = Some r ->
       nth_error (map fst ars) ((k + (2 * h - 1 - i)) mod (2 * h)) = Some q -> solve_xa_equals_b r q = Ret (Ok x) -> ~ In x powers).
Proof. exact pf_C137_plain_methods. Qed.
Print Assumptions C137_plain_methods.

(** C137: a touch made of the rows of a lead multiplied by one row of [heads] after another, all of which have bell [t] in its own place, has no repeated row
    exactly when the lead has none and the row which takes one head to a later one is never the transposition between two rows of the lead with [t] in the same place. *)
Theorem C137_touches :
  forall v s rs heads leads t, holds v s rs -> Forall (fun h => valid_row h /\ length h = s /\ nth_error h t = Some t) heads -> heads <> [] ->
    Forall2 (fun h lead => exists vh, ssv_pre_multiply v h = Ret (vh, Ok tt) /\ ssv_rows vh = Ret lead) heads leads ->
    (NoDup (concat leads) <->
     NoDup rs /\
     forall i j a b x p q, i < j -> nth_error heads i = Some a -> nth_error heads j = Some b ->
       solve_ax_equals_b a b = Ret (Ok x) -> In p rs -> In q rs -> place_in p t = place_in q t -> solve_xa_equals_b p q <> Ret (Ok x)).
Proof. exact pf_C137_touches. Qed.
Print Assumptions C137_touches.

(** Plain Bob Minimus, whose course has no repeated row, and a method with all the bells in their places at the half lead, whose course has: its
    treble is in the same place in the rows numbered 3 and 4 of the lead, and rounds, a power of the lead head, takes the one to the other. *)
Example C137_example :
  exists pns lead pc rows pns' lead' pc' rows', pn_block_parse (s2l "-14-14,12") 4 = Ret (Ok pns) /\ pn_block_to_block_from_rounds None pns = Ret lead /\
    plain_course 9 (Method [] [] (FullClass false false false Bob) lead) = Ret pc /\ block_rows pc = Ret rows /\ length (nodup (list_eq_dec Nat.eq_dec) rows) = length rows /\
    block_path_of lead 0 = Ret (Some ([0; 1; 2; 3; 3; 2; 1; 0], 0)) /\
    pn_block_parse (s2l "-14-1234,12") 4 = Ret (Ok pns') /\ pn_block_to_block_from_rounds None pns' = Ret lead' /\
    plain_course 9 (Method [] [] (FullClass false false false Bob) lead') = Ret pc' /\ block_rows pc' = Ret rows' /\ length (nodup (list_eq_dec Nat.eq_dec) rows') < length rows' /\
    block_path_of lead' 0 = Ret (Some ([0; 1; 2; 3; 3; 2; 1; 0], 0)) /\
    nth_error rows' 3 = Some [3; 1; 2; 0] /\ nth_error rows' 4 = Some [3; 1; 2; 0].
Proof. do 8 eexists. splits; try (vm_compute; reflexivity). apply Nat.ltb_lt. vm_compute. reflexivity. Qed.

(** Two leads of two rows each, with the bell 2 in its place in both heads: the second repeats the rows of the first, because the row which takes the first head to
    the second takes also the first row to the second, and the bell 2 is in the same place in both. *)
Example C137_touch_example :
  exists v v1 v2, holds v 3 [[0; 1; 2]; [1; 0; 2]] /\ Forall (fun h => valid_row h /\ length h = 3 /\ nth_error h 2 = Some 2) [[0; 1; 2]; [1; 0; 2]] /\
    ssv_pre_multiply v [0; 1; 2] = Ret (v1, Ok tt) /\ ssv_rows v1 = Ret [[0; 1; 2]; [1; 0; 2]] /\
    ssv_pre_multiply v [1; 0; 2] = Ret (v2, Ok tt) /\ ssv_rows v2 = Ret [[1; 0; 2]; [0; 1; 2]] /\
    solve_ax_equals_b [0; 1; 2] [1; 0; 2] = Ret (Ok [1; 0; 2]) /\ place_in [0; 1; 2] 2 = place_in [1; 0; 2] 2 /\
    solve_xa_equals_b [0; 1; 2] [1; 0; 2] = Ret (Ok [1; 0; 2]).
Proof.
  exists (Ssv [0; 1; 2; 1; 0; 2] 3). do 2 eexists.
  split; [apply holds_rep, rep_intro; [lia|repeat (apply Forall_cons; [split; [vr|reflexivity]|]); apply Forall_nil|reflexivity|reflexivity]|].
  split; [repeat (apply Forall_cons; [split; [vr|split; reflexivity]|]); apply Forall_nil|]. splits; vm_compute; reflexivity.
Qed.
