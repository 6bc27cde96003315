(** Property theorems C140: music counted piece by piece. *)

(* Generated from tools/props/Tally.src; the proofs are in TallyThms.v. *)
From Coq Require Import Factorial.
From Verif Require Import Base Spec ListFacts Bell Stage Row RowFacts MulFacts GroupFacts
  Utils SameStageVec SpecVec SsvFacts Block SpecBlock BlockFacts PlaceNot Class Method MethodFacts Mask MaskFacts2 Music SpecMask SpecRename SpecTally
  TruthFacts CycleFacts ExtentFacts CourseExtentFacts TallyFacts.
From Verif Require Import MaskThms MethodThms RenameThms BlockThms ExtentThms.
Local Open Scope list_scope.
From Verif Require Import TallyThms.

(** C140: as many rows of a buffer match a mask after the buffer is multiplied by a row, as rows of the buffer before it match the
    mask multiplied by the inverse of that row; and likewise for a regex whose bells are renamed. *)
Theorem C140_transposed_rows :
  forall v s rs t ti vt rows, holds v s rs -> valid_row t -> length t = s ->
    ssv_pre_multiply v t = Ret (vt, Ok tt) -> ssv_rows vt = Ret rows -> row_inv t = Ret ti ->
    (forall m, length m = s -> (forall p b, specifies m p b -> b < s) ->
       exists m', row_mul_mask ti m = Ret m' /\ mask_tally m rows = mask_tally m' rs) /\
    (forall es fs es' fs', Forall2 (renamed t) es fs -> regex_from_vec es = Ret es' -> regex_from_vec fs = Ret fs' ->
       regex_tally fs' rows = regex_tally es' rs).
Proof. exact pf_C140_transposed_rows. Qed.
Print Assumptions C140_transposed_rows.

(** C140: extending a block by another adds the rows of the other which match the mask, multiplied by the inverse of the transposition
    from the first row of the other to the leftover row of the block. *)
Theorem C140_joined_blocks :
  forall A (b other : block A) s ars lo ars' lo' first b' ars2 lo2 m,
    block_holds b s ars lo -> block_holds other s ars' lo' -> hd_error (map fst ars' ++ [lo']) = Some first ->
    block_extend b other = Ret (b', Ok tt) -> block_holds b' s ars2 lo2 -> length m = s -> (forall p x, specifies m p x -> x < s) ->
    exists t ti m', solve_xa_equals_b first lo = Ret (Ok t) /\ row_inv t = Ret ti /\ row_mul_mask ti m = Ret m' /\
      mask_tally m (map fst ars2) = mask_tally m (map fst ars) + mask_tally m' (map fst ars').
Proof. exact pf_C140_joined_blocks. Qed.
Print Assumptions C140_joined_blocks.

(** C140: the rows of a touch (leads of the same rows multiplied by one lead head after another) which match a mask can be counted in the
    rows of the one lead, with the mask multiplied by the inverse of each lead head. *)
Theorem C140_touches :
  forall v s rs heads leads m, holds v s rs -> Forall (fun h => valid_row h /\ length h = s) heads ->
    Forall2 (fun h lead => exists vh, ssv_pre_multiply v h = Ret (vh, Ok tt) /\ ssv_rows vh = Ret lead) heads leads ->
    length m = s -> (forall p b, specifies m p b -> b < s) ->
    exists ms, Forall2 (fun h m' => exists hi, row_inv h = Ret hi /\ row_mul_mask hi m = Ret m') heads ms /\
      mask_tally m (concat leads) = list_sum (map (fun m' => mask_tally m' rs) ms).
Proof. exact pf_C140_touches. Qed.
Print Assumptions C140_touches.

(** C140: so for the plain course of a method, whose lead heads are the powers of its lead head. *)
Theorem C140_plain_courses :
  forall mt s ars lo fuel pc pars pe fuel' heads m, block_holds (first_lead mt) s ars lo -> is_identity (hd [] (all_rows_of ars lo)) ->
    plain_course fuel mt = Ret pc -> block_holds pc s pars pe -> closure_from_rounds fuel' lo = Ret heads ->
    length m = s -> (forall p b, specifies m p b -> b < s) ->
    exists ms, Forall2 (fun h m' => exists hi, row_inv h = Ret hi /\ row_mul_mask hi m = Ret m') heads ms /\
      mask_tally m (map fst pars) = list_sum (map (fun m' => mask_tally m' (map fst ars)) ms).
Proof. exact pf_C140_plain_courses. Qed.
Print Assumptions C140_plain_courses.

(** C140: a block without a repeated row has at most as many rows which match a mask as there are orders of the bells the mask leaves open,
    and exactly so many if the block has every row. *)
Theorem C140_music_of_a_true_touch :
  forall A (b : block A) s ars lo m, block_holds b s ars lo -> NoDup (map fst ars) -> length m = s -> each_bell_once m ->
    (forall p x, specifies m p x -> x < s) ->
    mask_tally m (map fst ars) <= fact (length (mask_unspecified_places m)) /\
    (length ars = fact s -> mask_tally m (map fst ars) = fact (length (mask_unspecified_places m))).
Proof. exact pf_C140_music_of_a_true_touch. Qed.
Print Assumptions C140_music_of_a_true_touch.

(** The plain course of Plain Bob Minimus has every row on four bells; the mask for 4 at the back matches 3! of its rows, which are found lead by lead. *)
Example C140_example :
  exists pns lead pc rows lead_rows m1 m2,
    pn_block_parse (s2l "-14-14,12") 4 = Ret (Ok pns) /\ pn_block_to_block_from_rounds None pns = Ret lead /\
    plain_course 9 (Method [] [] (FullClass false false false Bob) lead) = Ret pc /\ block_rows pc = Ret rows /\ block_rows lead = Ret lead_rows /\
    closure_from_rounds 9 [0; 2; 3; 1] = Ret [[0; 1; 2; 3]; [0; 2; 3; 1]; [0; 3; 1; 2]] /\
    row_mul_mask [0; 3; 1; 2] [None; None; None; Some 3] = Ret m1 /\ row_mul_mask [0; 2; 3; 1] [None; None; None; Some 3] = Ret m2 /\
    mask_tally [None; None; None; Some 3] rows = 6 /\
    map (fun m => mask_tally m lead_rows) [[None; None; None; Some 3]; m1; m2] = [2; 2; 2].
Proof. do 7 eexists. splits; vm_compute; reflexivity. Qed.
