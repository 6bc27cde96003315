(** Property theorems C124: symmetrical notation gives symmetrical rows and paths. *)

(* Generated from tools/props/Mirror.src; the proofs are in MirrorThms.v. *)
From Verif Require Import Base Spec ListFacts Bell Stage Row RowFacts MulFacts GroupFacts
  Utils SameStageVec SpecVec SsvFacts Block SpecBlock BlockFacts PlaceNot SpecPn SpecLaws PnFacts PnFacts2 PnFacts3 LawFacts
  Class Method SpecMethod MethodFacts SymFacts3 ShapeFacts BellPathFacts MirrorFacts.
From Verif Require Import SsvThms BlockThms PnThms LawsThms.
Local Open Scope list_scope.
From Verif Require Import MirrorThms.

(** C124: if changes read the same backwards, then so do the rows rung from any row, up to one exchange of bells. *)
Theorem C124_sections :
  forall pns start s v rows, pns <> [] -> Forall (fun pn => legal pn /\ pn_stage pn = s) pns -> rev pns = pns ->
    valid_row start -> length start = s -> pn_block_to_rows pns start = Ret (Ok v) -> ssv_rows v = Ret rows ->
    exists w, valid_row w /\ length w = s /\ composition w w (seq 0 s) /\ rev rows = map (row_product w) rows /\
      forall b path, ssv_path_of v b = Ret (Some path) -> exists c, nth_error w b = Some c /\ ssv_path_of v c = Ret (Some (rev path)).
Proof. exact pf_C124_sections. Qed.
Print Assumptions C124_sections.

(** C124: a text of the form "a,b" gives a plain course which can be read backwards from the row where the first
    section ends: the same exchange of bells takes each row to the row as far before that one as the row is after the
    start, going round the course, and the path of each bell to the path of its partner. *)
Theorem C124_courses :
  forall s a b la lb pns m, 0 < s -> plain_text a -> plain_text b ->
    pn_block_parse a s = Ret (Ok la) -> pn_block_parse b s = Ret (Ok lb) ->
    pn_block_parse (a ++ s2l "," ++ b) s = Ret (Ok pns) -> pn_block_to_block_from_rounds None pns = Ret (first_lead m) ->
    exists k pc pars pe w, (forall fuel, k <= fuel -> plain_course fuel m = Ret pc) /\ block_holds pc s pars pe /\
      valid_row w /\ length w = s /\ composition w w (seq 0 s) /\
      nth_error (map fst pars) (2 * length la - 1) = Some w /\
      (forall i r, nth_error (map fst pars) i = Some r ->
         nth_error (map fst pars) ((2 * length la - 1 + length pars - i) mod length pars) = Some (row_product w r)) /\
      (forall bell path e, block_path_of pc bell = Ret (Some (path, e)) ->
         exists partner path' e', nth_error w bell = Some partner /\ block_path_of pc partner = Ret (Some (path', e')) /\
           forall i, i < length pars -> nth_error path' ((2 * length la - 1 + length pars - i) mod length pars) = nth_error path i).
Proof. exact pf_C124_courses. Qed.
Print Assumptions C124_courses.

(** Plain Bob Minimus: the exchange is the row before the first lead head, and bell 2 (written 3) is the partner of bell 1 (written 2) *)
Example C124_example :
  exists pns lead pc p q e f, pn_block_parse (s2l "-14-14,12") 4 = Ret (Ok pns) /\
    pn_block_to_block_from_rounds None pns = Ret lead /\
    plain_course 3 (Method [] [] (FullClass false false false Bob) lead) = Ret pc /\
    ssv_index (blk_rows pc) 7 = Ret [0; 2; 1; 3] /\
    block_path_of pc 1 = Ret (Some (p, e)) /\ block_path_of pc 2 = Ret (Some (q, f)) /\
    rev (firstn 8 p) = firstn 8 q /\ rev (skipn 8 p) = skipn 8 q /\
    removelast pns <> [] /\ rev (removelast pns) = removelast pns.
Proof. do 7 eexists. splits; try (vm_compute; reflexivity). vm_compute. discriminate. Qed.
