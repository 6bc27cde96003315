(** Property theorems C119: a method rung with cover bells is the method with the cover bells behind. *)

(* Generated from tools/props/CoverPn.src; the proofs are in CoverPnThms.v. *)
From Coq Require Import Sorted Permutation.
From Verif Require Import Base Bell Stage Row Utils SameStageVec Block PlaceNot Class Method Library Spec SpecVec SpecBlock SpecPn SpecClass SpecSym SpecCover SpecCoverPn ListFacts
  BellFacts RowFacts MulFacts GroupFacts SsvFacts BlockFacts PnFacts PnFacts2 PnFacts3 ClassFacts ClassFacts2 ClassFacts3 SymFacts SymFacts2 SymFacts3
  UpsideFacts UpsideFacts2 ShapeFacts SpecMethod MethodFacts TruthFacts CoverFacts CoverFacts2.
From Verif Require Import PnThms ClassThms ShapesThms.
Local Open Scope list_scope.
From Verif Require Import CoverPnThms.

(** C119: every legal change has exactly one legal change with cover bells up to any higher stage. *)
Theorem C119_changes_with_covers :
  forall pn s, legal pn -> pn_stage pn <= s -> exists pn', legal pn' /\ covered_change s pn pn' /\
    forall pn2, legal pn2 -> covered_change s pn pn2 -> pn2 = pn'.
Proof. exact pf_C119_changes_with_covers. Qed.
Print Assumptions C119_changes_with_covers.

(** C119: it does to a row with cover bells what the change does to the row, and its transposition is that of the change with
    cover bells. *)
Theorem C119_transpositions_with_covers :
  forall pn pn' s, legal pn -> legal pn' -> covered_change s pn pn' ->
    (exists t t', pn_transposition pn = Ret t /\ pn_transposition pn' = Ret t' /\ covered s t t') /\
    (forall r r', valid_row r -> length r = pn_stage pn -> covered s r r' ->
       exists u u', pn_permute_new pn r = Ret (Ok u) /\ pn_permute_new pn' r' = Ret (Ok u') /\ covered s u u').
Proof. exact pf_C119_transpositions_with_covers. Qed.
Print Assumptions C119_transpositions_with_covers.

(** C119: the rows of a lead with cover bells are the rows of the lead with cover bells, one by one. *)
Theorem C119_leads_with_covers :
  forall A B (d : A) (d' : B) n s pns pns', 0 < n -> pns <> [] ->
    Forall (fun pn => legal pn /\ pn_stage pn = n) pns -> Forall (fun pn => legal pn /\ pn_stage pn = s) pns' ->
    Forall2 (covered_change s) pns pns' ->
    exists lead lead' ars ars' lo lo',
      pn_block_to_block_from_rounds d pns = Ret lead /\ pn_block_to_block_from_rounds d' pns' = Ret lead' /\
      block_holds lead n ars lo /\ block_holds lead' s ars' lo' /\
      Forall2 (covered s) (map fst ars ++ [lo]) (map fst ars' ++ [lo']).
Proof. exact pf_C119_leads_with_covers. Qed.
Print Assumptions C119_leads_with_covers.

(** C119: the plain course with cover bells has the same number of leads as the plain course, its rows are those of the plain
    course with cover bells, one by one, and so one has a repeated row exactly when the other has. *)
Theorem C119_plain_courses_with_covers :
  forall n s pns pns' m m', 0 < n -> pns <> [] ->
    Forall (fun pn => legal pn /\ pn_stage pn = n) pns -> Forall (fun pn => legal pn /\ pn_stage pn = s) pns' ->
    Forall2 (covered_change s) pns pns' ->
    pn_block_to_block_from_rounds None pns = Ret (first_lead m) -> pn_block_to_block_from_rounds None pns' = Ret (first_lead m') ->
    exists k pc pc' pars pars' pe pe',
      (forall fuel, k <= fuel -> plain_course fuel m = Ret pc /\ plain_course fuel m' = Ret pc') /\
      block_holds pc n pars pe /\ block_holds pc' s pars' pe' /\ length pars = k * length pns /\
      Forall2 (covered s) (map fst pars) (map fst pars') /\ (NoDup (map fst pars) <-> NoDup (map fst pars')).
Proof. exact pf_C119_plain_courses_with_covers. Qed.
Print Assumptions C119_plain_courses_with_covers.

(** Plain Bob Minimus with two cover bells: the changes "-" and "14" become "56" and "1456". *)
Example C119_example :
  covered_change 6 (PlaceNot [] 4) (PlaceNot [4; 5] 6) /\ covered_change 6 (PlaceNot [0; 3] 4) (PlaceNot [0; 3; 4; 5] 6) /\
  legal (PlaceNot [4; 5] 6) /\
  pn_transposition (PlaceNot [0; 3] 4) = Ret [0; 2; 1; 3] /\ pn_transposition (PlaceNot [0; 3; 4; 5] 6) = Ret [0; 2; 1; 3; 4; 5].
Proof.
  splits; try reflexivity.
  - split; [reflexivity|]. split; [cbn; lia|]. intros p. cbn. lia.
  - split; [reflexivity|]. split; [cbn; lia|]. intros p. cbn. lia.
  - split; [cbn; lia|]. cbn. apply lf_swap; [lia|]. apply lf_swap; [lia|]. cbn. do 2 (constructor; [lia|]). constructor.
Qed.
