(** Property theorems C114: the plain courses of methods whose changes go round the same circle, or are each other
    upside down, are as long as each other, and have repeated rows together. *)

(* Generated from tools/props/Shapes.src; the proofs are in ShapesThms.v. *)
From Coq Require Import Permutation.
From Verif Require Import Base Bell Stage Row Utils SameStageVec Block PlaceNot Class Method Library Spec SpecVec SpecBlock SpecPn SpecClass SpecSym SpecUpside ListFacts
  BellFacts RowFacts MulFacts GroupFacts SsvFacts BlockFacts PnFacts PnFacts2 PnFacts3 ClassFacts ClassFacts2 ClassFacts3 SymFacts SymFacts2 SymFacts3
  UpsideFacts UpsideFacts2 ShapeFacts SpecMethod MethodFacts TruthFacts.
From Verif Require Import PnThms ClassThms.
Local Open Scope list_scope.
From Verif Require Import ShapesThms.

(** C114: if the changes of two leads go round the same circle, one plain course consists of the rows of the other
    multiplied by one of its rows: the course read from another row on, or backwards. *)
Theorem C114_plain_courses_round_the_circle :
  forall s pns pns' m m', 0 < s -> pns <> [] ->
    Forall (fun pn => legal pn /\ pn_stage pn = s) pns -> same_circle pns pns' ->
    pn_block_to_block_from_rounds None pns = Ret (first_lead m) -> pn_block_to_block_from_rounds None pns' = Ret (first_lead m') ->
    exists k pc pc' pars pars' pe pe' h rows,
      (forall fuel, k <= fuel -> plain_course fuel m = Ret pc /\ plain_course fuel m' = Ret pc') /\
      block_holds pc s pars pe /\ block_holds pc' s pars' pe' /\ length pars = k * length pns /\
      In h (map fst pars) /\ Forall2 (composition h) (map fst pars') rows /\ Permutation rows (map fst pars).
Proof. exact pf_C114_plain_courses_round_the_circle. Qed.
Print Assumptions C114_plain_courses_round_the_circle.

(** C114: if they are each other upside down, so are the rows of the plain courses, one by one. *)
Theorem C114_plain_courses_upside_down :
  forall s pns pns' m m', 0 < s -> pns <> [] ->
    Forall (fun pn => legal pn /\ pn_stage pn = s) pns -> Forall (fun pn => legal pn /\ pn_stage pn = s) pns' ->
    Forall2 upside_down pns pns' ->
    pn_block_to_block_from_rounds None pns = Ret (first_lead m) -> pn_block_to_block_from_rounds None pns' = Ret (first_lead m') ->
    exists k pc pc' pars pars' pe pe',
      (forall fuel, k <= fuel -> plain_course fuel m = Ret pc /\ plain_course fuel m' = Ret pc') /\
      block_holds pc s pars pe /\ block_holds pc' s pars' pe' /\ length pars = k * length pns /\
      Forall2 (row_upside_down s) (map fst pars) (map fst pars').
Proof. exact pf_C114_plain_courses_upside_down. Qed.
Print Assumptions C114_plain_courses_upside_down.

(** C114: so in both cases the plain courses are equally long, and one has a repeated row exactly when the other has. *)
Theorem C114_length_and_truth :
  forall s pns pns' m m' fuel fuel' pc pc' pars pars' pe pe', 0 < s -> pns <> [] ->
    Forall (fun pn => legal pn /\ pn_stage pn = s) pns -> Forall (fun pn => legal pn /\ pn_stage pn = s) pns' ->
    same_circle pns pns' \/ Forall2 upside_down pns pns' ->
    pn_block_to_block_from_rounds None pns = Ret (first_lead m) -> pn_block_to_block_from_rounds None pns' = Ret (first_lead m') ->
    plain_course fuel m = Ret pc -> plain_course fuel' m' = Ret pc' -> block_holds pc s pars pe -> block_holds pc' s pars' pe' ->
    length pars = length pars' /\ (NoDup (map fst pars) <-> NoDup (map fst pars')).
Proof. exact pf_C114_length_and_truth. Qed.
Print Assumptions C114_length_and_truth.

(** Plain Bob Minimus, from the second change on and backwards, and upside down. *)
Example C114_example :
  exists pns pns' pns'' lead lead' lead'' pc pc' pc'',
    pn_block_parse (s2l "-14-14,12") 4 = Ret (Ok pns) /\ same_circle pns pns' /\ pns' <> pns /\
    pn_block_parse (s2l "-14-14,34") 4 = Ret (Ok pns'') /\
    pn_block_to_block_from_rounds None pns = Ret lead /\ pn_block_to_block_from_rounds None pns' = Ret lead' /\
    pn_block_to_block_from_rounds None pns'' = Ret lead'' /\
    plain_course 9 (Method [] [] (FullClass false false false Bob) lead) = Ret pc /\
    plain_course 9 (Method [] [] (FullClass false false false Bob) lead') = Ret pc' /\
    plain_course 9 (Method [] [] (FullClass false false false Bob) lead'') = Ret pc'' /\
    block_len pc = 24 /\ block_len pc' = 24 /\ block_len pc'' = 24.
Proof.
  set (l := match pn_block_parse (s2l "-14-14,12") 4 with Ret (Ok l) => l | _ => [] end).
  exists l, (rev (skipn 1 l ++ firstn 1 l)). do 7 eexists. split; [vm_compute; reflexivity|].
  split; [exists (firstn 1 l), (skipn 1 l); split; [symmetry; apply firstn_skipn|right; reflexivity]|].
  split; [vm_compute; discriminate|]. do 9 (split; [vm_compute; reflexivity|]). vm_compute. reflexivity.
Qed.
