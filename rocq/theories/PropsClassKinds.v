(** Property theorems C102: what the predicates on classes say about the hunt bells. *)

(* Generated from tools/props/ClassKinds.src; the proofs are in ClassKindsThms.v. *)
From Verif Require Import Base Bell Stage Row Utils SameStageVec Block PlaceNot Class Spec SpecVec SpecBlock SpecPn SpecClass ListFacts
  BellFacts RowFacts MulFacts GroupFacts SsvFacts BlockFacts PnFacts PnFacts2 PnFacts3 ClassFacts ClassFacts2 ClassFacts3 SymFacts SymFacts2 PathFacts.
From Verif Require Import PnThms ClassThms.
Local Open Scope list_scope.
From Verif Require Import ClassKindsThms.

(** C102: for a lead which starts at rounds and jumps at no change, [hunt_bell_class] of the class found is the
    class of the paths of the dominant hunt bells, and nothing exactly when there is no hunt bell; [is_plain] and
    [is_treble_dodging] say whether these bells plain hunt or treble dodge. *)
Theorem C102_class_of_the_dominant_hunt_bells :
  forall A (b : block A) s ars lo hash_order fc, block_holds b s ars lo -> ars <> [] ->
    is_identity (hd [] (map fst ars)) ->
    (forall i r1 r2, change_at (map fst ars) lo i r1 r2 -> no_jump r1 r2) ->
    (forall l, collected_set l (hash_order l)) -> classify hash_order b = Ret fc ->
    (forall h, class_hunt_bell_class (fc_class fc) = Some h <-> exists x, dominant (map fst ars) lo x h) /\
    (class_hunt_bell_class (fc_class fc) = None <-> forall x, ~ hunt_bell lo x) /\
    (is_plain (fc_class fc) = true <-> exists x, dominant (map fst ars) lo x HPlain) /\
    (is_treble_dodging (fc_class fc) = true <-> exists x, dominant (map fst ars) lo x HTrebleDodging).
Proof. exact pf_C102_class_of_the_dominant_hunt_bells. Qed.
Print Assumptions C102_class_of_the_dominant_hunt_bells.

(** C102: if [is_symmetric_hunter] says so, the path of each dominant hunt bell is symmetric.  (For plain hunting
    this is a fact about paths: one which moves by steps and is in each of its places twice is symmetric.) *)
Theorem C102_symmetric_hunters_partial :
  forall A (b : block A) s ars lo hash_order fc, block_holds b s ars lo -> ars <> [] ->
    is_identity (hd [] (map fst ars)) ->
    (forall i r1 r2, change_at (map fst ars) lo i r1 r2 -> no_jump r1 r2) ->
    (forall l, collected_set l (hash_order l)) -> classify hash_order b = Ret fc ->
    is_symmetric_hunter (fc_class fc) = true ->
    forall x h, dominant (map fst ars) lo x h -> symmetric (path_in (map fst ars) x).
Proof. exact pf_C102_symmetric_hunters_partial. Qed.
Print Assumptions C102_symmetric_hunters_partial.

(** C102: exactly when [is_symmetric_hunter] holds: the dominant hunt bells are there and their paths are not hybrid, that is,
    each plain hunts, treble dodges, or follows a path of one of the two symmetric kinds. *)
Theorem C102_symmetric_hunters_are_those_not_hybrid :
  forall A (b : block A) s ars lo hash_order fc, block_holds b s ars lo -> ars <> [] ->
    is_identity (hd [] (map fst ars)) ->
    (forall i r1 r2, change_at (map fst ars) lo i r1 r2 -> no_jump r1 r2) ->
    (forall l, collected_set l (hash_order l)) -> classify hash_order b = Ret fc ->
    (is_symmetric_hunter (fc_class fc) = true <-> exists x h, dominant (map fst ars) lo x h /\ h <> HHybrid).
Proof. exact pf_C102_symmetric_hunters_are_those_not_hybrid. Qed.
Print Assumptions C102_symmetric_hunters_are_those_not_hybrid.

(** The documentation has it the other way round as well: "Returns `true` if `self` denotes a method who's dominant
    hunt bell follows a symmetric path".  The class of a lead whose only hunt bell follows a symmetric path
    with fewer than two places made is not said to be one. *)
Theorem C102_symmetric_hunters_refuted :
  ~ (forall (b : block unit) s ars lo hash_order fc, block_holds b s ars lo -> ars <> [] ->
       is_identity (hd [] (map fst ars)) ->
       (forall i r1 r2, change_at (map fst ars) lo i r1 r2 -> no_jump r1 r2) ->
       (forall l, collected_set l (hash_order l)) -> classify hash_order b = Ret fc ->
       (exists x, hunt_bell lo x) -> (forall x h, dominant (map fst ars) lo x h -> symmetric (path_in (map fst ars) x)) ->
       is_symmetric_hunter (fc_class fc) = true).
Proof. exact pf_C102_symmetric_hunters_refuted. Qed.
Print Assumptions C102_symmetric_hunters_refuted.

Example C102_example :
  forall text s h p t y, In (text, s, h, p, t, y)
    [(s2l "-16-16-16,12", 6, Some HPlain, true, false, true);                       (* Plain Bob Minor *)
     (s2l "-36-14-12-36-14-56,12", 6, Some HTrebleDodging, false, true, true);      (* Cambridge Surprise Minor *)
     (s2l "3.1.5.3.1.3.1.3.5.1.3.1", 5, None, false, false, false);                 (* Stedman Doubles *)
     (s2l "-14-36-16-36-14-36,12", 6, Some HAlliance, false, false, true)] ->
    exists pns lead fc, pn_block_parse text s = Ret (Ok pns) /\ pn_block_to_block_from_rounds tt pns = Ret lead /\
      classify (nodup Nat.eq_dec) lead = Ret fc /\ class_hunt_bell_class (fc_class fc) = h /\
      is_plain (fc_class fc) = p /\ is_treble_dodging (fc_class fc) = t /\ is_symmetric_hunter (fc_class fc) = y.
Proof.
  intros text s h p t y H. repeat (destruct H as [E|H]; [injection E as <- <- <- <- <- <-; do 3 eexists;
    split; [vm_compute; reflexivity|]; split; [vm_compute; reflexivity|]; split; [vm_compute; reflexivity|]; splits; reflexivity|]).
  destruct H.
Qed.
