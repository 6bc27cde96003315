(** Property theorems C133: the working bells of a method and the length of its plain course. *)

(* Generated from tools/props/Diff.src; the proofs are in DiffThms.v. *)
From Verif Require Import Base Bell Stage Parity Row Utils SameStageVec Block PlaceNot Spec SpecVec SpecBlock SpecPn ListFacts
  BellFacts RowFacts MulFacts GroupFacts GroupFacts2 SsvFacts BlockFacts LawFacts
  Class SpecClass ClassFacts ClassFacts2 ClassFacts3 Method SpecMethod SpecCycle CycleFacts DiffFacts.
From Verif Require Import ClassThms MethodThms CycleThms.
Local Open Scope list_scope.
From Verif Require Import DiffThms.

(** C133: in whatever order the hash set is iterated over, a method whose lead starts at rounds is not differential exactly when
    every working bell comes home for the first time at the end of the plain course; the hunt bells are the others, and then the number of leads of
    the plain course divides the number of working bells. *)
Theorem C133_working_bells :
  forall m s ars lo hash_order fc fuel pc, block_holds (first_lead m) s ars lo -> ars <> [] ->
    is_identity (hd [] (map fst ars)) -> (forall l, collected_set l (hash_order l)) ->
    classify hash_order (first_lead m) = Ret fc -> plain_course fuel m = Ret pc ->
    exists leads, 0 < leads /\ block_len pc = leads * lead_len m /\
      (is_differential fc = false <-> forall x, x < s -> ~ hunt_bell lo x -> returns_after lo x leads) /\
      (is_differential fc = false -> exists k, s = length (fixed_bells lo) + k * leads).
Proof. exact pf_C133_working_bells. Qed.
Print Assumptions C133_working_bells.

(** C133: so the plain course of a method which is not differential has no more leads than there are bells, and on a prime number of
    bells a principle which is not differential has as many leads in its plain course as there are bells. *)
Theorem C133_principles_on_a_prime_number_of_bells :
  forall m s ars lo hash_order fc fuel pc, block_holds (first_lead m) s ars lo -> ars <> [] ->
    is_identity (hd [] (map fst ars)) -> (forall l, collected_set l (hash_order l)) ->
    classify hash_order (first_lead m) = Ret fc -> plain_course fuel m = Ret pc ->
    is_differential fc = false ->
    block_len pc <= s * lead_len m /\
    (fc_class fc = Principle -> (forall d, Nat.divide d s -> d = 1 \/ d = s) -> 2 <= s -> block_len pc = s * lead_len m).
Proof. exact pf_C133_principles_on_a_prime_number_of_bells. Qed.
Print Assumptions C133_principles_on_a_prime_number_of_bells.

(** Stedman Doubles is a principle, on five bells, with five leads in its plain course; Grandsire Doubles has two hunt bells and three
    leads; a differential principle of six leads, the working bells of which come home after two and three leads. *)
Example C133_example :
  forall text fc leads lo, In (text, fc, leads, lo)
    [(s2l "3.1.5.3.1.3.1.3.5.1.3.1", FullClass false false false Principle, 5, [4; 2; 3; 0; 1]);
     (s2l "3,1.5.1.5.1", FullClass false false false Bob, 3, [0; 1; 4; 2; 3]);
     (s2l "345.125.123", FullClass false false true Principle, 6, [1; 0; 3; 4; 2])] ->
    exists m pc, from_place_not_string (nodup Nat.eq_dec) (s2l "X") 5 text = Ret (Ok m) /\ m_class m = fc /\ lead_head m = Ret lo /\
      plain_course 6 m = Ret pc /\ block_len pc = leads * lead_len m.
Proof.
  intros text fc leads lo H. cbn [In] in H. decompose [or] H; try tauto; clear H;
  match goal with H : _ = _ |- _ => injection H as <- <- <- <- end; vm_compute; eexists; eexists; repeat (split; [reflexivity|]); reflexivity.
Qed.
