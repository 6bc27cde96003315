(** Property theorems C136: the number of rows of a lead. *)

(* Generated from tools/props/LeadLen.src; the proofs are in LeadLenThms.v. *)
From Verif Require Import Base Spec ListFacts Bell Stage Row RowFacts MulFacts GroupFacts
  Utils SameStageVec SpecVec SsvFacts Block SpecBlock BlockFacts PlaceNot SpecPn
  Class SpecClass ClassFacts ClassFacts2 ClassFacts3 SpecHunt PlainFacts LeadLenFacts.
From Verif Require UpsideFacts.
From Verif Require Import ClassThms PlainThms.
Local Open Scope list_scope.
From Verif Require Import LeadLenThms.

(** C136: in a lead which starts at rounds and jumps at no change, every hunt bell moves an even number of times: the number of
    rows and the number of times that it stays in its place are both even or both odd. *)
Theorem C136_hunt_bells_move_an_even_number_of_times :
  forall A (b : block A) s ars lo x, block_holds b s ars lo -> ars <> [] ->
    is_identity (hd [] (map fst ars)) ->
    (forall i r1 r2, change_at (map fst ars) lo i r1 r2 -> no_jump r1 r2) -> hunt_bell lo x ->
    Nat.Even (length ars + places_made (path_in (map fst ars) x)).
Proof. exact pf_C136_hunt_bells_move_an_even_number_of_times. Qed.
Print Assumptions C136_hunt_bells_move_an_even_number_of_times.

(** C136: so the leads of Bob, Place, Surprise, Delight and Treble Bob methods have an even number of rows.  If one of these, or a Treble Place
    method, is not little, the number of rows is a multiple of the number of bells, and in Surprise, Delight and Treble Bob methods at least three times that number, which is even. *)
Theorem C136_lead_lengths :
  forall A (b : block A) s ars lo hash_order fc, block_holds b s ars lo -> ars <> [] ->
    is_identity (hd [] (map fst ars)) ->
    (forall i r1 r2, change_at (map fst ars) lo i r1 r2 -> no_jump r1 r2) ->
    (forall l, collected_set l (hash_order l)) -> classify hash_order b = Ret fc ->
    (In (fc_class fc) [Bob; Place; Surprise; Delight; TrebleBob] -> Nat.Even (length ars)) /\
    (In (fc_class fc) [Bob; Place; Surprise; Delight; TrebleBob; TreblePlace] -> is_little fc = false ->
     exists c, length ars = s * c /\ (In (fc_class fc) [Surprise; Delight; TrebleBob] -> 3 <= c /\ Nat.Even s)).
Proof. exact pf_C136_lead_lengths. Qed.
Print Assumptions C136_lead_lengths.

(** The lead of Cambridge Surprise Minor has 24 = 6 * 4 rows, and its treble makes two places. *)
Example C136_example :
  exists pns lead, pn_block_parse (s2l "-36-14-12-36-14-56,12") 6 = Ret (Ok pns) /\ pn_block_to_block_from_rounds tt pns = Ret lead /\
    classify (nodup Nat.eq_dec) lead = Ret (FullClass false false false Surprise) /\ block_len lead = 24 /\
    exists p, block_path_of lead 0 = Ret (Some (p, 0)) /\ places_made p = 2.
Proof. do 2 eexists. splits; try (vm_compute; reflexivity). eexists. split; vm_compute; reflexivity. Qed.
