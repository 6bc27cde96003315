(** Property theorems C135: in Bob and Place methods the treble plain hunts. *)

(* Generated from tools/props/Plain.src; the proofs are in PlainThms.v. *)
From Verif Require Import Base Spec ListFacts Bell Stage Row RowFacts MulFacts GroupFacts
  Utils SameStageVec SpecVec SsvFacts Block SpecBlock BlockFacts PlaceNot SpecPn
  Class SpecClass ClassFacts ClassFacts2 ClassFacts3 SpecHunt PlainFacts LeadLenFacts.
From Verif Require Import ClassThms.
Local Open Scope list_scope.
From Verif Require Import PlainThms.

(** C135: a closed path which moves by at most one place at a time is of the class "plain" exactly when it hunts between two places, from the
    one to the other and back with two rows at each end, or is four rows of dodging in two places. *)
Theorem C135_plain_paths :
  forall p, p <> [] -> closed_path p ->
    (path_class p HPlain <-> (exists a h, 2 <= h /\ hunts_between p a h) \/ (exists a, dodges_between p a)).
Proof. exact pf_C135_plain_paths. Qed.
Print Assumptions C135_plain_paths.

(** C135: a lead which starts at rounds and jumps at no change is classified as that of a Bob or a Place method, in whatever order the hash set
    is iterated over, exactly when some hunt bell hunts between two places (or dodges as above).  If it is not little, it has two rows for each bell. *)
Theorem C135_plain_methods :
  forall A (b : block A) s ars lo hash_order fc, block_holds b s ars lo -> ars <> [] ->
    is_identity (hd [] (map fst ars)) ->
    (forall i r1 r2, change_at (map fst ars) lo i r1 r2 -> no_jump r1 r2) ->
    (forall l, collected_set l (hash_order l)) -> classify hash_order b = Ret fc ->
    ((fc_class fc = Bob \/ fc_class fc = Place) <->
     exists x a, hunt_bell lo x /\
       ((exists h, 2 <= h /\ hunts_between (path_in (map fst ars) x) a h) \/ dodges_between (path_in (map fst ars) x) a)) /\
    (fc_class fc = Bob \/ fc_class fc = Place -> is_little fc = false -> length ars = 2 * s).
Proof. exact pf_C135_plain_methods. Qed.
Print Assumptions C135_plain_methods.

(** Plain Bob Minor: the treble hunts between the places 0 and 5; a little method in which it hunts between the places 0 and 3. *)
Example C135_example :
  exists pns lead pns' lead', pn_block_parse (s2l "-16-16-16,12") 6 = Ret (Ok pns) /\ pn_block_to_block_from_rounds tt pns = Ret lead /\
    block_path_of lead 0 = Ret (Some ([0; 1; 2; 3; 4; 5; 5; 4; 3; 2; 1; 0], 0)) /\ hunts_between [0; 1; 2; 3; 4; 5; 5; 4; 3; 2; 1; 0] 0 6 /\
    classify (nodup Nat.eq_dec) lead = Ret (FullClass false false false Bob) /\
    pn_block_parse (s2l "-16-14,12") 6 = Ret (Ok pns') /\ pn_block_to_block_from_rounds tt pns' = Ret lead' /\
    block_path_of lead' 0 = Ret (Some ([0; 1; 2; 3; 3; 2; 1; 0], 0)) /\ hunts_between [0; 1; 2; 3; 3; 2; 1; 0] 0 4 /\
    classify (nodup Nat.eq_dec) lead' = Ret (FullClass false true false Bob).
Proof.
  do 4 eexists. splits; try (vm_compute; reflexivity).
  - split; auto. exists 0. intros i Hi. cbn [Nat.add]. rewrite Nat.mod_small by auto. do 12 (destruct i as [|i]; [reflexivity|]). lia.
  - split; auto. exists 0. intros i Hi. cbn [Nat.add]. rewrite Nat.mod_small by auto. do 8 (destruct i as [|i]; [reflexivity|]). lia.
Qed.
