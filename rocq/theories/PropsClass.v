(** Properties C61 and C62: the cycles of the bells of a lead, and the classification of methods. *)

(* Generated from tools/props/Class.src; the proofs are in ClassThms.v. *)
From Verif Require Import Base Spec ListFacts Bell Stage Row RowFacts MulFacts GroupFacts
  Utils SameStageVec SpecVec SsvFacts Block SpecBlock BlockFacts PlaceNot SpecPn PnFacts PnFacts2 PropsBell PropsPn
  Class SpecClass ClassFacts ClassFacts2 ClassFacts3.
Local Open Scope list_scope.
From Verif Require Import ClassThms.

(** C61: for a non-empty lead which starts at rounds, the computation of the cycles ends, and every
    bell of the stage is a place bell of exactly one cycle (the place bells of all cycles together
    are a permutation of the bells); the place bells of a cycle are an orbit of the lead head; the
    path of a cycle is the concatenation of the paths of its place bells in the lead.  Each cycle
    starts with its smallest bell, and the cycles are ordered by these. *)
Theorem C61_cycles_partition_the_bells :
  forall A (b : block A) s ars lo, block_holds b s ars lo -> ars <> [] ->
    is_identity (hd [] (map fst ars)) ->
    exists cs, cycles_from_lead b = Ret cs /\
      Permutation (flat_map place_bells cs) (seq 0 s) /\
      (forall c, In c cs -> is_cycle lo (place_bells c)) /\
      (forall c, In c cs -> full_path c = flat_map (path_in (map fst ars)) (place_bells c)) /\
      (forall c y, In c cs -> In y (place_bells c) -> hd 0 (place_bells c) <= y) /\
      (forall i j c d, i < j -> nth_error cs i = Some c -> nth_error cs j = Some d ->
         hd 0 (place_bells c) < hd 0 (place_bells d)).
Proof. exact pf_C61_cycles_partition_the_bells. Qed.
Print Assumptions C61_cycles_partition_the_bells.

(** The place bell at index [k] of a cycle is the place in which its first bell starts lead [k] of
    the plain course, and that bell is back in its place for the first time after as many leads as
    the cycle has place bells. *)
Theorem C61_place_bells_are_successive_leads :
  forall A (b : block A) s ars lo cs c x, block_holds b s ars lo ->
    cycles_from_lead b = Ret cs -> In c cs -> hd_error (place_bells c) = Some x ->
    returns_after lo x (num_leads c) /\
    forall k y h, k < num_leads c -> power lo k h ->
      (nth_error (place_bells c) k = Some y <-> nth_error h y = Some x).
Proof. exact pf_C61_place_bells_are_successive_leads. Qed.
Print Assumptions C61_place_bells_are_successive_leads.

(** The hunt bells are exactly the bells which the lead head leaves in their place; [as_hunt_bell]
    and [partition_cycles] agree. *)
Theorem C61_hunt_bells_are_fixed_by_the_lead_head :
  forall A (b : block A) s ars lo cs, block_holds b s ars lo -> cycles_from_lead b = Ret cs ->
    (forall c x, In c cs -> as_hunt_bell c = Some x ->
       hunt_bell lo x /\ place_bells c = [x] /\ full_path c = path_in (map fst ars) x) /\
    (forall x, hunt_bell lo x -> exists c, In c cs /\ as_hunt_bell c = Some x) /\
    forall hunts working, partition_cycles cs = (hunts, working) ->
      (forall c, In c hunts <-> In c cs /\ exists x, as_hunt_bell c = Some x) /\
      (forall c, In c working <-> In c cs /\ as_hunt_bell c = None).
Proof. exact pf_C61_hunt_bells_are_fixed_by_the_lead_head. Qed.
Print Assumptions C61_hunt_bells_are_fixed_by_the_lead_head.

(** An empty lead, or one which does not start at rounds, panics. *)
Theorem C61_panics :
  forall A (b : block A) s ars lo, block_holds b s ars lo ->
    (cycles_from_lead b = Panic <-> ~ (ars <> [] /\ is_identity (hd [] (map fst ars)))).
Proof. exact pf_C61_panics. Qed.
Print Assumptions C61_panics.

Example C61_example :
  exists pns lead c1 c2, pn_block_parse (s2l "-36-14-12-36-14-56,12") 6 = Ret (Ok pns) /\
    pn_block_to_block_from_rounds tt pns = Ret lead /\
    cycles_from_lead lead = Ret [c1; c2] /\ as_hunt_bell c1 = Some 0 /\ place_bells c2 = [1; 5; 2; 3; 4] /\
    length (full_path c2) = 5 * 24.
Proof. do 4 eexists. splits; vm_compute; reflexivity. Qed.

Example C61_panics_example :
  exists lead, block_build (BlockArg 3 [[1; 0; 2]; [0; 1; 2]] (fun _ => tt)) = Ret (Some lead) /\
    cycles_from_lead lead = Panic.
Proof. eexists. splits; vm_compute; reflexivity. Qed.

(** The specification of the classes of paths and of methods: every path has exactly one class, and
    for each class of dominant path the method has at most one class. *)
Theorem C62_specification_is_unambiguous :
  (forall p, p <> [] -> exists h, path_class p h) /\
  (forall p h h', path_class p h -> path_class p h' -> h = h') /\
  (forall rows head x y h h', dominant rows head x h -> dominant rows head y h' -> h = h') /\
  (forall rows head h c c', method_class rows head h c -> method_class rows head h c' -> c = c').
Proof. exact pf_C62_specification_is_unambiguous. Qed.
Print Assumptions C62_specification_is_unambiguous.

(** C62: the classification of a non-empty lead which starts at rounds and jumps at no change, in
    whatever order the hash set of cross sections is iterated over.  It never panics and never is a
    jump method.  It is differential exactly when two bells which are not hunt bells return after
    different numbers of leads.  It is a principle (never called little) exactly when there is no
    hunt bell.  Otherwise its class is decided by the class of the paths of the dominant hunt
    bells, and it is little exactly when each of these misses some place. *)
Theorem C62_classification :
  forall A (b : block A) s ars lo hash_order, block_holds b s ars lo -> ars <> [] ->
    is_identity (hd [] (map fst ars)) ->
    (forall i r1 r2, change_at (map fst ars) lo i r1 r2 -> no_jump r1 r2) ->
    (forall l, collected_set l (hash_order l)) ->
    exists fc, classify hash_order b = Ret fc /\ is_jump fc = false /\
      (is_differential fc = true <->
         exists x y k l, x < s /\ ~ hunt_bell lo x /\ returns_after lo x k /\
           y < s /\ ~ hunt_bell lo y /\ returns_after lo y l /\ k <> l) /\
      (fc_class fc = Principle <-> forall x, ~ hunt_bell lo x) /\
      (fc_class fc = Principle -> is_little fc = false) /\
      ((exists x, hunt_bell lo x) -> exists x h, dominant (map fst ars) lo x h) /\
      (forall x h, dominant (map fst ars) lo x h ->
         method_class (map fst ars) lo h (fc_class fc) /\
         (is_little fc = true <-> forall y, dominant (map fst ars) lo y h ->
            exists q, q < s /\ ~ In q (path_in (map fst ars) y))).
Proof. exact pf_C62_classification. Qed.
Print Assumptions C62_classification.

(** Without the assumption that no change jumps: the only panic is at a jump change where a dominant
    treble dodging hunt bell crosses. *)
Theorem C62_panics :
  forall A (b : block A) s ars lo hash_order, block_holds b s ars lo -> ars <> [] ->
    is_identity (hd [] (map fst ars)) -> (forall l, collected_set l (hash_order l)) ->
    (classify hash_order b = Panic /\
       exists r1 r2, cross_section (map fst ars) lo r1 r2 /\ ~ no_jump r1 r2) \/
    (all_cross_sections (map fst ars) lo no_jump /\ exists fc, classify hash_order b = Ret fc).
Proof. exact pf_C62_panics. Qed.
Print Assumptions C62_panics.

(** The result is the same in every iteration order, also for leads which jump. *)
Theorem C62_hash_order_is_irrelevant :
  forall A (b : block A) s ars lo o1 o2, block_holds b s ars lo -> ars <> [] ->
    is_identity (hd [] (map fst ars)) ->
    (forall l, collected_set l (o1 l)) -> (forall l, collected_set l (o2 l)) ->
    classify o1 b = classify o2 b.
Proof. exact pf_C62_hash_order_is_irrelevant. Qed.
Print Assumptions C62_hash_order_is_irrelevant.

(** A lead of legal changes never jumps, so it meets the hypothesis of [C62_classification]. *)
Theorem C62_legal_changes_do_not_jump :
  forall pn r r', legal pn -> valid_row r -> length r = pn_stage pn ->
    rings (pn_places pn) 0 r r' -> no_jump r r' /\
    (internal_place r r' <-> exists p, In p (pn_places pn) /\ 0 < p /\ p + 1 < pn_stage pn).
Proof. exact pf_C62_legal_changes_do_not_jump. Qed.
Print Assumptions C62_legal_changes_do_not_jump.

(** Documentation of [Class::Hybrid]: "a method where the hunt bell makes an asymmetric path".  A
    symmetric path is also classified as hybrid if it makes fewer than two places. *)
Theorem C62_hybrid_paths_are_asymmetric_refuted :
  ~ (forall (b : block unit) s ars lo hash_order fc x h, block_holds b s ars lo ->
       (forall l, collected_set l (hash_order l)) -> classify hash_order b = Ret fc ->
       fc_class fc = Hybrid -> dominant (map fst ars) lo x h -> ~ symmetric (path_in (map fst ars) x)).
Proof. exact pf_C62_hybrid_paths_are_asymmetric_refuted. Qed.
Print Assumptions C62_hybrid_paths_are_asymmetric_refuted.

Example C62_example :
  forall text s fc, In (text, s, fc)
    [(s2l "-16-16-16,12", 6, FullClass false false false Bob);                      (* Plain Bob Minor *)
     (s2l "5.1.5.123.5,1", 5, FullClass false false false Place);
     (s2l "-36-14-12-36-14-56,12", 6, FullClass false false false Surprise);        (* Cambridge Surprise Minor *)
     (s2l "34-34.16-12-16-12-16,16", 6, FullClass false false false TrebleBob);
     (s2l "-36-14-12-16-12-56,12", 6, FullClass false false false Delight);
     (s2l "3.1.5.3.1.3.1.3.5.1.3.1", 5, FullClass false false false Principle);     (* Stedman Doubles *)
     (s2l "3,1.5.1.5.1", 5, FullClass false false false Bob);                       (* Grandsire Doubles *)
     (s2l "-14-16,16", 6, FullClass false true false Bob);
     (s2l "-14-36-16-36-14-36,12", 6, FullClass false false false Alliance);
     (s2l "345.125.123", 5, FullClass false false true Principle)] ->
    exists pns lead, pn_block_parse text s = Ret (Ok pns) /\ pn_block_to_block_from_rounds tt pns = Ret lead /\
      classify (nodup Nat.eq_dec) lead = Ret fc.
Proof.
  intros text s fc H. repeat (destruct H as [E|H]; [injection E as <- <- <-; do 2 eexists; splits; vm_compute; reflexivity|]).
  destruct H.
Qed.

(** A jump change at a cross section of the treble panics. *)
Example C62_panics_example :
  exists lead, block_build (BlockArg 4
    [[0; 1; 2; 3]; [1; 0; 2; 3]; [0; 1; 2; 3]; [1; 0; 2; 3]; [3; 2; 0; 1]; [3; 2; 1; 0];
     [3; 2; 0; 1]; [3; 2; 1; 0]; [3; 2; 1; 0]; [3; 2; 0; 1]; [3; 2; 1; 0]; [3; 2; 0; 1];
     [1; 0; 2; 3]; [0; 1; 2; 3]; [1; 0; 2; 3]; [0; 1; 2; 3]; [0; 1; 2; 3]] (fun _ => tt)) = Ret (Some lead) /\
    classify (nodup Nat.eq_dec) lead = Panic.
Proof. eexists. split; vm_compute; reflexivity. Qed.
