(** Property theorems C82 to C85: laws of blocks, groups, parities and plain courses. *)

(* Generated from tools/props/Laws2.src; the proofs are in Laws2Thms.v. *)
From Verif Require Import Base Bell Stage Parity Row Utils SameStageVec Block PlaceNot Spec SpecVec SpecBlock SpecPn ListFacts
  BellFacts RowFacts MulFacts ParityFacts GroupFacts GroupFacts2 SsvFacts BlockFacts PnFacts PnFacts2 PnFacts3 SpecLaws LawFacts LawFacts2 LawFacts3
  Class SpecClass Method SpecMethod.
From Verif Require Import GroupThms PnThms MethodThms CtorThms.
Local Open Scope list_scope.
From Verif Require Import Laws2Thms.

(** C82: it does not matter how three blocks of the same stage are put together: extending the first by
    the second and then the third gives the same block as extending it by the second extended by the
    third. *)
Theorem C82_extending_is_associative :
  forall A (a b c : block A) s ars lo ars' lo' ars'' lo'',
    block_holds a s ars lo -> block_holds b s ars' lo' -> block_holds c s ars'' lo'' ->
    exists ab bc abc, block_extend a b = Ret (ab, Ok tt) /\ block_extend b c = Ret (bc, Ok tt) /\
      block_extend ab c = Ret (abc, Ok tt) /\ block_extend a bc = Ret (abc, Ok tt).
Proof. exact pf_C82_extending_is_associative. Qed.
Print Assumptions C82_extending_is_associative.

(** C82: extending by the empty block changes nothing; extending the empty block by another gives this
    other, moved to start from rounds (so unchanged if it starts there). *)
Theorem C82_empty_blocks :
  forall A (b e : block A) s ars lo first, block_holds b s ars lo -> block_empty s = Ret e ->
    block_first_row b = Ret first ->
    block_extend b e = Ret (b, Ok tt) /\
    (exists b' t, block_extend e b = Ret (b', Ok tt) /\ row_inv first = Ret t /\ block_pre_multiply b t = Ret (b', Ok tt)) /\
    (is_identity first -> block_extend e b = Ret (b, Ok tt)).
Proof. exact pf_C82_empty_blocks. Qed.
Print Assumptions C82_empty_blocks.

(** C82: multiplying by a row before extending is the same as after, and multiplying the block which
    is added makes no difference. *)
Theorem C82_multiplying_and_extending :
  forall A (a b : block A) s ars lo ars' lo' t, block_holds a s ars lo -> block_holds b s ars' lo' ->
    valid_row t -> length t = s ->
    exists ab ta tb tab, block_extend a b = Ret (ab, Ok tt) /\
      block_pre_multiply a t = Ret (ta, Ok tt) /\ block_pre_multiply b t = Ret (tb, Ok tt) /\
      block_pre_multiply ab t = Ret (tab, Ok tt) /\
      block_extend ta b = Ret (tab, Ok tt) /\ block_extend a tb = Ret (ab, Ok tt).
Proof. exact pf_C82_multiplying_and_extending. Qed.
Print Assumptions C82_multiplying_and_extending.

(** C82: extending and then splitting at the length of the first block gives the first block back, and
    the second moved to start where the first ends. *)
Theorem C82_splitting_undoes_extending :
  forall A (a b : block A) s ars lo ars' lo', block_holds a s ars lo -> block_holds b s ars' lo' ->
    exists ab b' t, block_extend a b = Ret (ab, Ok tt) /\ block_split ab (block_len a) = Ret (Some (a, b')) /\
      block_pre_multiply b t = Ret (b', Ok tt) /\ block_first_row b' = Ret lo.
Proof. exact pf_C82_splitting_undoes_extending. Qed.
Print Assumptions C82_splitting_undoes_extending.

Example C82_example :
  exists a b c ab bc abc e,
    block_build (BlockArg 4 [[0; 1; 2; 3]; [1; 0; 3; 2]; [1; 3; 0; 2]] (fun i => i)) = Ret (Some a) /\
    block_build (BlockArg 4 [[3; 2; 1; 0]; [3; 1; 2; 0]] (fun i => 10 + i)) = Ret (Some b) /\
    block_build (BlockArg 4 [[0; 1; 3; 2]; [1; 0; 2; 3]] (fun i => 20 + i)) = Ret (Some c) /\
    block_extend a b = Ret (ab, Ok tt) /\ block_extend b c = Ret (bc, Ok tt) /\ block_extend ab c = Ret (abc, Ok tt) /\
    block_extend a bc = Ret (abc, Ok tt) /\
    block_annot_rows abc = Ret [([0; 1; 2; 3], 0); ([1; 0; 3; 2], 1); ([1; 3; 0; 2], 10); ([1; 0; 3; 2], 20)] /\
    block_leftover_row abc = Ret [0; 1; 2; 3] /\
    block_empty 4 = Ret e /\ block_extend e a = Ret (a, Ok tt) /\ block_extend e b <> Ret (b, Ok tt).
Proof. do 7 eexists. splits; try (vm_compute; reflexivity). vm_compute. discriminate. Qed.

(** C83: the closure of a row has exactly the elements of the least group containing it. *)
Theorem C83_closure_is_the_least_group :
  forall r fuel fuel' l set, valid_row r -> closure fuel r = Ret l -> least_group_containing fuel' [r] = Ret (Ok set) ->
    (forall x, In x l <-> In x set) /\ length l = length set.
Proof. exact pf_C83_closure_is_the_least_group. Qed.
Print Assumptions C83_closure_is_the_least_group.

(** C83: closures and least groups are groups, in the eyes of [is_group] (whatever the order in which
    it sees them). *)
Theorem C83_closures_and_least_groups_are_groups :
  (forall r fuel l set, valid_row r -> closure fuel r = Ret l -> collected_set l set -> is_group_set set = Ret (Ok true)) /\
  (forall n rows fuel l set, rows <> [] -> Forall (fun r => valid_row r /\ length r = n) rows ->
     least_group_containing fuel rows = Ret (Ok l) -> collected_set l set -> is_group_set set = Ret (Ok true)).
Proof. exact pf_C83_closures_and_least_groups_are_groups. Qed.
Print Assumptions C83_closures_and_least_groups_are_groups.

(** C83: rows are a group, in the eyes of [is_group], exactly when the least group containing them has
    no others; so taking the least group twice adds nothing. *)
Theorem C83_groups_are_their_own_least_groups :
  forall n rows set fuel l, rows <> [] -> Forall (fun r => valid_row r /\ length r = n) rows -> collected_set rows set ->
    least_group_containing fuel rows = Ret (Ok l) ->
    (is_group_set set = Ret (Ok true) <-> (forall x, In x l <-> In x rows)) /\
    (forall fuel' l', least_group_containing fuel' l = Ret (Ok l') -> forall x, In x l' <-> In x l).
Proof. exact pf_C83_groups_are_their_own_least_groups. Qed.
Print Assumptions C83_groups_are_their_own_least_groups.

(** C83: the length of the closure is the order of the row: a power is rounds exactly when the exponent
    is a multiple of it, powers are equal exactly when the exponents leave the same remainder, the power
    before is the inverse, and the inverse has the same closure in another order. *)
Theorem C83_orders :
  forall r fuel l, valid_row r -> closure fuel r = Ret l ->
    (forall n p, pow_u r n = Ret p -> (is_identity p <-> Nat.divide (length l) n)) /\
    (forall a b, pow_u r a = pow_u r b <-> a mod length l = b mod length l) /\
    pow_u r (length l - 1) = row_inv r /\
    (forall ri fuel' l', row_inv r = Ret ri -> closure fuel' ri = Ret l' -> Permutation l l').
Proof. exact pf_C83_orders. Qed.
Print Assumptions C83_orders.

(** C83 (Lagrange): if two lists of rows are groups and the first is part of the second, the number of
    rows of the first divides that of the second; in particular the order of a row divides the size of
    every group it is in. *)
Theorem C83_sizes_divide :
  (forall n a b, Forall (fun r => valid_row r /\ length r = n) b -> NoDup a -> NoDup b -> (forall x, In x a -> In x b) ->
     is_group_set a = Ret (Ok true) -> is_group_set b = Ret (Ok true) -> Nat.divide (length a) (length b)) /\
  (forall n b r fuel l, Forall (fun r => valid_row r /\ length r = n) b -> NoDup b -> is_group_set b = Ret (Ok true) -> In r b ->
     closure fuel r = Ret l -> Nat.divide (length l) (length b)).
Proof. exact pf_C83_sizes_divide. Qed.
Print Assumptions C83_sizes_divide.

Example C83_example :
  exists l set, closure 10 [1; 2; 0; 4; 3] = Ret l /\ length l = 6 /\
    least_group_containing 50 [[1; 2; 0; 4; 3]; [1; 0; 2; 3; 4]] = Ret (Ok set) /\ length set = 12 /\
    is_group_set set = Ret (Ok true) /\ is_group_set l = Ret (Ok true) /\ is_group_set (removelast set) = Ret (Ok false) /\
    pow_u [1; 2; 0; 4; 3] 5 = Ret [2; 0; 1; 4; 3] /\ row_inv [1; 2; 0; 4; 3] = Ret [2; 0; 1; 4; 3].
Proof. do 2 eexists. splits; vm_compute; reflexivity. Qed.

(** C84: rounds is even; the inverse of a row has its parity; a power of a row has its parity if the
    exponent is odd and is even otherwise; rows of odd parity have even order. *)
Theorem C84_parities_of_rounds_inverses_and_powers :
  (forall n fuel, 0 < n -> 2 * n < fuel -> exists x, row_parity fuel (row_rounds n) = Ret (x, Even)) /\
  (forall r ri fuel, valid_row r -> 2 * length r < fuel -> row_inv r = Ret ri ->
     exists x p, row_parity fuel r = Ret (x, p) /\ row_parity fuel ri = Ret (x, p)) /\
  (forall r e q fuel, valid_row r -> 2 * length r < fuel -> pow_u r e = Ret q ->
     exists x p, row_parity fuel r = Ret (x, p) /\ row_parity fuel q = Ret (x, if Nat.even e then Even else p)) /\
  (forall r x l fuel fuel', valid_row r -> row_parity fuel r = Ret (x, Odd) -> 2 * length r < fuel ->
     closure fuel' r = Ret l -> Nat.even (length l) = true).
Proof. exact pf_C84_parities_of_rounds_inverses_and_powers. Qed.
Print Assumptions C84_parities_of_rounds_inverses_and_powers.

(** C84: a legal change swaps half as many pairs as it has bells which make no place; its
    transposition is odd exactly if this number is, and ringing it from any row changes the parity of the
    row exactly then. *)
Theorem C84_parities_of_changes :
  forall pn fuel, legal pn -> 2 * pn_stage pn < fuel ->
    let p := parity_from_number ((pn_stage pn - length (pn_places pn)) / 2) in
    (exists t x, pn_transposition pn = Ret t /\ row_parity fuel t = Ret (x, p)) /\
    (forall r r', valid_row r -> length r = pn_stage pn -> rings (pn_places pn) 0 r r' ->
       exists x q, row_parity fuel r = Ret (x, q) /\ row_parity fuel r' = Ret (x, parity_mul q p)).
Proof. exact pf_C84_parities_of_changes. Qed.
Print Assumptions C84_parities_of_changes.

(** C84: the parity of each row rung by a block is that of the start row, changed as often as pairs of
    bells were swapped. *)
Theorem C84_parities_along_a_block :
  forall pns start s v rows i r fuel, pns <> [] -> Forall (fun pn => legal pn /\ pn_stage pn = s) pns ->
    valid_row start -> length start = s -> pn_block_to_rows pns start = Ret (Ok v) -> ssv_rows v = Ret rows ->
    nth_error rows i = Some r -> 2 * s < fuel ->
    exists x p, row_parity fuel start = Ret (x, p) /\
      row_parity fuel r =
        Ret (x, parity_mul p (parity_from_number (list_sum (map (fun pn => (s - length (pn_places pn)) / 2) (firstn i pns))))).
Proof. exact pf_C84_parities_along_a_block. Qed.
Print Assumptions C84_parities_along_a_block.

Example C84_example :
  row_parity 20 [1; 2; 0; 4; 3] = Ret ([0; 1; 2; 3; 4], Odd) /\ row_inv [1; 2; 0; 4; 3] = Ret [2; 0; 1; 4; 3] /\
  row_parity 20 [2; 0; 1; 4; 3] = Ret ([0; 1; 2; 3; 4], Odd) /\
  legal (PlaceNot [0; 5] 6) /\ pn_transposition (PlaceNot [0; 5] 6) = Ret [0; 2; 1; 4; 3; 5] /\
  row_parity 20 [0; 2; 1; 4; 3; 5] = Ret ([0; 1; 2; 3; 4; 5], Even) /\
  pn_transposition (PlaceNot [] 6) = Ret [1; 0; 3; 2; 5; 4] /\
  row_parity 20 [1; 0; 3; 2; 5; 4] = Ret ([0; 1; 2; 3; 4; 5], Odd).
Proof.
  splits; try (vm_compute; reflexivity). split; [cbn; lia|]. cbn.
  apply lf_place; [lia|]. apply lf_swap; [lia|]. apply lf_swap; [lia|]. apply (lf_place 6 5); [lia|]. apply lf_end.
Qed.

(** C85: the plain course of the method made from a text rings, from rounds, the changes the text
    describes, over and over in their order; it ends with rounds, at the end of the first lead which
    comes to rounds there. *)
Theorem C85_plain_course_of_a_text :
  forall hash_order name s text m fuel pc, (forall l, collected_set l (hash_order l)) -> 0 < s ->
    from_place_not_string hash_order name s text = Ret (Ok m) -> plain_course fuel m = Ret pc ->
    exists pns leads rows, pn_block_parse text s = Ret (Ok pns) /\ block_all_rows pc = Ret rows /\
      0 < leads /\ length rows = leads * length pns + 1 /\
      nth_error rows 0 = Some (seq 0 s) /\ nth_error rows (leads * length pns) = Some (seq 0 s) /\
      (forall j, 0 < j < leads -> nth_error rows (j * length pns) <> Some (seq 0 s)) /\
      (forall i r r', nth_error rows i = Some r -> nth_error rows (i + 1) = Some r' ->
         exists pn, nth_error pns (i mod length pns) = Some pn /\ pn_between r r' = Ret (Some pn) /\ rings (pn_places pn) 0 r r').
Proof. exact pf_C85_plain_course_of_a_text. Qed.
Print Assumptions C85_plain_course_of_a_text.

(** C85: it always exists; and [row_in_plain_course] goes on ringing the changes over and over for
    ever. *)
Theorem C85_ringing_for_ever :
  forall hash_order name s text m, (forall l, collected_set l (hash_order l)) -> 0 < s ->
    from_place_not_string hash_order name s text = Ret (Ok m) ->
    (exists fuel0 pc, forall fuel, fuel0 <= fuel -> plain_course fuel m = Ret pc) /\
    row_in_plain_course m 0 = Ret (seq 0 s) /\
    exists pns, pn_block_parse text s = Ret (Ok pns) /\
      forall i, exists r r' pn, row_in_plain_course m i = Ret r /\ row_in_plain_course m (i + 1) = Ret r' /\
        nth_error pns (i mod length pns) = Some pn /\ pn_between r r' = Ret (Some pn) /\ rings (pn_places pn) 0 r r'.
Proof. exact pf_C85_ringing_for_ever. Qed.
Print Assumptions C85_ringing_for_ever.

Example C85_example :
  exists m pc rows, from_place_not_string (nodup Nat.eq_dec) (s2l "Plain") 4 (s2l "-14-14,12") = Ret (Ok m) /\
    plain_course 3 m = Ret pc /\ block_all_rows pc = Ret rows /\ length rows = 25 /\
    nth_error rows 7 = Some [0; 2; 1; 3] /\ nth_error rows 8 = Some [0; 2; 3; 1] /\
    row_in_plain_course m 32 = Ret [0; 2; 3; 1] /\
    pn_between [0; 2; 1; 3] [0; 2; 3; 1] = Ret (Some (PlaceNot [0; 1] 4)).
Proof.
  do 3 eexists. do 3 (split; [vm_compute; reflexivity|]). splits; vm_compute; reflexivity.
Qed.
