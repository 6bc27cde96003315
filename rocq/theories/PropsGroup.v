(** Property theorems C17 to C21: closures, products of sets, groups of rows, fast_hash. *)

(* Generated from tools/props/Group.src; the proofs are in GroupThms.v. *)
From Verif Require Import Base Bell Stage Parity Row Spec ListFacts BellFacts RowFacts MulFacts
  GroupFacts GroupFacts2.
Local Open Scope list_scope.
From Verif Require Import GroupThms.

(** C17: [closure] terminates with r, r^2, .., r^k where k is the least positive exponent giving
    rounds; nothing repeats and every power (including the 0th) is there. *)
Theorem C17_closure_lists_the_powers :
  forall r, valid_row r ->
    exists k l fuel0, (forall fuel, fuel0 <= fuel -> closure fuel r = Ret l) /\
      0 < k /\ length l = k /\
      (forall i x, nth_error l i = Some x -> power r (i + 1) x) /\
      (forall i x, nth_error l i = Some x -> (is_identity x <-> i + 1 = k)) /\
      NoDup l /\
      (forall n p, power r n p -> In p l).
Proof. exact pf_C17_closure_lists_the_powers. Qed.
Print Assumptions C17_closure_lists_the_powers.

(** C17: [closure_from_rounds] is the same list rotated to start with rounds. *)
Theorem C17_closure_from_rounds_is_a_rotation :
  forall r, valid_row r ->
    exists init e fuel0, is_identity e /\ length e = length r /\
      (forall fuel, fuel0 <= fuel -> closure fuel r = Ret (init ++ [e])) /\
      (forall fuel, fuel0 <= fuel -> closure_from_rounds fuel r = Ret (e :: init)).
Proof. exact pf_C17_closure_from_rounds_is_a_rotation. Qed.
Print Assumptions C17_closure_from_rounds_is_a_rotation.

Example C17_witness : valid_row [1; 2; 0; 4; 3] /\
  closure 10 [1; 2; 0; 4; 3] =
    Ret [[1; 2; 0; 4; 3]; [2; 0; 1; 3; 4]; [0; 1; 2; 4; 3]; [1; 2; 0; 3; 4]; [2; 0; 1; 4; 3]; [0; 1; 2; 3; 4]].
Proof.
  split; [|reflexivity]. apply (proj2 (valid_row_iff _)).
  splits; [discriminate | |]; repeat constructor; cbn; lia.
Qed.

(** C18: for sets of rows of one stage, the result lists the product of every way of choosing one
    row from each set, each exactly as often as it can be chosen. *)
Theorem C18_cartesian_product :
  forall n sets, sets <> [] -> Forall (Forall (fun r => valid_row r /\ length r = n)) sets ->
    exists l choices, multi_cartesian_product sets = Ret (Ok l) /\
      Permutation choices (picks sets) /\ Forall2 is_product choices l.
Proof. exact pf_C18_cartesian_product. Qed.
Print Assumptions C18_cartesian_product.

(** C18: no sets give no rows; it never panics, errors only if two stages differ, and always does
    if they differ and every set is non-empty. *)
Theorem C18_cartesian_product_errors :
  multi_cartesian_product [] = Ret (Ok []) /\
  (forall sets, Forall (Forall valid_row) sets ->
     let mixed := exists s1 s2 a b, In s1 sets /\ In s2 sets /\ In a s1 /\ In b s2 /\
                                    length a <> length b in
     ((exists l, multi_cartesian_product sets = Ret (Ok l)) \/
      ((exists e, multi_cartesian_product sets = Ret (Err e)) /\ mixed)) /\
     (mixed -> Forall (fun s => s <> []) sets ->
      exists e, multi_cartesian_product sets = Ret (Err e))).
Proof. exact pf_C18_cartesian_product_errors. Qed.
Print Assumptions C18_cartesian_product_errors.

(** C18: the error names the stages of the first row and of the first row of another stage. *)
Theorem C18_cartesian_product_error_stages :
  forall sets e, Forall (Forall valid_row) sets -> multi_cartesian_product sets = Ret (Err e) ->
    exists a b, first_of_another_stage (concat sets) a b /\ e = IncompatibleStages (length a) (length b).
Proof. exact pf_C18_cartesian_product_error_stages. Qed.
Print Assumptions C18_cartesian_product_error_stages.

Example C18_witness :
  multi_cartesian_product [[[1; 0; 2]; [0; 1; 2]]; [[0; 2; 1]; [2; 1; 0]]] =
    Ret (Ok [[1; 2; 0]; [0; 2; 1]; [2; 0; 1]; [2; 1; 0]]) /\
  multi_cartesian_product [[[1; 0; 2]]; [[1; 0]]] = Ret (Err (IncompatibleStages 3 2)).
Proof. split; reflexivity. Qed.

(** C19: for at least one row, all of one stage, [least_group_containing] terminates with the
    smallest set that contains the rows and is a group. *)
Theorem C19_least_group :
  forall n rows, rows <> [] -> Forall (fun r => valid_row r /\ length r = n) rows ->
    exists fuel0, forall fuel, fuel0 <= fuel ->
    exists set, least_group_containing fuel rows = Ret (Ok set) /\ NoDup set /\
      Forall (fun r => valid_row r /\ length r = n) set /\
      subgroup n (fun x => In x set) /\
      (forall r, In r rows -> In r set) /\
      (forall S, subgroup n S -> (forall r, In r rows -> S r) -> forall x, In x set -> S x).
Proof. exact pf_C19_least_group. Qed.
Print Assumptions C19_least_group.

(** C19: rows of different stages are an error, which names the stages of the first row and of the
    first row of another stage. *)
Theorem C19_least_group_errors :
  forall rows fuel, Forall valid_row rows ->
    (exists x y, In x rows /\ In y rows /\ length x <> length y) ->
    exists a b, first_of_another_stage rows a b /\
      least_group_containing fuel rows = Ret (Err (IncompatibleStages (length a) (length b))).
Proof. exact pf_C19_least_group_errors. Qed.
Print Assumptions C19_least_group_errors.

(** C19, the degenerate case: no rows give the empty set, which is not a group. *)
Theorem C19_least_group_of_nothing_refuted :
  forall fuel, 0 < fuel -> least_group_containing fuel [] = Ret (Ok []) /\
    forall n, 0 < n -> ~ subgroup n (fun x => In x []).
Proof. exact pf_C19_least_group_of_nothing_refuted. Qed.
Print Assumptions C19_least_group_of_nothing_refuted.

Example C19_witness :
  least_group_containing 20 [[1; 0; 2]; [1; 2; 0]] =
    Ret (Ok [[1; 0; 2]; [1; 2; 0]; [0; 1; 2]; [0; 2; 1]; [2; 1; 0]; [2; 0; 1]]) /\
  least_group_containing 20 [[1; 0; 2]; [1; 0]] = Ret (Err (IncompatibleStages 3 2)).
Proof. split; reflexivity. Qed.

(** C20: whatever the iteration order of the hash set collected from [rows], [is_group] says
    [true] exactly when the rows form a group, and errors exactly when two stages differ. *)
Theorem C20_group_test :
  forall rows set, Forall valid_row rows -> collected_set rows set ->
    ((exists e, is_group_set set = Ret (Err e)) <->
       exists x y, In x rows /\ In y rows /\ length x <> length y) /\
    (forall n, Forall (fun r => length r = n) rows ->
       exists ok, is_group_set set = Ret (Ok ok) /\
         (ok = true <-> rows <> [] /\ subgroup n (fun x => In x rows))).
Proof. exact pf_C20_group_test. Qed.
Print Assumptions C20_group_test.

(** C20: the error names the stages of two of the rows, which differ. *)
Theorem C20_group_test_error_stages :
  forall rows set e, Forall valid_row rows -> collected_set rows set -> is_group_set set = Ret (Err e) ->
    exists a b, In a rows /\ In b rows /\ length a <> length b /\ first_of_another_stage set a b /\
      e = IncompatibleStages (length a) (length b).
Proof. exact pf_C20_group_test_error_stages. Qed.
Print Assumptions C20_group_test_error_stages.

Example C20_witness : collected_set [[0; 1; 2]; [1; 2; 0]; [2; 0; 1]; [0; 1; 2]] [[2; 0; 1]; [0; 1; 2]; [1; 2; 0]] /\
  is_group_set [[2; 0; 1]; [0; 1; 2]; [1; 2; 0]] = Ret (Ok true) /\
  is_group_set [[2; 0; 1]; [0; 1; 2]] = Ret (Ok false) /\
  is_group_set [[2; 0; 1]; [0; 1]] = Ret (Err (IncompatibleStages 3 2)).
Proof.
  splits; try reflexivity. split.
  - repeat constructor; cbn; intuition discriminate.
  - intros x; cbn; tauto.
Qed.

(** C21: on a [w]-bit machine with wrapping arithmetic (release builds), whenever
    stage^stage <= 2^w two rows of the stage with the same hash are equal. *)
Theorem C21_fast_hash_has_no_collisions :
  forall w a b h, valid_row a -> valid_row b -> length a = length b ->
    (N.of_nat (length a) ^ N.of_nat (length a) <= 2 ^ w)%N ->
    fast_hash_wrapping w a = Ret h -> fast_hash_wrapping w b = Ret h -> a = b.
Proof. exact pf_C21_fast_hash_has_no_collisions. Qed.
Print Assumptions C21_fast_hash_has_no_collisions.

(** C21: with wrapping arithmetic every row has a hash: the bells read as the digits of a number in base
    stage, the first bell being the last digit, modulo the size of the machine word. *)
Theorem C21_fast_hash_is_a_number_in_base_stage :
  forall w r, valid_row r ->
    let s := N.of_nat (length r) in
    fast_hash_wrapping w r = Ret (fold_right (fun b value => N.of_nat b + s * value)%N 0%N r mod 2 ^ w)%N.
Proof. exact pf_C21_fast_hash_is_a_number_in_base_stage. Qed.
Print Assumptions C21_fast_hash_is_a_number_in_base_stage.

(** C21: the documented stages are covered: 6 bells on 16 bits, 9 on 32 bits, 16 on 64 bits. *)
Theorem C21_documented_stages_are_covered :
  forall w s, (w = 16 /\ s <= 6 \/ w = 32 /\ s <= 9 \/ w = 64 /\ s <= 16)%N ->
    (0 < s)%N -> (s ^ s <= 2 ^ w)%N.
Proof. exact pf_C21_documented_stages_are_covered. Qed.
Print Assumptions C21_documented_stages_are_covered.

(** C21: in a build with overflow checks the hash is returned (the same value, so still without
    collisions) when stage^stage < 2^w, and every call panics otherwise. *)
Theorem C21_fast_hash_overflow_checked :
  forall w r, valid_row r ->
    ((N.of_nat (length r) ^ N.of_nat (length r) < 2 ^ w)%N ->
       exists h, fast_hash_checked w r = Ret h /\ fast_hash_wrapping w r = Ret h) /\
    ((2 ^ w <= N.of_nat (length r) ^ N.of_nat (length r))%N -> fast_hash_checked w r = Panic).
Proof. exact pf_C21_fast_hash_overflow_checked. Qed.
Print Assumptions C21_fast_hash_overflow_checked.

(** C21: so the documented guarantee fails for 16 bells on 64 bits when overflow is checked: the
    multiplier overflows after the last bell of every row. *)
Theorem C21_sixteen_bells_overflow_refuted :
  forall r, valid_row r -> length r = 16 -> fast_hash_checked 64 r = Panic.
Proof. exact pf_C21_sixteen_bells_overflow_refuted. Qed.
Print Assumptions C21_sixteen_bells_overflow_refuted.

Example C21_witness : fast_hash_wrapping 64 (row_rounds 16) = Ret 18364758544493064720%N /\
  fast_hash_checked 64 [1; 0; 2] = Ret 19%N /\ fast_hash_checked 64 (row_rounds 16) = Panic /\
  valid_row (row_rounds 16).
Proof. splits; try reflexivity. apply valid_rounds; lia. Qed.
