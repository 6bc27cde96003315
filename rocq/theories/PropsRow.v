(** Property theorems C04 to C16 and C22: rows. *)

(* Generated from tools/props/Row.src; the proofs are in RowThms.v. *)
From Verif Require Import Base Bell Stage Parity Row Spec SpecAcc ListFacts BellFacts RowFacts MulFacts
  ParityFacts GroupFacts.
From Coq Require Import Sorting.Sorted.
Local Open Scope list_scope.
From Verif Require Import RowThms.

(** C04: [RowBuf::from_vec] (and collecting from an iterator) accepts exactly the permutations,
    and keeps them as they are. *)
Theorem C04_from_vec_accepts_exactly_permutations :
  forall l r, (from_vec l = Ok r <-> valid_row l /\ r = l) /\
              (from_bell_iter l = Ok r <-> valid_row l /\ r = l).
Proof. exact pf_C04_from_vec_accepts_exactly_permutations. Qed.
Print Assumptions C04_from_vec_accepts_exactly_permutations.

Example C04_witness : valid_row [2; 0; 1] /\ from_vec [2; 0; 1] = Ok [2; 0; 1] /\
  from_vec [2; 0; 2] = Err (DuplicateBell 2).
Proof.
  splits; try reflexivity.
  apply (proj2 (valid_row_iff _)). splits; [discriminate | |]; repeat constructor; cbn; lia.
Qed.

(** C05: an error of [RowBuf::from_vec] is [NoBells] exactly for the empty list; otherwise the
    error names the first offending bell: everything before it is fine (distinct, in stage) and
    the bell itself is out of the stage, or already occurred. *)
Theorem C05_row_errors_are_truthful :
  (forall l, from_vec l = Err NoBells <-> l = []) /\
  (forall l e, l <> [] -> from_vec l = Err e ->
     exists pre b post, l = pre ++ b :: post /\ NoDup pre /\ Forall (fun x => x < length l) pre /\
       ((e = BellOutOfStage b (length l) /\ length l <= b) \/ (e = DuplicateBell b /\ In b pre))) /\
  (forall l b, from_vec l <> Err (MissingBell b)).
Proof. exact pf_C05_row_errors_are_truthful. Qed.
Print Assumptions C05_row_errors_are_truthful.

Example C05_witness : from_vec [0; 3; 0] = Err (BellOutOfStage 3 3) /\
  from_vec [0; 1; 0; 7] = Err (DuplicateBell 0) /\ from_vec [] = Err NoBells.
Proof. repeat split. Qed.

(** C06: [RowBuf::parse] skips whatever is not a bell name, accepts exactly the permutations, and
    inverts [Display] up to 33 bells. *)
Theorem C06_parse_of_display :
  (forall a junk b, (forall c, In c junk -> ~ is_bell_name_char c) ->
     row_parse (a ++ junk ++ b) = row_parse (a ++ b)) /\
  (forall s r, row_parse s = Ok r -> valid_row r) /\
  (forall r, valid_row r -> length r <= 33 -> row_parse (row_display r) = Ok r) /\
  (forall r, row_display r = concat (map bell_name r)).
Proof. exact pf_C06_parse_of_display. Qed.
Print Assumptions C06_parse_of_display.

(** C06, the limit: beyond 33 bells no displayed row parses back. *)
Theorem C06_parse_of_display_large_refuted :
  forall r, valid_row r -> 33 < length r -> row_parse (row_display r) <> Ok r.
Proof. exact pf_C06_parse_of_display_large_refuted. Qed.
Print Assumptions C06_parse_of_display_large_refuted.

(** C06, exactly: every text names one list of bells, and parsing it is the same as building a row
    from that list, with the same errors (C04, C05, C07). *)
Theorem C06_parse_reads_the_names :
  forall t, exists bells, (forall l, names_bells t l <-> l = bells) /\
    row_parse t = from_vec bells /\ (forall s, row_parse_with_stage t s = from_vec_with_stage bells s) /\
    (forall r, row_parse t = Ok r <-> valid_row bells /\ r = bells).
Proof. exact pf_C06_parse_reads_the_names. Qed.
Print Assumptions C06_parse_reads_the_names.

Example C06_witness : row_parse (s2l "13 4|2") = Ok [0; 2; 3; 1] /\
  row_display [0; 2; 3; 1] = s2l "1342" /\ valid_row (row_rounds 34).
Proof. splits; try reflexivity; apply valid_rounds; lia. Qed.

(** C07: [from_vec_with_stage]/[parse_with_stage] succeed exactly when the bells given arrange
    the first [length l <= s] bells; the result is those bells followed by the rest in order. *)
Theorem C07_with_stage_adds_cover_bells :
  forall l s r, 0 < s ->
    (from_vec_with_stage l s = Ret (Ok r) <->
     NoDup l /\ (forall b, In b l <-> b < length l) /\ length l <= s /\
     r = l ++ seq (length l) (s - length l)) /\
    (from_vec_with_stage l s = Ret (Ok r) -> valid_row r /\ length r = s).
Proof. exact pf_C07_with_stage_adds_cover_bells. Qed.
Print Assumptions C07_with_stage_adds_cover_bells.

(** C07 for strings: [parse_with_stage] only reads the bell names of the string. *)
Theorem C07_parse_with_stage_reads_the_bell_names :
  forall t s r, 0 < s ->
    (row_parse_with_stage t s = Ret (Ok r) <->
     exists l, l = filter_map bell_from_name t /\ NoDup l /\ (forall b, In b l <-> b < length l) /\
       length l <= s /\ r = l ++ seq (length l) (s - length l)).
Proof. exact pf_C07_parse_with_stage_reads_the_bell_names. Qed.
Print Assumptions C07_parse_with_stage_reads_the_bell_names.

Example C07_witness : row_parse_with_stage (s2l "321") 6 = Ret (Ok [2; 1; 0; 3; 4; 5]) /\
  row_parse_with_stage [] 3 = Ret (Ok [0; 1; 2]).
Proof. split; reflexivity. Qed.

(** C08: [from_vec_with_stage] never panics, and its errors are truthful. *)
Theorem C08_with_stage_never_panics_and_errors_are_truthful :
  forall l s, 0 < s ->
    exists res, from_vec_with_stage l s = Ret res /\
      match res with
      | Ok r => valid_row r /\ length r = s
      | Err NoBells => False
      | Err (BellOutOfStage b s') =>
          s' = s /\ s <= b /\ exists pre post, l = pre ++ b :: post /\ NoDup pre /\
                                               Forall (fun x => x < s) pre
      | Err (DuplicateBell b) =>
          exists pre post, l = pre ++ b :: post /\ In b pre /\ NoDup pre /\ Forall (fun x => x < s) pre
      | Err (MissingBell b) =>
          ~ In b l /\ (exists c, In c l /\ b < c) /\ (forall c, c < b -> In c l)
      end.
Proof. exact pf_C08_with_stage_never_panics_and_errors_are_truthful. Qed.
Print Assumptions C08_with_stage_never_panics_and_errors_are_truthful.

Example C08_witness : from_vec_with_stage [0; 2] 5 = Ret (Err (MissingBell 1)) /\
  from_vec_with_stage [0; 5] 5 = Ret (Err (BellOutOfStage 5 5)) /\
  from_vec_with_stage [1; 1] 5 = Ret (Err (DuplicateBell 1)).
Proof. repeat split. Qed.

(** C09: rounds, backrounds and queens. *)
Theorem C09_standard_rows :
  forall s, 0 < s ->
    (valid_row (row_rounds s) /\ length (row_rounds s) = s /\
     forall i, i < s -> nth_error (row_rounds s) i = Some i) /\
    (valid_row (row_backrounds s) /\ length (row_backrounds s) = s /\
     forall i, i < s -> nth_error (row_backrounds s) i = Some (s - 1 - i)) /\
    (valid_row (row_queens s) /\ length (row_queens s) = s /\
     exists odds evens, row_queens s = odds ++ evens /\
       StronglySorted lt odds /\ StronglySorted lt evens /\
       (forall b, In b odds <-> b < s /\ Nat.odd (bell_number b) = true) /\
       (forall b, In b evens <-> b < s /\ Nat.even (bell_number b) = true)).
Proof. exact pf_C09_standard_rows. Qed.
Print Assumptions C09_standard_rows.

(** C09: the tests [is_rounds] and [is_backrounds]. *)
Theorem C09_rounds_tests :
  forall r, (is_rounds r = true <-> r = row_rounds (length r)) /\
            (is_backrounds r = true <-> r = row_backrounds (length r)).
Proof. exact pf_C09_rounds_tests. Qed.
Print Assumptions C09_rounds_tests.

Example C09_witness : row_queens 7 = [0; 2; 4; 6; 1; 3; 5] /\ row_backrounds 3 = [2; 1; 0].
Proof. split; reflexivity. Qed.

(** C10: [mul_result] fails exactly on different stages, naming both; otherwise it is the
    composition, a valid row of that stage.  The [*] operator panics exactly on failure. *)
Theorem C10_multiplication_is_composition :
  forall a b, valid_row a -> valid_row b ->
    (length a <> length b ->
       mul_result a b = Ret (Err (IncompatibleStages (length a) (length b))) /\
       row_mul a b = Panic) /\
    (length a = length b ->
       exists c, mul_result a b = Ret (Ok c) /\ row_mul a b = Ret c /\ mul_unchecked a b = Ret c /\
                 valid_row c /\ length c = length a /\ composition a b c /\
                 forall i d, i < length b -> nth i c d = nth (nth i b d) a d).
Proof. exact pf_C10_multiplication_is_composition. Qed.
Print Assumptions C10_multiplication_is_composition.

Example C10_witness : mul_result [1; 2; 0; 3] [0; 2; 1; 3] = Ret (Ok [1; 0; 2; 3]) /\
  mul_result [1; 0] [0; 2; 1] = Ret (Err (IncompatibleStages 2 3)).
Proof. split; reflexivity. Qed.

(** C11: the rows of a stage form a group. *)
Theorem C11_rows_form_a_group :
  forall n, 0 < n ->
    let rows r := valid_row r /\ length r = n in
    (forall a b, rows a -> rows b -> exists c, row_mul a b = Ret c /\ rows c) /\
    (forall a b c, rows a -> rows b -> rows c ->
       (ab <- row_mul a b;; row_mul ab c) = (bc <- row_mul b c;; row_mul a bc)) /\
    rows (row_rounds n) /\
    (forall a, rows a -> row_mul a (row_rounds n) = Ret a /\ row_mul (row_rounds n) a = Ret a) /\
    (forall a, rows a -> exists ai, row_inv a = Ret ai /\ rows ai /\ row_inv ai = Ret a /\
       row_mul a ai = Ret (row_rounds n) /\ row_mul ai a = Ret (row_rounds n)) /\
    (forall a b, rows a -> rows b ->
       (ab <- row_mul a b;; row_inv ab) = (bi <- row_inv b;; ai <- row_inv a;; row_mul bi ai)).
Proof. exact pf_C11_rows_form_a_group. Qed.
Print Assumptions C11_rows_form_a_group.

Example C11_witness : row_inv [2; 0; 1; 3] = Ret [1; 2; 0; 3] /\
  row_mul [2; 0; 1; 3] [1; 2; 0; 3] = Ret (row_rounds 4).
Proof. split; reflexivity. Qed.

(** C12: the in-place operations leave exactly the pure result in the buffer, whatever it held;
    an error leaves it as it was; no panic.  ([out <> []]: a [RowBuf] is never empty.) *)
Theorem C12_in_place_operations :
  forall a b out, valid_row a -> valid_row b -> valid_row out ->
    (* mul_into *)
    (exists res, mul_result a b = Ret res /\
       mul_into a b out = Ret match res with Ok c => (c, Ok tt) | Err e => (out, Err e) end) /\
    (* mul_into_row *)
    (exists res, mul_result a b = Ret res /\
       mul_into_row a b out =
         Ret match res with
             | Err e => (out, Err (RhsStage e))
             | Ok c => if length a =? length out then (c, Ok tt)
                       else (out, Err (IntoStage (IncompatibleStages (length a) (length out))))
             end) /\
    (* inv_into, inv_into_buf *)
    (exists ai, row_inv a = Ret ai /\
       inv_into a out = Ret (if length a =? length out then (ai, Ok tt)
                             else (out, Err (IncompatibleStages (length a) (length out)))) /\
       inv_into_buf a out = Ret ai) /\
    (* copy_into, overwrite_from *)
    copy_into a out = a /\ overwrite_from out a = a.
Proof. exact pf_C12_in_place_operations. Qed.
Print Assumptions C12_in_place_operations.

Example C12_witness : inv_into_buf [2; 0; 1] [0; 1; 2; 3; 4] = Ret [1; 2; 0] /\
  mul_into [1; 0; 2] [2; 1; 0] [0] = Ret ([2; 0; 1], Ok tt) /\
  inv_into [1; 0] [0; 1; 2] = Ret ([0; 1; 2], Err (IncompatibleStages 2 3)).
Proof. repeat split. Qed.

(** C13: [solve_ax_equals_b] and [solve_xa_equals_b] return the unique solution, and fail exactly
    on different stages. *)
Theorem C13_row_equations :
  forall a b, valid_row a -> valid_row b ->
    (length a <> length b ->
       solve_ax_equals_b a b = Ret (Err (IncompatibleStages (length a) (length b))) /\
       solve_xa_equals_b a b = Ret (Err (IncompatibleStages (length b) (length a)))) /\
    (length a = length b ->
       (exists x, solve_ax_equals_b a b = Ret (Ok x) /\ valid_row x /\ length x = length a /\
          composition a x b /\
          forall y, valid_row y -> length y = length a -> composition a y b -> y = x) /\
       (exists x, solve_xa_equals_b a b = Ret (Ok x) /\ valid_row x /\ length x = length a /\
          composition x a b /\
          forall y, valid_row y -> length y = length a -> composition y a b -> y = x)).
Proof. exact pf_C13_row_equations. Qed.
Print Assumptions C13_row_equations.

Example C13_witness : solve_ax_equals_b [1; 2; 0] [0; 2; 1] = Ret (Ok [2; 1; 0]) /\
  solve_xa_equals_b [1; 2; 0] [0; 2; 1] = Ret (Ok [1; 0; 2]).
Proof. split; reflexivity. Qed.

(** C14: [pow_u n] is the n-fold product, [pow_i] of a negative exponent is the power of the
    inverse, and exponents add. *)
Theorem C14_powers :
  forall r, valid_row r ->
    (forall n, exists p, pow_u r n = Ret p /\ power r n p /\ valid_row p /\ length p = length r) /\
    (forall n, pow_i r (Z.of_nat n) = pow_u r n) /\
    (forall n, pow_i r (- Z.of_nat n) = (ri <- row_inv r;; pow_u ri n)) /\
    (forall x y, exists p q, pow_i r x = Ret p /\ pow_i r y = Ret q /\
                             pow_i r (x + y) = row_mul p q).
Proof. exact pf_C14_powers. Qed.
Print Assumptions C14_powers.

Example C14_witness_pow : pow_u [1; 2; 3; 0] 3 = Ret [3; 0; 1; 2] /\
  pow_i [1; 2; 3; 0] (-1) = Ret [3; 0; 1; 2].
Proof. split; reflexivity. Qed.

(** C14, accumulators: the effect of each operation on the total the user reads back. *)
Theorem C14_accumulator_steps :
  forall a r, valid_row (acc_total a) -> valid_row r ->
    (length (acc_total a) = length r ->
       (exists a', acc_accumulate a r = Ret (a', Ok tt) /\ valid_row (acc_total a') /\
          composition (acc_total a) r (acc_total a') /\ acc_mul_assign a r = Ret a') /\
       (exists a', acc_pre_accumulate a r = Ret (a', Ok tt) /\ valid_row (acc_total a') /\
          composition r (acc_total a) (acc_total a'))) /\
    (length (acc_total a) <> length r ->
       acc_accumulate a r = Ret (a, Err (IncompatibleStages (length (acc_total a)) (length r))) /\
       acc_pre_accumulate a r = Ret (a, Err (IncompatibleStages (length r) (length (acc_total a)))) /\
       acc_mul_assign a r = Panic) /\
    acc_total (acc_set a r) = r.
Proof. exact pf_C14_accumulator_steps. Qed.
Print Assumptions C14_accumulator_steps.

(** C14, whole histories: an accumulator that started from [r0] and accumulated [pre] (in the
    order given, each put in front) and [post] in any interleaving holds
    pre_k * .. * pre_1 * r0 * post_1 * .. * post_m. *)
Theorem C14_accumulator_histories :
  forall n r0 (ops : list (bool * list nat)),
    valid_row r0 -> length r0 = n -> Forall (fun op => valid_row (snd op) /\ length (snd op) = n) ops ->
    exists a total,
      (a0 <- acc_new r0;;
       foldM (fun a (op : bool * list nat) => let (front, r) := op in
                '(a', res) <- (if front then acc_pre_accumulate a r else acc_accumulate a r);;
                unwrap_res res;;; Ret a') ops a0) = Ret a /\
      acc_total a = total /\
      is_product (rev (map snd (filter fst ops)) ++ [r0] ++
                  map snd (filter (fun op => negb (fst op)) ops)) total.
Proof. exact pf_C14_accumulator_histories. Qed.
Print Assumptions C14_accumulator_histories.

(** C14, every history: whatever rows (of whatever stages) are accumulated, put in front or set, in any
    order, no call panics, and the totals and errors are those of the plain products; a failed call
    leaves the total as it is. *)
Theorem C14_accumulator_any_history :
  forall r0 ops, valid_row r0 -> Forall (fun o => valid_row (acc_row o)) ops ->
    exists a0 log, acc_new r0 = Ret a0 /\ acc_total a0 = r0 /\ acc_calls a0 ops = Ret log /\
      acc_history r0 ops log /\ Forall (fun x => valid_row (fst x)) log /\
      forall log', acc_history r0 ops log' -> log' = log.
Proof. exact pf_C14_accumulator_any_history. Qed.
Print Assumptions C14_accumulator_any_history.

Example C14_witness_history :
  (a0 <- acc_new [1; 0; 2];; acc_calls a0 [PutAfter [0; 2; 1]; PutBefore [1; 0]; SetTo [1; 0]; PutBefore [1; 0]; PutAfter [0; 2; 1]]) =
    Ret [([1; 2; 0], None); ([1; 2; 0], Some (2, 3)); ([1; 0], None); ([0; 1], None); ([0; 1], Some (2, 3))].
Proof. reflexivity. Qed.

Example C14_witness_accumulator :
  (a0 <- acc_new [1; 0; 2];; '(a1, _) <- acc_accumulate a0 [0; 2; 1];;
   '(a2, _) <- acc_pre_accumulate a1 [2; 1; 0];; Ret (acc_total a2)) = Ret [1; 0; 2].
Proof. reflexivity. Qed.

(** C15: [parity] terminates without panic, leaves rounds behind, and is [Even] exactly when
    every way to swap the row into rounds uses an even number of swaps (there is one). *)
Theorem C15_parity_counts_swaps :
  forall r, valid_row r ->
    exists p, (forall fuel, 2 * length r < fuel -> row_parity fuel r = Ret (row_rounds (length r), p)) /\
      (exists k, swaps_to r k (row_rounds (length r))) /\
      (forall k, swaps_to r k (row_rounds (length r)) -> (p = Even <-> Nat.Even k) /\ (p = Odd <-> Nat.Odd k)).
Proof. exact pf_C15_parity_counts_swaps. Qed.
Print Assumptions C15_parity_counts_swaps.

(** C15: the parity of a product is the product of the parities. *)
Theorem C15_parity_of_products :
  forall a b ab fuel, valid_row a -> valid_row b -> length a = length b -> 2 * length a < fuel ->
    row_mul a b = Ret ab ->
    exists x y z ra rb rab, row_parity fuel a = Ret (ra, x) /\ row_parity fuel b = Ret (rb, y) /\
      row_parity fuel ab = Ret (rab, z) /\ z = parity_mul x y /\
      (z = Even <-> (x = y)).
Proof. exact pf_C15_parity_of_products. Qed.
Print Assumptions C15_parity_of_products.

Example C15_witness : row_parity 20 [1; 2; 0; 4; 3] = Ret ([0; 1; 2; 3; 4], Odd) /\
  swaps_to [1; 0; 2] 1 (row_rounds 3).
Proof.
  split; [reflexivity|]. apply swaps_more with 0 1 [0; 1; 2]; [lia| |constructor].
  unfold swapped. cbn [length]. splits; try lia; auto. intros [|[|k]] H1 H2; try congruence; reflexivity.
Qed.

(** C16: [effective_stage] is the least [s >= 1] such that all bells from place [s] on are home;
    the first [s] bells are then a row by themselves. *)
Theorem C16_effective_stage :
  forall r, valid_row r ->
    exists s, effective_stage r = Ret s /\ 1 <= s <= length r /\
      valid_row (firstn s r) /\
      (forall i b, s <= i -> nth_error r i = Some b -> b = i) /\
      (forall s', 1 <= s' -> (forall i b, s' <= i -> nth_error r i = Some b -> b = i) -> s <= s').
Proof. exact pf_C16_effective_stage. Qed.
Print Assumptions C16_effective_stage.

Example C16_witness : effective_stage [1; 0; 2; 4; 3; 5; 6] = Ret 5 /\ effective_stage [0; 1; 2] = Ret 1.
Proof. split; reflexivity. Qed.

(** C22: [place_of] and [fixed_bells]. *)
Theorem C22_place_of_and_fixed_bells :
  forall r, valid_row r ->
    (forall b p, place_of r b = Some p <-> nth_error r p = Some b) /\
    (forall b, place_of r b = None <-> length r <= b) /\
    (forall b, In b (fixed_bells r) <-> nth_error r b = Some b) /\ StronglySorted lt (fixed_bells r).
Proof. exact pf_C22_place_of_and_fixed_bells. Qed.
Print Assumptions C22_place_of_and_fixed_bells.

(** C22: [swap] exchanges the two places, keeps the row valid, and panics exactly when out of
    range. *)
Theorem C22_swap :
  forall r i j, valid_row r ->
    (i < length r -> j < length r -> exists s, row_swap r i j = Ret s /\ swapped r s i j /\ valid_row s) /\
    (~ (i < length r /\ j < length r) -> row_swap r i j = Panic).
Proof. exact pf_C22_swap. Qed.
Print Assumptions C22_swap.

(** C22: [extend_to_stage] appends exactly the missing bells, and panics exactly when the row
    would shrink. *)
Theorem C22_extend_to_stage :
  forall r s, valid_row r ->
    (length r <= s -> exists t, extend_to_stage r s = Ret t /\ valid_row t /\ length t = s /\
       firstn (length r) t = r /\
       forall i, length r <= i < s -> nth_error t i = Some i) /\
    (s < length r -> extend_to_stage r s = Panic).
Proof. exact pf_C22_extend_to_stage. Qed.
Print Assumptions C22_extend_to_stage.

Example C22_witness : place_of [2; 0; 1] 1 = Some 2 /\ place_of [2; 0; 1] 3 = None /\
  fixed_bells [0; 2; 1; 3] = [0; 3] /\ row_swap [2; 0; 1] 0 2 = Ret [1; 0; 2] /\
  extend_to_stage [1; 0] 4 = Ret [1; 0; 2; 3] /\ extend_to_stage [1; 0] 1 = Panic.
Proof. repeat split. Qed.
