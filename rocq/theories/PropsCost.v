(** Property theorems C106: how many rounds the loops of the API take. *)

(* Generated from tools/props/Cost.src; the proofs are in CostThms.v. *)
From Verif Require Import Base Spec SpecCycle SpecCost ListFacts Bell Stage Parity Row RowFacts MulFacts ParityFacts GroupFacts GroupFacts2 CycleFacts
  Utils SameStageVec SpecVec SsvFacts Block SpecBlock BlockFacts PlaceNot Mask MaskFacts Class Method SpecMethod MethodFacts LawFacts2 TruthFacts EndFacts CostFacts Music SpecMask MusicFacts Steps StepFacts.
From Verif Require Import RowThms GroupThms Laws2Thms CycleThms MethodThms.
Local Open Scope list_scope.
From Verif Require Import CostThms.

(** C106: the loop of [parity] goes round once for each bell, once more for each bell of each cycle but one, and once
    to see that it has finished; so at most twice the number of bells. *)
Theorem C106_parity :
  forall r reps, valid_row r -> one_of_each_cycle r reps ->
    takes (fun k => row_parity k r) (length r + (length r - length reps) + 1) /\
    length r + (length r - length reps) + 1 <= 2 * length r.
Proof. exact pf_C106_parity. Qed.
Print Assumptions C106_parity.

(** C106: the loops of [closure] and [closure_from_rounds] go round once for each row of the result, and these are as
    many as the least common multiple of the lengths of the cycles. *)
Theorem C106_closures :
  forall r n, valid_row r -> lcm_of_cycles r n ->
    takes (fun k => closure k r) n /\ takes (fun k => closure_from_rounds k r) n /\
    (exists l, closure n r = Ret l /\ length l = n) /\ (exists l, closure_from_rounds n r = Ret l /\ length l = n) /\
    n <= fact (length r).
Proof. exact pf_C106_closures. Qed.
Print Assumptions C106_closures.

(** C106: the loop of [least_group_containing] goes round once for each row of the group, and once to see that it has
    finished.  The size of the group divides the number of rows of the stage; when the stages of the rows differ, the
    loop is not entered. *)
Theorem C106_least_groups :
  (forall n rows, rows <> [] -> Forall (fun r => valid_row r /\ length r = n) rows ->
     exists size set, least_group_containing (S size) rows = Ret (Ok set) /\ length set = size /\
       takes (fun k => least_group_containing k rows) (S size) /\ Nat.divide size (fact n)) /\
  (forall rows, Forall valid_row rows -> (exists x y, In x rows /\ In y rows /\ length x <> length y) ->
     takes (fun k => least_group_containing k rows) 0).
Proof. exact pf_C106_least_groups. Qed.
Print Assumptions C106_least_groups.

(** C106: the loop of [plain_course] goes round once for each lead of the course. *)
Theorem C106_plain_courses :
  forall m s ars lo n, block_holds (first_lead m) s ars lo -> is_identity (hd [] (all_rows_of ars lo)) -> lcm_of_cycles lo n ->
    takes (fun k => plain_course k m) n /\ exists pc, plain_course n m = Ret pc /\ block_len pc = n * lead_len m.
Proof. exact pf_C106_plain_courses. Qed.
Print Assumptions C106_plain_courses.

(** C106: matching a regex with a row asks the regex for each of its elements at most once and the row for each of its
    bells at most once, and each of them at most once more to see that it has ended, so it takes a time linear in the
    elements and the bells (music.rs 338-341).  A match asks for every element, and for every bell unless the regex ends
    with a star.  The regex has no more elements than it was made from. *)
Theorem C106_regex_matching :
  forall es r, valid_row r ->
    exists es' v ms a, regex_from_vec es = Ret es' /\ length es' <= length es /\
      c_run_match es' (enumerate r) [] = Ret ((v, ms), a) /\ run_match es' (enumerate r) [] = Ret (v, ms) /\
      regex_matches es' r = Ret v /\ match_pattern es' r = Ret (if v : bool then Some ms else None) /\
      of_elems a <= length es' + 1 /\ of_bells a <= length r + 1 /\
      (v = true -> of_elems a = length es' + 1 /\ (last es' RAny <> RGlob -> of_bells a = length r + 1)).
Proof. exact pf_C106_regex_matching. Qed.
Print Assumptions C106_regex_matching.

(** The pattern "*5678x" has six elements.  It matches "12356784" after asking for all of it and for the end
    of both; "12567834" has a bell too many, and "12345678" ends too soon; the pattern "x*5*" matches before the end of the row. *)
Example C106_regex_example :
  c_run_match [RGlob; RBell 4; RBell 5; RBell 6; RBell 7; RAny] (enumerate [0; 1; 2; 4; 5; 6; 7; 3]) [] = Ret ((true, [3; 4; 5; 6]), Asked 7 9) /\
  c_run_match [RGlob; RBell 4; RBell 5; RBell 6; RBell 7; RAny] (enumerate [0; 1; 4; 5; 6; 7; 2; 3]) [] = Ret ((false, [2; 3; 4; 5]), Asked 7 8) /\
  c_run_match [RGlob; RBell 4; RBell 5; RBell 6; RBell 7; RAny] (enumerate [0; 1; 2; 3; 4; 5; 6; 7]) [] = Ret ((false, [4; 5; 6; 7]), Asked 6 9) /\
  c_run_match [RAny; RGlob; RBell 4; RGlob] (enumerate [0; 4; 1; 2; 3; 5; 6; 7]) [] = Ret ((true, [1]), Asked 5 2).
Proof. splits; vm_compute; reflexivity. Qed.

(** C106: on [n] different rows of one stage the group test multiplies [n * n] times and inverts [n] times if they are a
    group, as documented; otherwise it stops after the first product which is not among them, and has not inverted
    more than [n] rows.  Rows of several stages are refused before the first product. *)
Theorem C106_group_test :
  forall rows set, Forall valid_row rows -> collected_set rows set ->
    let n := length set in
    (forall ok, is_group_set set = Ret (Ok ok) ->
       exists products inverses, c_is_group_set set = Ret (Ok ok, products, inverses) /\
         (ok = true -> products = n * n /\ inverses = n) /\
         (ok = false -> rows <> [] -> 1 <= inverses <= n /\ (inverses - 1) * n < products <= inverses * n)) /\
    (forall e, is_group_set set = Ret (Err e) -> c_is_group_set set = Ret (Err e, 0, 0)) /\
    (exists answer, is_group_set set = Ret answer).
Proof. exact pf_C106_group_test. Qed.
Print Assumptions C106_group_test.

Example C106_group_test_example :
  c_is_group_set [[2; 0; 1]; [0; 1; 2]; [1; 2; 0]] = Ret (Ok true, 9, 3) /\
  c_is_group_set [[0; 1; 2]; [1; 2; 0]] = Ret (Ok false, 3, 2) /\
  c_is_group_set [[0; 1; 2]; [1; 0]] = Ret (Err (IncompatibleStages 3 2), 0, 0).
Proof. splits; vm_compute; reflexivity. Qed.

(** The row "23154" has the cycles 123 and 45: its parity takes nine rounds.  The least group of two rows on four bells
    has 24 rows, and takes 25 rounds. *)
Example C106_example :
  one_of_each_cycle [1; 2; 0; 4; 3] [0; 3] /\
  row_parity 8 [1; 2; 0; 4; 3] = NoFuel /\ row_parity 9 [1; 2; 0; 4; 3] = Ret ([0; 1; 2; 3; 4], Odd) /\
  closure 5 [1; 2; 0; 4; 3] = NoFuel /\ (exists l, closure 6 [1; 2; 0; 4; 3] = Ret l /\ length l = 6) /\
  closure_from_rounds 5 [1; 2; 0; 4; 3] = NoFuel /\ (exists l, closure_from_rounds 6 [1; 2; 0; 4; 3] = Ret l /\ length l = 6) /\
  least_group_containing 24 [[1; 0; 2; 3]; [1; 2; 3; 0]] = NoFuel /\
  (exists set, least_group_containing 25 [[1; 0; 2; 3]; [1; 2; 3; 0]] = Ret (Ok set) /\ length set = 24) /\
  least_group_containing 0 [[1; 0; 2; 3]; [0]] = Ret (Err (IncompatibleStages 4 1)).
Proof.
  splits; try (vm_compute; reflexivity); try (eexists; split; vm_compute; reflexivity).
  assert (W : forall k, follow [1; 2; 0; 4; 3] k 0 = k mod 3).
  { induction k as [|k IH]; auto. cbn [follow]. rewrite IH. pose proof (Nat.mod_upper_bound k 3 ltac:(lia)) as B.
    replace (S k) with (k + 1) by lia. rewrite (Nat.add_mod k 1 3) by lia. destruct (k mod 3) as [|[|[|q]]]; cbn; auto; lia. }
  assert (W' : forall k, follow [1; 2; 0; 4; 3] k 3 = 3 + k mod 2).
  { induction k as [|k IH]; auto. cbn [follow]. rewrite IH. pose proof (Nat.mod_upper_bound k 2 ltac:(lia)) as B.
    replace (S k) with (k + 1) by lia. rewrite (Nat.add_mod k 1 2) by lia. destruct (k mod 2) as [|[|q]]; cbn; auto; lia. }
  split; [|split; [|split]].
  - repeat constructor; cbn; lia.
  - cbn. lia.
  - cbn [length]. intros b B. destruct (Nat.ltb_spec b 3).
    + exists 0. split; [cbn; auto|]. exists b. rewrite W. apply Nat.mod_small. auto.
    + exists 3. split; [cbn; auto|]. exists (b - 3). rewrite W'. rewrite Nat.mod_small; lia.
  - intros x y [<-|[<-|[]]] [<-|[<-|[]]] (k & E); auto; exfalso.
    + rewrite W in E. pose proof (Nat.mod_upper_bound k 3 ltac:(lia)). lia.
    + rewrite W' in E. lia.
Qed.
