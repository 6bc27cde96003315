(** Property theorems C99: the cycles of a row. *)

(* Generated from tools/props/Cycle.src; the proofs are in CycleThms.v. *)
From Coq Require Import Factorial.
From Verif Require Import Base Bell Stage Parity Row Utils SameStageVec Block PlaceNot Spec SpecVec SpecBlock SpecPn ListFacts
  BellFacts RowFacts MulFacts ParityFacts GroupFacts GroupFacts2 SsvFacts BlockFacts LawFacts LawFacts2 LawFacts3
  Class SpecClass Method SpecMethod SpecCycle CycleFacts.
From Verif Require Import MethodThms.
Local Open Scope list_scope.
From Verif Require Import CycleThms.

(** C99: every bell is on a cycle, whose length is at most the number of bells; the [k]-th power of a row
    takes each bell [k] steps along its cycle, so it brings the bell home exactly when the length of the
    bell's cycle divides [k]. *)
Theorem C99_every_bell_comes_home :
  forall r b, valid_row r -> b < length r ->
    exists c, cycle_length r b c /\ c <= length r /\
      forall k p, pow_u r k = Ret p -> nth_error p b = Some (follow r k b) /\ (nth_error p b = Some b <-> Nat.divide c k).
Proof. exact pf_C99_every_bell_comes_home. Qed.
Print Assumptions C99_every_bell_comes_home.

(** C99: the number of rows in the closure of a row is the least common multiple of the lengths of the
    cycles of its bells, so it divides the factorial of the number of bells. *)
Theorem C99_the_order_is_the_lcm_of_the_cycles :
  forall r, valid_row r ->
    (forall fuel l, closure fuel r = Ret l -> lcm_of_cycles r (length l) /\ Nat.divide (length l) (fact (length r))) /\
    (forall fuel l, closure_from_rounds fuel r = Ret l -> lcm_of_cycles r (length l)) /\
    (forall fuel, fact (length r) < fuel -> exists l, closure fuel r = Ret l) /\
    (forall n m, lcm_of_cycles r n -> lcm_of_cycles r m -> n = m).
Proof. exact pf_C99_the_order_is_the_lcm_of_the_cycles. Qed.
Print Assumptions C99_the_order_is_the_lcm_of_the_cycles.

(** C99: the parity of a row is odd exactly when the number of bells less the number of cycles is odd,
    however one bell of each cycle is picked; and one can always be picked. *)
Theorem C99_parity_by_cycles :
  forall r, valid_row r ->
    (exists reps, one_of_each_cycle r reps) /\
    (forall reps fuel, one_of_each_cycle r reps -> 2 * length r < fuel ->
       row_parity fuel r = Ret (row_rounds (length r), if Nat.odd (length r - length reps) then Odd else Even)).
Proof. exact pf_C99_parity_by_cycles. Qed.
Print Assumptions C99_parity_by_cycles.

(** C99: a row carried over by another row (first undo [a], then do [r], then do [a]) has the cycles of the
    first with the bells renamed, hence the same order. *)
Theorem C99_conjugates :
  forall a r ar ai c, valid_row a -> valid_row r ->
    row_mul a r = Ret ar -> row_inv a = Ret ai -> row_mul ar ai = Ret c ->
    (forall b k, b < length r -> (cycle_length c (nth b a 0) k <-> cycle_length r b k)) /\
    (forall n, lcm_of_cycles c n <-> lcm_of_cycles r n) /\
    (forall fuel fuel' l l', closure fuel r = Ret l -> closure fuel' c = Ret l' -> length l = length l').
Proof. exact pf_C99_conjugates. Qed.
Print Assumptions C99_conjugates.

(** C99: the plain course of a method whose lead starts at rounds has as many leads as the least common
    multiple of the cycles of its lead head. *)
Theorem C99_plain_course :
  forall m s ars lo, block_holds (first_lead m) s ars lo -> is_identity (hd [] (all_rows_of ars lo)) ->
    (forall fuel, fact s <= fuel -> exists pc, plain_course fuel m = Ret pc) /\
    forall fuel pc, plain_course fuel m = Ret pc ->
      exists n, lcm_of_cycles lo n /\ block_len pc = n * lead_len m.
Proof. exact pf_C99_plain_course. Qed.
Print Assumptions C99_plain_course.

(** The row "23154" has a cycle of three bells and one of two; its order is six and it is odd. *)
Example C99_witness :
  valid_row [1; 2; 0; 4; 3] /\ cycle_length [1; 2; 0; 4; 3] 0 3 /\ cycle_length [1; 2; 0; 4; 3] 4 2 /\
  one_of_each_cycle [1; 2; 0; 4; 3] [0; 3] /\ (exists l, closure 7 [1; 2; 0; 4; 3] = Ret l /\ length l = 6) /\
  row_parity 11 [1; 2; 0; 4; 3] = Ret ([0; 1; 2; 3; 4], Odd).
Proof.
  assert (W : forall k, follow [1; 2; 0; 4; 3] k 0 = k mod 3).
  { induction k as [|k IH]; auto. cbn [follow]. rewrite IH. pose proof (Nat.mod_upper_bound k 3 ltac:(lia)) as B.
    replace (S k) with (k + 1) by lia. rewrite (Nat.add_mod k 1 3) by lia. destruct (k mod 3) as [|[|[|q]]]; cbn; auto; lia. }
  assert (W' : forall k, follow [1; 2; 0; 4; 3] k 3 = 3 + k mod 2).
  { induction k as [|k IH]; auto. cbn [follow]. rewrite IH. pose proof (Nat.mod_upper_bound k 2 ltac:(lia)) as B.
    replace (S k) with (k + 1) by lia. rewrite (Nat.add_mod k 1 2) by lia. destruct (k mod 2) as [|[|q]]; cbn; auto; lia. }
  split; [vr|]. split; [|split; [|split; [|split; [|vm_compute; reflexivity]]]].
  - split; [lia|]. split; [reflexivity|]. intros j J. rewrite W. rewrite Nat.mod_small; lia.
  - split; [lia|]. split; [reflexivity|]. intros j J. replace j with 1 by lia. cbn. lia.
  - split; [|split; [|split]].
    + repeat constructor; cbn; lia.
    + cbn. lia.
    + cbn [length]. intros b B. destruct (Nat.ltb_spec b 3).
      * exists 0. split; [cbn; auto|]. exists b. rewrite W. apply Nat.mod_small. auto.
      * exists 3. split; [cbn; auto|]. exists (b - 3). rewrite W'. rewrite Nat.mod_small; lia.
    + intros x y [<-|[<-|[]]] [<-|[<-|[]]] (k & E); auto; exfalso.
      * rewrite W in E. pose proof (Nat.mod_upper_bound k 3 ltac:(lia)). lia.
      * rewrite W' in E. lia.
  - eexists. split; vm_compute; reflexivity.
Qed.
