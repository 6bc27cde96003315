(** Property theorems C144: the swaps of [parity] and the comparisons of the test for a palindrome. *)

(* Generated from tools/props/Swaps.src: the proofs behind PropsSwaps.v. *)
From Verif Require Import Base Spec SpecCycle SpecClass ListFacts Bell Stage Parity Row RowFacts MulFacts ParityFacts CycleFacts EndFacts CostFacts Class Steps2 SwapFacts.
From Verif Require Import RowThms CycleThms.
Local Open Scope list_scope.

Lemma pf_C144_fewest_swaps :
  forall r reps, valid_row r -> one_of_each_cycle r reps ->
    (forall fuel, 2 * length r < fuel ->
       parity_loop fuel r 0 0 = Ret (row_rounds (length r), length r - length reps) /\
       row_parity fuel r = Ret (row_rounds (length r), if Nat.odd (length r - length reps) then Odd else Even)) /\
    swaps_to r (length r - length reps) (row_rounds (length r)) /\
    (forall k, swaps_to r k (row_rounds (length r)) ->
       length r - length reps <= k /\ Nat.odd k = Nat.odd (length r - length reps)) /\
    length r - length reps < length r.
Proof.
  intros r reps V O. pose proof (reps_le r reps O) as Le.
  assert (P : forall fuel, 2 * length r < fuel -> parity_loop fuel r 0 0 = Ret (row_rounds (length r), length r - length reps)).
  { intros fuel F. pose proof (parity_swaps _ r 0 0 reps V ltac:(lia) ltac:(intros; lia) O eq_refl) as E.
    destruct (parity_loop_spec fuel r 0 0 V) as (k & Hk & _); [lia|intros; lia|pose proof (not_home_le r); lia|].
    destruct (Nat.le_gt_cases (S (length r - 0 + (length r - length reps))) fuel) as [G|G]; [|lia].
    assert (M := mono_parity r 0 0 _ fuel G). cbv beta in M. rewrite E in M. rewrite M; auto. discriminate. }
  assert (W : swaps_to r (length r - length reps) (row_rounds (length r))).
  { destruct (parity_loop_spec (S (2 * length r)) r 0 0 V) as (k & Hk & Hs); [lia|intros; lia|pose proof (not_home_le r); lia|].
    rewrite P in Hk by lia. injection Hk as Hk. cbn [Nat.add] in Hk. rewrite Hk. auto. }
  splits.
  - intros fuel F. split; auto. apply pf_C99_parity_by_cycles; auto.
  - exact W.
  - intros k K. split; [eapply fewest; eauto|].
    pose proof (sgn_swaps _ _ _ (valid_row_NoDup r V) K) as A. pose proof (sgn_swaps _ _ _ (valid_row_NoDup r V) W) as B.
    rewrite rounds_seq, sgn_rounds, xorb_false_r in A, B. congruence.
  - assert (0 < length reps); [|pose proof (valid_row_pos r V); lia]. destruct O as (_ & _ & C & _).
    destruct (C 0 (valid_row_pos r V)) as (x & X & _). destruct reps; [destruct X|cbn; lia].
Qed.

Lemma pf_C144_palindromes_are_quadratic :
  forall path, fst (c_is_palindromic path) = is_palindromic path /\
    snd (c_is_palindromic path) <= length path * length path.
Proof.
  intros path. unfold c_is_palindromic, is_palindromic. destruct (c_try_ok path (range 0 (length path))) as [A B].
  { intros i I. unfold range in I. apply in_seq in I. lia. }
  split; auto. unfold range in B at 2. rewrite seq_length, Nat.sub_0_r in B. auto.
Qed.
