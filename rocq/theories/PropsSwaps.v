(** Property theorems C144: the swaps of [parity] and the comparisons of the test for a palindrome. *)

(* Generated from tools/props/Swaps.src; the proofs are in SwapsThms.v. *)
From Verif Require Import Base Spec SpecCycle SpecClass ListFacts Bell Stage Parity Row RowFacts MulFacts ParityFacts CycleFacts EndFacts CostFacts Class Steps2 SwapFacts.
From Verif Require Import RowThms CycleThms.
Local Open Scope list_scope.
From Verif Require Import SwapsThms.

(** C144: [parity] puts the bells in their places with as few swaps as anybody could: one less than the number of its
    bells for each cycle of the row.  No sequence of swaps which ends in rounds is shorter, and all have the same
    parity. *)
Theorem C144_fewest_swaps :
  forall r reps, valid_row r -> one_of_each_cycle r reps ->
    (forall fuel, 2 * length r < fuel ->
       parity_loop fuel r 0 0 = Ret (row_rounds (length r), length r - length reps) /\
       row_parity fuel r = Ret (row_rounds (length r), if Nat.odd (length r - length reps) then Odd else Even)) /\
    swaps_to r (length r - length reps) (row_rounds (length r)) /\
    (forall k, swaps_to r k (row_rounds (length r)) ->
       length r - length reps <= k /\ Nat.odd k = Nat.odd (length r - length reps)) /\
    length r - length reps < length r.
Proof. exact pf_C144_fewest_swaps. Qed.
Print Assumptions C144_fewest_swaps.

(** C144: the test for a palindrome compares no more places than the square of the length of the path, and gives its
    answer: whether some turn of the reversed path is the path. *)
Theorem C144_palindromes_are_quadratic :
  forall path, fst (c_is_palindromic path) = is_palindromic path /\
    snd (c_is_palindromic path) <= length path * length path.
Proof. exact pf_C144_palindromes_are_quadratic. Qed.
Print Assumptions C144_palindromes_are_quadratic.

(** The row "23154" has two cycles: three swaps, and no fewer.  The path of a treble in a lead of Plain Bob on three bells
    is recognised at the first turn; a path of five rows which is no palindrome takes seven comparisons. *)
Example C144_example :
  one_of_each_cycle [1; 2; 0; 4; 3] [0; 3] /\ parity_loop 11 [1; 2; 0; 4; 3] 0 0 = Ret ([0; 1; 2; 3; 4], 3) /\
  c_is_palindromic [0; 1; 2; 2; 1; 0] = (true, 6) /\ c_is_palindromic [0; 1; 3; 2; 0] = (false, 7).
Proof.
  split; [|splits; vm_compute; reflexivity]. unfold one_of_each_cycle. splits.
  - constructor; [intros [H|[]]; discriminate|]. constructor; [intros []|]. constructor.
  - intros x [<-|[<-|[]]]; cbn; lia.
  - intros b B. cbn in B. destruct b as [|[|[|[|[|b]]]]]; [exists 0|exists 0|exists 0|exists 3|exists 3|lia]; (split; [cbn; auto|]);
      [exists 0|exists 1|exists 2|exists 0|exists 1]; reflexivity.
  - assert (F : forall k, follow [1; 2; 0; 4; 3] k 0 < 3 /\ 3 <= follow [1; 2; 0; 4; 3] k 3 < 5).
    { induction k as [|k [A B]]; [cbn; lia|]. cbn [follow].
      destruct (follow [1; 2; 0; 4; 3] k 0) as [|[|[|x]]]; try lia; destruct (follow [1; 2; 0; 4; 3] k 3) as [|[|[|[|[|y]]]]]; try lia; cbn; lia. }
    intros x y [<-|[<-|[]]] [<-|[<-|[]]] [k K]; auto; specialize (F k); lia.
Qed.
