(** How many changes there are on a stage: each place from the lead on is either made or swaps with the next one. *)
From Verif Require Import Base.

Fixpoint number_of_changes (s : nat) : nat :=
  match s with
  | O => 1
  | S m => match m with O => 1 | S k => number_of_changes m + number_of_changes k end
  end.
