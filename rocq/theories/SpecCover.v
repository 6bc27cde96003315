(** Vocabulary for rows with cover bells. *)
From Verif Require Import Base.
Local Open Scope list_scope.

(** [x'] is the row [x] on [s] bells, with the bells above its stage ringing behind in their own places. *)
Definition covered (s : nat) (x x' : list nat) : Prop :=
  length x' = s /\ firstn (length x) x' = x /\ forall i, length x <= i < s -> nth_error x' i = Some i.
