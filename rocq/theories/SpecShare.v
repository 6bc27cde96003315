(** Specification for C153: the bells on the cycle of a bell. *)
From Verif Require Import Base SpecCycle.
Local Open Scope list_scope.

(** Bell [x] is one of the [k] bells to which the first [k] steps along [r] lead from [b]. *)
Definition on_cycle (r : list nat) (b k x : nat) : bool := existsb (fun j => follow r j b =? x) (seq 0 k).
