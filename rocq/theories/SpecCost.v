(** Specification vocabulary for the number of rounds taken by the loops of the API. *)
From Verif Require Import Base.
Local Open Scope list_scope.

(** [f k] is a computation whose loop is cut off after [k] rounds.  Its loop takes [n] rounds: it is cut
    short when fewer are allowed, and only then. *)
Definition takes {A} (f : nat -> exec A) (n : nat) : Prop := forall k, f k = NoFuel <-> k < n.
