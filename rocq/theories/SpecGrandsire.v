(** Specification vocabulary for Grandsire. *)
From Verif Require Import Base PlaceNot SpecHunt.
Local Open Scope list_scope.

(** Grandsire: plain hunting, but for the first change.  In it the bell in third place stays, so that the pair in front changes
    over and the others from the fourth place on; the last bell stays if it is left over. *)
Definition grandsire (n : nat) : list place_not :=
  PlaceNot (if Nat.even n then [2; n - 1] else [2]) n :: tl (concat (repeat (hunting n) n)).
