(** Specification vocabulary for changes which go round the same circle. *)
From Verif Require Import Base.
Local Open Scope list_scope.

(** Written round a circle, the two lists are the same, perhaps starting at another place, perhaps going the
    other way round. *)
Definition same_circle {X} (l l' : list X) : Prop :=
  exists a b, l = a ++ b /\ (l' = b ++ a \/ l' = rev (b ++ a)).
