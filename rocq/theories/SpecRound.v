(** Specification vocabulary for touches of plain and called leads, and for the common bob of Grandsire. *)
From Verif Require Import Base PlaceNot SpecHunt SpecGrandsire.
Local Open Scope list_scope.

(** The changes of a touch: for each lead, whether it is called. *)
Definition touch_of (plain called : list place_not) (calls : list bool) : list place_not :=
  concat (map (fun c : bool => if c then called else plain) calls).

(** A bobbed lead of Grandsire on an odd number of bells: in the last but one change the third place is made, and not the last one. *)
Definition grandsire_bob (n : nat) : list place_not :=
  firstn (2 * n - 2) (grandsire n) ++ [PlaceNot [2] n; PlaceNot [0] n].
