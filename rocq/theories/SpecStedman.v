(** Specification vocabulary for Stedman. *)
From Verif Require Import Base PlaceNot.
Local Open Scope list_scope.

(** Stedman on an odd number [n] of bells: the front three bells ring a six (all six orders of three bells) by making third
    place and lead by turns, while the others dodge in pairs; then every pair from the front changes over and the last bell
    stays.  Two sixes, one in which lead comes after thirds and one in which it comes before, make a lead; by custom it is
    begun in the middle of a six. *)
Definition stedman (n : nat) : list place_not :=
  let thirds := PlaceNot [2] n in let lead := PlaceNot [0] n in let last := PlaceNot [n - 1] n in
  [thirds; lead; last; thirds; lead; thirds; lead; thirds; last; lead; thirds; lead].
