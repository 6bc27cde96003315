(** Vocabulary for changes with cover bells. *)
From Verif Require Import Base PlaceNot.
Local Open Scope list_scope.

(** [pn'] is the change [pn] on [s] bells, with a place made by every bell above the stage of [pn]. *)
Definition covered_change (s : nat) (pn pn' : place_not) : Prop :=
  pn_stage pn' = s /\ pn_stage pn <= s /\
  forall p, In p (pn_places pn') <-> In p (pn_places pn) \/ pn_stage pn <= p < s.
