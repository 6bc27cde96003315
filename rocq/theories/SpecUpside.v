(** Specification vocabulary for changes rung upside down. *)
From Verif Require Import Base Spec PlaceNot.
Local Open Scope list_scope.

(** The same change with the places counted from the back. *)
Definition upside_down (pn pn' : place_not) : Prop :=
  pn_stage pn' = pn_stage pn /\
  forall p, In p (pn_places pn') <-> exists q, In q (pn_places pn) /\ p + q + 1 = pn_stage pn.

(** The same row of [s] bells with the places and the bells both counted from the back. *)
Definition row_upside_down (s : nat) (r r' : list nat) : Prop :=
  length r = s /\ length r' = s /\
  forall p q b c, p + q + 1 = s -> b + c + 1 = s -> (nth_error r p = Some b <-> nth_error r' q = Some c).
