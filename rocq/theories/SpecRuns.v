(** Specification vocabulary for counting with patterns. *)
From Verif Require Import Base Music.
Local Open Scope list_scope.

(** The patterns of the list which the row matches, each as often as it is in the list. *)
Definition matching (ps : list (list regex_elem)) (r : list nat) : list (list regex_elem) :=
  filter (fun es => match regex_matches es r with Ret true => true | _ => false end) ps.
