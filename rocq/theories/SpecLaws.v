(** Specification vocabulary for the laws which relate several functions. *)
From Verif Require Import Base Bell Spec PlaceNot SpecPn.
Local Open Scope list_scope.

(** A text for a list of changes: each is written as it is displayed, in order; spaces and dots may stand
    anywhere between them, and must do so between two changes neither of which is a cross. *)
Inductive written_out : list place_not -> list N -> Prop :=
| wo_end : written_out [] []
| wo_delimiter c pns t : is_delimiter_char c -> written_out pns t -> written_out pns (c :: t)
| wo_cross s pns t : written_out pns t -> written_out (PlaceNot [] s :: pns) (pn_display (PlaceNot [] s) ++ t)
| wo_places pn pns t : ends_word t -> written_out pns t -> written_out (pn :: pns) (pn_display pn ++ t).

(** The changes with a dot between each two. *)
Fixpoint with_dots (pns : list place_not) : list N :=
  match pns with
  | [] => []
  | [pn] => pn_display pn
  | pn :: t => pn_display pn ++ s2l "." ++ with_dots t
  end.

(** No comma and no [+]: the text of one part, as written before the mirror image is added. *)
Definition plain_text (t : list N) : Prop := ~ In comma t /\ forall c, In c t -> ~ is_plus_char c.
