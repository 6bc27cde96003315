(** Specification vocabulary for counting the music of some rows. *)
From Verif Require Import Base Mask Music.
Local Open Scope list_scope.

(** How many of the rows the mask matches, and how many the regex does. *)
Definition mask_tally (m : list (option nat)) (rows : list (list nat)) : nat :=
  length (filter (fun r => match mask_matches m r with Ret true => true | _ => false end) rows).
Definition regex_tally (es : list regex_elem) (rows : list (list nat)) : nat :=
  length (filter (fun r => match regex_matches es r with Ret true => true | _ => false end) rows).
