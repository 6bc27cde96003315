(** Specification vocabulary for the texts written by the API.  Texts are lists of character codes. *)
From Verif Require Import Base.
Local Open Scope list_scope.

(** One line of printable ASCII characters (codes 32 to 126). *)
Definition one_line (t : list N) : Prop := Forall (fun c => 32 <= c <= 126)%N t.

(** The same, without spaces. *)
Definition no_spaces (t : list N) : Prop := Forall (fun c => 33 <= c <= 126)%N t.
