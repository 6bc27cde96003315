(** Specification vocabulary for the bells which a call affects. *)
From Verif Require Import Base PlaceNot.
Local Open Scope list_scope.

(** The change takes the bell in place [p] to place [q]: this is where bell [p] stands in the row made
    from rounds. *)
Definition takes (pn : place_not) (p q : nat) : Prop :=
  exists t, pn_transposition pn = Ret t /\ nth_error t q = Some p.

(** Both changes take the bell in place [p] to the same place. *)
Definition same_move (pn pn' : place_not) (p : nat) : Prop := exists q, takes pn p q /\ takes pn' p q.
