(** Vocabulary for rows with bells and places renamed. *)
From Verif Require Import Base.
Local Open Scope list_scope.

(** [r'] is the row [r] with every bell and every place [i] renamed to [x[i]]: where [r] has the bell [b] in
    the place [p], [r'] has the bell [x[b]] in the place [x[p]]. *)
Definition renamed (x r r' : list nat) : Prop :=
  length x = length r /\ length r' = length r /\
  forall p b q c, nth_error r p = Some b -> nth_error x p = Some q -> nth_error x b = Some c -> nth_error r' q = Some c.
