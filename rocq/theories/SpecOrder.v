(** Vocabulary for what the order in which hash maps are iterated over may change. *)
From Verif Require Import Base Bell Stage Class Method Library.
Local Open Scope list_scope.

(** Two groups of methods with the same heading and the same methods, as often but perhaps in another order. *)
Definition same_group (g h : method_group) : Prop :=
  g_stage g = g_stage h /\ g_is_jump g = g_is_jump h /\ g_is_little g = g_is_little h /\
  g_is_differential g = g_is_differential h /\ g_class_id g = g_class_id h /\
  Permutation (g_methods g) (g_methods h).

(** Two compact forms which differ only in the order of the groups and in the orders inside the groups. *)
Definition same_but_for_order (c d : list method_group) : Prop :=
  exists c', Permutation c c' /\ Forall2 same_group c' d.
