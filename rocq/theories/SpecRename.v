(** Specification vocabulary for patterns with other bells. *)
From Verif Require Import Base Spec Music.
Local Open Scope list_scope.

(** The same element, with the bell in place [b] of [x] for bell [b]. *)
Inductive renamed (x : list nat) : regex_elem -> regex_elem -> Prop :=
| renamed_bell b c : nth_error x b = Some c -> renamed x (RBell b) (RBell c)
| renamed_any : renamed x RAny RAny
| renamed_glob : renamed x RGlob RGlob.
