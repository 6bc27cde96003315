(** Specification of the histories of an accumulator: [accumulated a t] says that calls made [a] from a row or from rounds, and
    that [t] is what the rows given to those calls come to. *)
From Verif Require Import Base Spec SpecVec Stage Row.
Local Open Scope list_scope.

Inductive accumulated : accumulator -> list nat -> Prop :=
| acd_new t a : valid_row t -> acc_new t = Ret a -> accumulated a t
| acd_rounds s a : 0 < s -> acc_rounds s = Ret a -> accumulated a (seq 0 s)
| acd_after a t r a' : accumulated a t -> valid_row r -> length r = length t ->
    acc_accumulate a r = Ret (a', Ok tt) -> accumulated a' (row_product t r)
| acd_before a t r a' : accumulated a t -> valid_row r -> length r = length t ->
    acc_pre_accumulate a r = Ret (a', Ok tt) -> accumulated a' (row_product r t)
| acd_operator a t r a' : accumulated a t -> valid_row r -> length r = length t ->
    acc_mul_assign a r = Ret a' -> accumulated a' (row_product t r)
| acd_refused a t r a' res : accumulated a t -> valid_row r -> length r <> length t ->
    (acc_accumulate a r = Ret (a', res) \/ acc_pre_accumulate a r = Ret (a', res)) -> accumulated a' t
| acd_set a t r : accumulated a t -> valid_row r -> accumulated (acc_set a r) r.
