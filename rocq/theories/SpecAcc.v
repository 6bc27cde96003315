(** Specification vocabulary for histories of an accumulator ([RowAccumulator]). *)
From Verif Require Import Base Spec Stage Row.
Local Open Scope list_scope.

Inductive acc_op :=
| PutAfter (r : list nat)     (* accumulate *)
| PutBefore (r : list nat)    (* pre_accumulate *)
| SetTo (r : list nat).       (* set *)

Definition acc_row (o : acc_op) : list nat := match o with PutAfter r | PutBefore r | SetTo r => r end.

(** From the total [t] the calls lead to the totals listed, each with [None] if the call succeeds
    and the left and right stages of the product if it does not, when the total stays as it is. *)
Inductive acc_history : list nat -> list acc_op -> list (list nat * option (nat * nat)) -> Prop :=
| ah_end t : acc_history t [] []
| ah_after t r t' ops log : length t = length r -> composition t r t' -> acc_history t' ops log ->
    acc_history t (PutAfter r :: ops) ((t', None) :: log)
| ah_after_bad t r ops log : length t <> length r -> acc_history t ops log ->
    acc_history t (PutAfter r :: ops) ((t, Some (length t, length r)) :: log)
| ah_before t r t' ops log : length r = length t -> composition r t t' -> acc_history t' ops log ->
    acc_history t (PutBefore r :: ops) ((t', None) :: log)
| ah_before_bad t r ops log : length r <> length t -> acc_history t ops log ->
    acc_history t (PutBefore r :: ops) ((t, Some (length r, length t)) :: log)
| ah_set t r ops log : acc_history r ops log -> acc_history t (SetTo r :: ops) ((r, None) :: log).

(** Driving the model: what the user reads after each call, and the error returned by it. *)
Definition reported (res : result unit incompatible_stages) : option (nat * nat) :=
  match res with Ok _ => None | Err e => Some (lhs_stage e, rhs_stage e) end.
Definition acc_call (a : accumulator) (o : acc_op) : exec (accumulator * result unit incompatible_stages) :=
  match o with
  | PutAfter r => acc_accumulate a r
  | PutBefore r => acc_pre_accumulate a r
  | SetTo r => Ret (acc_set a r, Ok tt)
  end.
Fixpoint acc_calls (a : accumulator) (ops : list acc_op) : exec (list (list nat * option (nat * nat))) :=
  match ops with
  | [] => Ret []
  | o :: t =>
      '(a', res) <- acc_call a o;;
      log <- acc_calls a' t;;
      Ret ((acc_total a', reported res) :: log)
  end.
