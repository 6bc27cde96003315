(** Specification vocabulary for touches: blocks put together one after another. *)
From Verif Require Import Base Block.
Local Open Scope list_scope.

(** Extending [b] by each of the blocks in turn succeeds and gives [t]. *)
Inductive put_together {A} : block A -> list (block A) -> block A -> Prop :=
| pt_end b : put_together b [] b
| pt_next b x b' xs t : block_extend b x = Ret (b', Ok tt) -> put_together b' xs t -> put_together b (x :: xs) t.
