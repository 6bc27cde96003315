(** Specification vocabulary for the cycles of a row.  It talks about plain lists and numbers only. *)
From Verif Require Import Base.
Local Open Scope list_scope.

(** Start at place [b], and [k] times go to the place numbered by the bell found in the place. *)
Fixpoint follow (r : list nat) (k b : nat) : nat :=
  match k with
  | O => b
  | S k' => nth (follow r k' b) r 0
  end.

(** [k] is the first time (after the start) at which the walk from [b] is back at [b]. *)
Definition cycle_length (r : list nat) (b k : nat) : Prop :=
  0 < k /\ follow r k b = b /\ forall j, 0 < j < k -> follow r j b <> b.

(** [n] is the least common multiple of the cycle lengths of all the bells of [r]. *)
Definition lcm_of_cycles (r : list nat) (n : nat) : Prop :=
  (forall b k, b < length r -> cycle_length r b k -> Nat.divide k n) /\
  (forall m, (forall b k, b < length r -> cycle_length r b k -> Nat.divide k m) -> Nat.divide n m).

(** [x] and [y] are on the same cycle. *)
Definition same_cycle (r : list nat) (x y : nat) : Prop := exists k, follow r k x = y.

(** One bell of each cycle: every bell is on the cycle of exactly one of them. *)
Definition one_of_each_cycle (r : list nat) (reps : list nat) : Prop :=
  NoDup reps /\ (forall x, In x reps -> x < length r) /\
  (forall b, b < length r -> exists x, In x reps /\ same_cycle r x b) /\
  (forall x y, In x reps -> In y reps -> same_cycle r x y -> x = y).
