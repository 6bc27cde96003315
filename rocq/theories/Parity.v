(** Model of /repo/src/parity.rs. *)
From Verif Require Import Base.

(* parity.rs 16-26 *)
Inductive parity := Even | Odd.

(* parity.rs 32-37 *)
Definition parity_from_is_odd (v : bool) : parity := if v then Odd else Even.

(* parity.rs 41-43 *)
Definition parity_from_number (v : nat) : parity := parity_from_is_odd (negb (v mod 2 =? 0)).

(* parity.rs 17: derived PartialEq *)
Definition parity_eqb (a b : parity) : bool :=
  match a, b with Even, Even | Odd, Odd => true | _, _ => false end.

(* parity.rs 47-52 *)
Definition parity_zero_or_one (p : parity) : nat := match p with Even => 0 | Odd => 1 end.

(* parity.rs 56-61 *)
Definition parity_plus_or_minus (p : parity) : N := match p with Even => 43%N | Odd => 45%N end.

(* parity.rs 73-75 *)
Definition parity_mul (a b : parity) : parity := parity_from_is_odd (negb (parity_eqb a b)).
