(** Model of /repo/src/bell.rs.  A [Bell] is its 0-based index (bell.rs 23-30); [usize] is
    modelled by unbounded [nat], so overflow of [number] and [+] at [usize::MAX] is in [Machine]. *)
From Verif Require Import Base.

Notation bell := nat (only parsing).

(* bell.rs 19 *)
Definition BELL_NAMES : str := s2l "1234567890ETABCDFGHJKLMNPQRSUVWYZ".

(* bell.rs 57-62 *)
Definition bell_from_name (c : char) : option bell :=
  position (fun x => N.eqb x c) BELL_NAMES.

(* bell.rs 96-98 *)
Definition bell_from_number (n : nat) : option bell :=
  match n with O => None | S i => Some i end.

(* bell.rs 116-119 *)
Definition bell_tenor (stage : nat) : exec bell := unwrap (bell_from_number stage).

(* bell.rs 135 *)
Definition TREBLE : bell := 0.

(* bell.rs 157-159 (the names are ASCII, so bytes and chars coincide) *)
Definition bell_to_char (b : bell) : option char := nth_error BELL_NAMES b.

(* bell.rs 201-203 *)
Definition bell_number (b : bell) : nat := b + 1.

(* bell.rs 229-234; Display (bell.rs 243-247) prints the same *)
Definition bell_name (b : bell) : str :=
  match bell_to_char b with
  | None => (s2l "<" ++ dec (bell_number b) ++ s2l ">")%list
  | Some c => [c]
  end.

(* bell.rs 249-257 *)
Definition bell_add (b : bell) (n : nat) : bell := b + n.

(* bell.rs 265-273: usize subtraction, panics on underflow in overflow-checked builds *)
Definition bell_sub (b : bell) (n : nat) : exec bell := if n <=? b then Ret (b - n) else Panic.
