(** Model of /repo/src/utils.rs. *)
From Verif Require Import Base Bell.
Local Open Scope list_scope.

(* utils.rs 11-18: [tuple_windows().take_while(|i1 - i2| == 1).count()] over bell indices *)
Fixpoint run_windows (l : list bell) : nat :=
  match l with
  | i1 :: ((i2 :: _) as t) =>
      if (Z.abs (Z.of_nat i1 - Z.of_nat i2) =? 1)%Z then S (run_windows t) else 0
  | _ => 0
  end.

(* utils.rs 11-18 *)
Definition run_len (l : list bell) : nat := run_windows l + 1.

(* utils.rs 22-35: the two ends of the resulting [Range] ([v + 1] does not wrap here) *)
Definition clamp_range (lo hi : bound) (length_ : nat) : nat * nat :=
  let min := match lo with Included v => v | Excluded v => v + 1 | Unbounded => 0 end in
  let max := match hi with Included v => v + 1 | Excluded v => v | Unbounded => length_ end in
  (min, max).

(* utils.rs 38-47 *)
Definition split_vec {A} (l : list A) (index : nat) : option (list A * list A) :=
  if length l <? index then None else Some (firstn index l, skipn index l).

(* utils.rs 73-77: the loop over [1..=k] on a [w]-bit machine; [denominator *= i] is unchecked in
   release builds, and panics on overflow in debug builds (modelled as [Panic]) *)
Fixpoint choice_loop (w n k : N) (i : nat) (todo : nat) (numerator denominator : N)
  : exec (option (N * N)) :=
  match todo with
  | O => Ret (Some (numerator, denominator))
  | S todo' =>
      let numerator' := (numerator * (n - k + N.of_nat i))%N in
      if (numerator' <? 2 ^ w)%N then
        let denominator' := (denominator * N.of_nat i)%N in
        if (denominator' <? 2 ^ w)%N
        then choice_loop w n k (S i) todo' numerator' denominator'
        else Panic
      else Ret None
  end.

(* utils.rs 50-79; [n - k] panics when [k > n] (debug builds) *)
Definition choice (w n k : N) : exec (option N) :=
  if (n <? k)%N then Panic
  else
    let k' := N.min k (n - k) in
    r <- choice_loop w n k' 1 (N.to_nat k') 1 1;;
    match r with
    | None => Ret None
    | Some (numerator, denominator) => Ret (Some (numerator / denominator)%N)
    end.
