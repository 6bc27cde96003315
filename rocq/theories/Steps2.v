(** The test for a palindrome once more, with the number of places it compares. *)
From Verif Require Import Base Class.
Local Open Scope list_scope.

(* class.rs 486: [zip] of the turned path with the path, and [all], which stops at the first difference; with the
   number of comparisons *)
Fixpoint c_all_eq (turned path : list nat) : bool * nat :=
  match turned, path with
  | p1 :: turned', p2 :: path' =>
      if p1 =? p2 then let '(ok, n) := c_all_eq turned' path' in (ok, 1 + n) else (false, 1)
  | _, _ => (true, 0)
  end.

(* class.rs 484-491: the loop over [i], which [return]s at the first success.  [cycle] is two copies of the
   reversed path, enough because [i] is less than its length and [zip] stops with the path *)
Fixpoint c_try_rotations (path : list nat) (is : list nat) : bool * nat :=
  match is with
  | [] => (false, 0)
  | i :: is' =>
      let '(ok, n) := c_all_eq (skipn i (rev path ++ rev path)) path in
      if ok then (true, n) else let '(ok', n') := c_try_rotations path is' in (ok', n + n')
  end.

(* class.rs 481-495 *)
Definition c_is_palindromic (path : list nat) : bool * nat := c_try_rotations path (range 0 (length path)).
