(** [Regex::run_match] once more, with the number of elements asked of its two iterators, and [Row::is_group]
    with the numbers of rows it multiplies and inverts. *)
From Verif Require Import Base Bell Stage Row Music.
Local Open Scope list_scope.

(** The calls of [next] on the iterator over the elements, and on the iterator over the bells. *)
Record asked := Asked { of_elems : nat; of_bells : nat }.

(* no code of its own: the calls made before and those made after *)
Definition and_then (a b : asked) : asked := Asked (of_elems a + of_elems b) (of_bells a + of_bells b).

(* no code of its own: a result after [a] calls *)
Definition after {A} (a : asked) (m : exec (A * asked)) : exec (A * asked) :=
  '(x, b) <- m;; Ret (x, and_then a b).

(* music.rs 413-430: the inner loop with its calls of [bells.next()] (line 414) *)
Fixpoint c_skip_to (exp_bell : bell) (bells : list (nat * bell)) : option (nat * list (nat * bell)) * nat :=
  match bells with
  | [] => (None, 1)
  | (i, b) :: t =>
      if b =? exp_bell then (Some (i, t), 1) else let '(x, n) := c_skip_to exp_bell t in (x, 1 + n)
  end.

(* music.rs 369-441, with the calls of [regex_elems.next()] (lines 379 and 407) and [bells.next()]
   (lines 382, 401, 414 and 438) *)
Fixpoint c_run_match (es : regex) (bells : list (nat * bell)) (matches : list nat)
  : exec ((bool * list nat) * asked) :=
  match es with
  | [] => Ret ((match bells with [] => true | _ => false end, matches), Asked 1 1)
  | RBell exp_bell :: es' =>
      match bells with
      | (i, b) :: t =>
          if b =? exp_bell then after (Asked 1 1) (c_run_match es' t (matches ++ [i]))
          else Ret ((false, matches), Asked 1 1)
      | [] => Ret ((false, matches), Asked 1 1)
      end
  | RAny :: es' =>
      match bells with
      | [] => Ret ((false, matches), Asked 1 1)
      | _ :: t => after (Asked 1 1) (c_run_match es' t matches)
      end
  | RGlob :: es' =>
      match es' with
      | [] => Ret ((true, matches), Asked 2 0)
      | RBell exp_bell :: es'' =>
          match c_skip_to exp_bell bells with
          | (Some (i, t), n) => after (Asked 2 n) (c_run_match es'' t (matches ++ [i]))
          | (None, n) => Ret ((false, matches), Asked 2 n)
          end
      | _ => Panic
      end
  end.

(* borrowed.rs 780-788: the loop over [a], with the number of products *)
Fixpoint c_is_group_inner (set : list row) (b_inv buf : row) (todo : list row) : exec (row * bool * nat) :=
  match todo with
  | [] => Ret (buf, true, 0)
  | a :: t =>
      buf' <- mul_into_unchecked a b_inv buf;;
      if row_mem buf' set then '(buf'', ok, n) <- c_is_group_inner set b_inv buf' t;; Ret (buf'', ok, 1 + n)
      else Ret (buf', false, 1)
  end.

(* borrowed.rs 778-789: the loop over [b], with the numbers of products and of inverses *)
Fixpoint c_is_group_outer (set : list row) (b_inv buf : row) (todo : list row) : exec (bool * nat * nat) :=
  match todo with
  | [] => Ret (true, 0, 0)
  | b :: t =>
      b_inv' <- inv_into_buf b b_inv;;
      '(buf', ok, n) <- c_is_group_inner set b_inv' buf set;;
      if ok then '(ok', n', k) <- c_is_group_outer set b_inv' buf' t;; Ret (ok', n + n', 1 + k)
      else Ret (false, n, 1)
  end.

(* borrowed.rs 747-792 from line 757 on, with the numbers of products and of inverses; like
   [is_group_set] it starts from the collected set *)
Definition c_is_group_set (set : list row) : exec (result bool incompatible_stages * nat * nat) :=
  match set with
  | [] => Ret (Ok false, 0, 0)
  | _ :: _ =>
      st <- is_group_stages None set;;
      match st with
      | Err e => Ret (Err e, 0, 0)
      | Ok _ => '(ok, n, k) <- c_is_group_outer set (row_rounds 1) (row_rounds 1) set;; Ret (Ok ok, n, k)
      end
  end.
