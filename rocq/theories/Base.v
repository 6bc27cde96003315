(** Shared vocabulary of the model: outcomes of Rust computations, slices, strings.
    Nothing in this file models a particular function of /repo; it models the Rust
    constructs that every module of /repo/src uses. *)
From Coq Require Export String Ascii NArith ZArith Arith Bool Lia List Permutation.
From Coq Require Import DecimalString Nat.
Export ListNotations.

(** ** Outcomes

    [Ret a]  - the Rust code returns [a];
    [Panic]  - the Rust code panics (failed unwrap/assert, index out of range, ...);
    [Ub]     - the contract of an [unsafe] unchecked access is violated;
    [NoFuel] - the model's loop bound was too small (never a Rust outcome: each theorem about
               a fuelled function shows it cannot occur once the bound is large enough). *)
(* no code of its own: the ways in which a call in /repo can end; get_unchecked is at borrowed.rs 138, loops without a bound at borrowed.rs 148, 599, 638, 731, class.rs 514 and method/mod.rs 160 *)
Inductive exec (A : Type) : Type :=
| Ret (a : A)
| Panic
| Ub
| NoFuel.
Arguments Ret {A} a.
Arguments Panic {A}.
Arguments Ub {A}.
Arguments NoFuel {A}.

(* no code of its own: the sequence of two statements, and [?] on a panic *)
Definition bind {A B : Type} (m : exec A) (f : A -> exec B) : exec B :=
  match m with
  | Ret a => f a
  | Panic => Panic
  | Ub => Ub
  | NoFuel => NoFuel
  end.

Notation "x <- m ;; k" := (bind m (fun x => k))
  (at level 61, m at next level, right associativity).
Notation "' p <- m ;; k" := (bind m (fun x => match x with p => k end))
  (at level 61, p pattern, m at next level, right associativity).
Notation "m ;;; k" := (bind m (fun _ => k))
  (at level 61, right associativity).

(** Rust's [Result]. *)
(* core::result::Result, used all through /repo (e.g. borrowed.rs 422) *)
Inductive result (A E : Type) : Type :=
| Ok (a : A)
| Err (e : E).
Arguments Ok {A E} a.
Arguments Err {A E} e.

(** [Result::unwrap] / [expect] and [Option::unwrap] / [expect]. *)
(* e.g. borrowed.rs 491, 1022, block.rs 331, place_not.rs 641 *)
Definition unwrap_res {A E} (r : result A E) : exec A :=
  match r with Ok a => Ret a | Err _ => Panic end.
(* e.g. block.rs 217, borrowed.rs 600, method_lib/mod.rs 47 *)
Definition unwrap {A} (o : option A) : exec A :=
  match o with Some a => Ret a | None => Panic end.

(** [assert!(b)]. *)
(* e.g. block.rs 106, owned.rs 352 and 389, class.rs 508; [debug_assert!] at same_stage_vec.rs 158, 250 *)
Definition assert_ (b : bool) : exec unit := if b then Ret tt else Panic.

(** ** Slices and vectors *)

(** [xs[i]]: panics when out of range. *)
(* e.g. borrowed.rs 316, 365, same_stage_vec.rs 310, 326 *)
Definition idx {A} (l : list A) (i : nat) : exec A :=
  match nth_error l i with Some x => Ret x | None => Panic end.

(** [xs.get_unchecked(i)]: undefined behaviour when out of range. *)
(* borrowed.rs 138 *)
Definition idx_unchecked {A} (l : list A) (i : nat) : exec A :=
  match nth_error l i with Some x => Ret x | None => Ub end.

(** Overwriting one element; out of range leaves the list unchanged (only used behind a
    bounds check, see [set_idx]). *)
(* see [set_idx] *)
Fixpoint upd {A} (l : list A) (i : nat) (x : A) : list A :=
  match l, i with
  | [], _ => []
  | _ :: t, O => x :: t
  | h :: t, S j => h :: upd t j x
  end.

(** [xs[i] = x]: panics when out of range. *)
(* e.g. borrowed.rs 390, 428, 472, class.rs 523 *)
Definition set_idx {A} (l : list A) (i : nat) (x : A) : exec (list A) :=
  if i <? length l then Ret (upd l i x) else Panic.

(** [&xs[a..b]]: panics when [a > b] or [b > xs.len()]. *)
(* e.g. same_stage_vec.rs 308, 402 *)
Definition slice {A} (l : list A) (a b : nat) : exec (list A) :=
  if (a <=? b) && (b <=? length l) then Ret (firstn (b - a) (skipn a l)) else Panic.

(** [iter.map(f).collect()] where [f] may panic: elements are computed left to right. *)
(* e.g. borrowed.rs 316, mask.rs 304 *)
Fixpoint mapM {A B} (f : A -> exec B) (l : list A) : exec (list B) :=
  match l with
  | [] => Ret []
  | x :: t => y <- f x;; ys <- mapM f t;; Ret (y :: ys)
  end.

(** A [for] loop whose body may panic, threading the mutable state. *)
(* e.g. owned.rs 344-350, place_not.rs 639-643 *)
Fixpoint foldM {A S} (f : S -> A -> exec S) (l : list A) (s : S) : exec S :=
  match l with
  | [] => Ret s
  | x :: t => s' <- f s x;; foldM f t s'
  end.

(** [iter.enumerate()] starting at [n]. *)
(* e.g. borrowed.rs 176, 195, 220, 389 *)
Fixpoint enumerate_from {A} (n : nat) (l : list A) : list (nat * A) :=
  match l with
  | [] => []
  | x :: t => (n, x) :: enumerate_from (S n) t
  end.
(* e.g. borrowed.rs 176, 195, 220, 389 *)
Definition enumerate {A} (l : list A) : list (nat * A) := enumerate_from 0 l.

(** [iter.position(p)]. *)
(* bell.rs 60, borrowed.rs 128, class.rs 514, mask.rs 137, 227 *)
Fixpoint position {A} (p : A -> bool) (l : list A) : option nat :=
  match l with
  | [] => None
  | x :: t => if p x then Some 0 else option_map S (position p t)
  end.

(** [iter.filter_map(f)]. *)
(* owned.rs 59, 91, place_not.rs 115, music.rs 69, mask.rs 28 *)
Fixpoint filter_map {A B} (f : A -> option B) (l : list A) : list B :=
  match l with
  | [] => []
  | x :: t => match f x with Some y => y :: filter_map f t | None => filter_map f t end
  end.

(** [(a..b)] as an iterator. *)
(* e.g. owned.rs 105, same_stage_vec.rs 325, music.rs 163 *)
Definition range (a b : nat) : list nat := seq a (b - a).

(** Derived [PartialEq] of slices of bells. *)
(* derived at borrowed.rs 58 and owned.rs 20; used e.g. at borrowed.rs 735 *)
Fixpoint list_eqb (a b : list nat) : bool :=
  match a, b with
  | [], [] => true
  | x :: s, y :: t => (x =? y) && list_eqb s t
  | _, _ => false
  end.

(** ** Text

    A [char] is a Unicode scalar value, a [&str] the list of its chars. *)
Notation char := N (only parsing).
Notation str := (list N) (only parsing).

(* a literal, e.g. stage.rs 146-165 *)
Fixpoint s2l (s : string) : str :=
  match s with
  | EmptyString => []
  | String a t => N_of_ascii a :: s2l t
  end.

(** [char::len_utf8]. *)
(* used by [str::len], place_not.rs 109, bell.rs 363 *)
Definition utf8_len (c : char) : nat :=
  if (c <? 128)%N then 1 else if (c <? 2048)%N then 2 else if (c <? 65536)%N then 3 else 4.

(** [str::len]: length in bytes. *)
(* place_not.rs 109, bell.rs 363 *)
Definition byte_len (s : str) : nat := fold_right (fun c n => utf8_len c + n) 0 s.

(* [PartialEq] of [str], e.g. method/mod.rs 194, stage.rs 110 *)
Fixpoint str_eqb (a b : str) : bool :=
  match a, b with
  | [], [] => true
  | x :: s, y :: t => (x =? y)%N && str_eqb s t
  | _, _ => false
  end.

(** [format!("{}", n)] for an unsigned integer. *)
(* bell.rs 231, and the numbers in the messages of the errors, e.g. row/errors.rs 34-48 *)
Definition dec (n : nat) : str := s2l (NilEmpty.string_of_uint (Nat.to_uint n)).

(** ** Range arguments: [impl RangeBounds<usize>] *)
(* utils.rs 22, same_stage_vec.rs 303, 319, block.rs 316, 341 *)
Inductive bound := Included (n : nat) | Excluded (n : nat) | Unbounded.
