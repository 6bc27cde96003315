(** Specification vocabulary for iterators: what a list of items would answer. *)
From Verif Require Import Base Adapters.
Local Open Scope list_scope.

Definition last_item {A} (l : list A) : option A := nth_error (rev l) 0.

(** The answers of the list: items from both ends, and how many are left. *)
Fixpoint list_answers {A} (l : list A) (qs : list question) : list (answer A) :=
  match qs with
  | [] => []
  | Next :: t => Item (hd_error l) :: list_answers (tl l) t
  | NextBack :: t => Item (last_item l) :: list_answers (removelast l) t
  | SizeHint :: t => Sizes (length l) (Some (length l)) :: list_answers l t
  | Len :: t => Size (length l) :: list_answers l t
  end.

(** Asked any of the questions in [allowed], in any order and number, the iterator gives the answers
    of the list. *)
Definition like_list {X A} (allowed : list question) (I : iter_ops X A) (s : X) (l : list A) : Prop :=
  forall qs, incl qs allowed -> ask I s qs = Ret (list_answers l qs).

(** Iterators which can be used from the front only, from both ends, from both ends with their
    length, and as the standard traits ask. *)
Definition forward : list question := [Next].
Definition both_ends : list question := [Next; NextBack].
Definition sized : list question := [Next; NextBack; Len].
Definition exact_size : list question := [Next; NextBack; SizeHint; Len].

(** The items with their indices, counted from [c]. *)
Definition indexed {A} (c : nat) (l : list A) : list (nat * A) := combine (seq c (length l)) l.

(** A hint [(lower, upper)] about the number of items is true of [n] items; and it gives an upper bound of at most [u]. *)
Definition true_hint (h : nat * option nat) (n : nat) : Prop := fst h <= n /\ forall u, snd h = Some u -> n <= u.
Definition at_most (h : nat * option nat) (u : nat) : Prop := exists x, snd h = Some x /\ x <= u.
