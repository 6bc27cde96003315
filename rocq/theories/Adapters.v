(** Iterators as their users see them: /repo/src/row/same_stage_vec.rs 435-481 ([Iter], with the
    methods of the standard traits which it does not define left at their defaults) inside the
    adapters of the standard library.  The adapters are external: they are written out as in the
    sources of the standard library, for any iterator inside them. *)
From Verif Require Import Base Bell Stage Row SameStageVec.
Local Open Scope list_scope.

(** What [Iterator], [DoubleEndedIterator] and [ExactSizeIterator] ask for. *)
(* core::iter, used by callers around same_stage_vec.rs 435-481 *)
Record iter_ops (X A : Type) := IterOps {
  next : X -> exec (option A * X);
  next_back : X -> exec (option A * X);
  size_hint : X -> exec (nat * option nat);
  len : X -> exec nat }.
Arguments IterOps {X A} next next_back size_hint len.
Arguments next {X A} i s.
Arguments next_back {X A} i s.
Arguments size_hint {X A} i s.
Arguments len {X A} i s.

(** [Iterator::size_hint] when it is not defined *)
(* core::iter, used by callers around same_stage_vec.rs 435-481 *)
Definition default_size_hint {X : Type} (s : X) : exec (nat * option nat) := Ret (0, None).

(** [ExactSizeIterator::len] when it is not defined: the two sizes must agree *)
(* core::iter, used by callers around same_stage_vec.rs 435-481 *)
Definition default_len {X} (size_hint : X -> exec (nat * option nat)) (s : X) : exec nat :=
  '(lower, upper) <- size_hint s;;
  match upper with
  | Some u => assert_ (u =? lower);;; Ret lower
  | None => Panic
  end.

(* same_stage_vec.rs 435-481: there is no [size_hint] *)
Definition rows_iter : iter_ops ssv_iter row := IterOps it_next it_next_back default_size_hint it_len.

Section Adapters.
Context {X A : Type} (I : iter_ops X A).

(** [Iterator::nth]: drops [n] items; stops when there are no more *)
(* core::iter, used by callers around same_stage_vec.rs 435-481 *)
Fixpoint iter_nth (n : nat) (s : X) : exec (option A * X) :=
  match n with
  | O => next I s
  | S n' => '(o, s') <- next I s;; match o with None => Ret (None, s') | Some _ => iter_nth n' s' end
  end.

(** [DoubleEndedIterator::nth_back] *)
(* core::iter, used by callers around same_stage_vec.rs 435-481 *)
Fixpoint iter_nth_back (n : nat) (s : X) : exec (option A * X) :=
  match n with
  | O => next_back I s
  | S n' => '(o, s') <- next_back I s;; match o with None => Ret (None, s') | Some _ => iter_nth_back n' s' end
  end.

(** [Iterator::rposition]: counts down from [len] *)
(* core::iter, used by callers around same_stage_vec.rs 435-481 *)
Fixpoint rposition_loop (fuel : nat) (p : A -> bool) (i : nat) (s : X) : exec (option nat) :=
  match fuel with
  | O => NoFuel
  | S fuel' =>
      '(o, s') <- next_back I s;;
      match o with
      | None => Ret None
      | Some x =>
          assert_ (1 <=? i);;;
          if p x then Ret (Some (i - 1)) else rposition_loop fuel' p (i - 1) s'
      end
  end.
(* core::iter, used by callers around same_stage_vec.rs 435-481 *)
Definition rposition (p : A -> bool) (s : X) : exec (option nat) :=
  n <- len I s;; rposition_loop (S n) p n s.

(** [Iterator::rev] *)
(* core::iter, used by callers around same_stage_vec.rs 435-481 *)
Definition rev_iter : iter_ops X A := IterOps (next_back I) (next I) (size_hint I) (len I).

(** [Iterator::map] *)
(* core::iter, used by callers around same_stage_vec.rs 435-481 *)
Definition map_iter {B} (f : A -> B) : iter_ops X B :=
  let on r := '(o, s') <- r;; Ret (option_map f o, s') in
  IterOps (fun s => on (next I s)) (fun s => on (next_back I s)) (size_hint I) (len I).

(** [Iterator::enumerate]: the state holds how many items were taken from the front *)
(* core::iter, used by callers around same_stage_vec.rs 435-481 *)
Definition enumerate_next (st : X * nat) : exec (option (nat * A) * (X * nat)) :=
  let (s, count) := st in
  '(o, s') <- next I s;;
  match o with
  | None => Ret (None, (s', count))
  | Some a => Ret (Some (count, a), (s', count + 1))
  end.
(* core::iter, used by callers around same_stage_vec.rs 435-481 *)
Definition enumerate_next_back (st : X * nat) : exec (option (nat * A) * (X * nat)) :=
  let (s, count) := st in
  '(o, s') <- next_back I s;;
  match o with
  | None => Ret (None, (s', count))
  | Some a => n <- len I s';; Ret (Some (count + n, a), (s', count))
  end.
(* core::iter, used by callers around same_stage_vec.rs 435-481 *)
Definition enumerate_iter : iter_ops (X * nat) (nat * A) :=
  IterOps enumerate_next enumerate_next_back (fun st => size_hint I (fst st)) (fun st => len I (fst st)).

(** [Iterator::take]: the state holds how many items may still be given *)
(* core::iter, used by callers around same_stage_vec.rs 435-481 *)
Definition take_size_hint (st : X * nat) : exec (nat * option nat) :=
  let (s, n) := st in
  if n =? 0 then Ret (0, Some 0)
  else
    '(lower, upper) <- size_hint I s;;
    Ret (Nat.min lower n, match upper with Some x => if x <? n then Some x else Some n | None => Some n end).
(* core::iter, used by callers around same_stage_vec.rs 435-481 *)
Definition take_next (st : X * nat) : exec (option A * (X * nat)) :=
  let (s, n) := st in
  match n with
  | O => Ret (None, st)
  | S n' => '(o, s') <- next I s;; Ret (o, (s', n'))
  end.
(* core::iter, used by callers around same_stage_vec.rs 435-481 *)
Definition take_next_back (st : X * nat) : exec (option A * (X * nat)) :=
  let (s, n) := st in
  match n with
  | O => Ret (None, st)
  | S n' => l <- len I s;; '(o, s') <- iter_nth_back (l - n) s;; Ret (o, (s', n'))
  end.
(* core::iter, used by callers around same_stage_vec.rs 435-481 *)
Definition take_iter : iter_ops (X * nat) A :=
  IterOps take_next take_next_back take_size_hint (default_len take_size_hint).

(** [Iterator::skip]: the state holds how many items are still to be dropped *)
(* core::iter, used by callers around same_stage_vec.rs 435-481 *)
Definition skip_size_hint (st : X * nat) : exec (nat * option nat) :=
  let (s, n) := st in
  '(lower, upper) <- size_hint I s;; Ret (lower - n, option_map (fun x => x - n) upper).
(* core::iter, used by callers around same_stage_vec.rs 435-481 *)
Definition skip_next (st : X * nat) : exec (option A * (X * nat)) :=
  let (s, n) := st in
  '(o, s') <- (match n with O => next I s | S _ => iter_nth n s end);; Ret (o, (s', 0)).
(* core::iter, used by callers around same_stage_vec.rs 435-481 *)
Definition skip_next_back (st : X * nat) : exec (option A * (X * nat)) :=
  l <- default_len skip_size_hint st;;
  if 0 <? l then '(o, s') <- next_back I (fst st);; Ret (o, (s', snd st)) else Ret (None, st).
(* core::iter, used by callers around same_stage_vec.rs 435-481 *)
Definition skip_iter : iter_ops (X * nat) A :=
  IterOps skip_next skip_next_back skip_size_hint (default_len skip_size_hint).
End Adapters.

Section Zip.
Context {X A Y B : Type} (I : iter_ops X A) (J : iter_ops Y B).

(* core::iter, used by callers around same_stage_vec.rs 435-481 *)
Definition zip_size_hint (st : X * Y) : exec (nat * option nat) :=
  '(l1, u1) <- size_hint I (fst st);;
  '(l2, u2) <- size_hint J (snd st);;
  Ret (Nat.min l1 l2,
       match u1, u2 with
       | Some x, Some y => Some (Nat.min x y)
       | Some x, None => Some x
       | None, Some y => Some y
       | None, None => None
       end).
(* core::iter, used by callers around same_stage_vec.rs 435-481 *)
Definition zip_next (st : X * Y) : exec (option (A * B) * (X * Y)) :=
  let (s, t) := st in
  '(o, s') <- next I s;;
  match o with
  | None => Ret (None, (s', t))
  | Some a =>
      '(o', t') <- next J t;;
      match o' with
      | None => Ret (None, (s', t'))
      | Some b => Ret (Some (a, b), (s', t'))
      end
  end.
(** [for _ in 0..n { iter.next_back(); }] *)
(* core::iter, used by callers around same_stage_vec.rs 435-481 *)
Fixpoint drop_back {U V} (K : iter_ops U V) (n : nat) (s : U) : exec U :=
  match n with
  | O => Ret s
  | S n' => '(_, s') <- next_back K s;; drop_back K n' s'
  end.
(** The longer one is shortened first. *)
(* core::iter, used by callers around same_stage_vec.rs 435-481 *)
Definition zip_next_back (st : X * Y) : exec (option (A * B) * (X * Y)) :=
  let (s, t) := st in
  n <- len I s;; m <- len J t;;
  s1 <- drop_back I (n - m) s;; t1 <- drop_back J (m - n) t;;
  '(o, s2) <- next_back I s1;; '(o', t2) <- next_back J t1;;
  match o, o' with
  | Some a, Some b => Ret (Some (a, b), (s2, t2))
  | None, None => Ret (None, (s2, t2))
  | _, _ => Panic
  end.
(* core::iter, used by callers around same_stage_vec.rs 435-481 *)
Definition zip_iter : iter_ops (X * Y) (A * B) :=
  IterOps zip_next zip_next_back zip_size_hint (default_len zip_size_hint).
End Zip.

(** ** Use of an iterator *)

(* no code in /repo: what a caller may ask of an iterator *)
Inductive question := Next | NextBack | SizeHint | Len.
(* no code in /repo: what a caller may ask of an iterator *)
Inductive answer (A : Type) := Item (o : option A) | Sizes (lower : nat) (upper : option nat) | Size (n : nat).
Arguments Item {A} o.
Arguments Sizes {A} lower upper.
Arguments Size {A} n.

(** The answers to questions asked one after the other. *)
(* no code in /repo: the caller *)
Fixpoint ask {X A} (I : iter_ops X A) (s : X) (qs : list question) : exec (list (answer A)) :=
  match qs with
  | [] => Ret []
  | q :: t =>
      '(a, s') <- (match q with
                   | Next => '(o, s') <- next I s;; Ret (Item o, s')
                   | NextBack => '(o, s') <- next_back I s;; Ret (Item o, s')
                   | SizeHint => '(lower, upper) <- size_hint I s;; Ret (Sizes lower upper, s)
                   | Len => n <- len I s;; Ret (Size n, s)
                   end);;
      l <- ask I s' t;; Ret (a :: l)
  end.
