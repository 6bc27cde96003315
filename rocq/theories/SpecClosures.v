(** Specification vocabulary for code of the caller: the calls made to it. *)
From Verif Require Import Base Unwind.
Local Open Scope list_scope.

Section Calls.
Context {W X Y : Type} (f : X -> W -> outcome W Y).

(** Called for each of [xs], one after the other and once each, [f] returns the [ys] and takes the world
    from [w] to [w']. *)
Inductive called : list X -> W -> list Y -> W -> Prop :=
| called_none w : called [] w [] w
| called_next x xs w y ys w' w'' : f x w = Done w' y -> called xs w' ys w'' -> called (x :: xs) w (y :: ys) w''.

(** The same, but after returning the [ys] it panics, with some of [xs] left. *)
Inductive interrupted : list X -> W -> list Y -> W -> Prop :=
| interrupted_now x xs w w' : f x w = Unwound w' -> interrupted (x :: xs) w [] w'
| interrupted_later x xs w y ys w' w'' :
    f x w = Done w' y -> interrupted xs w' ys w'' -> interrupted (x :: xs) w (y :: ys) w''.
End Calls.
