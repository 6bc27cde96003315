(** The room which calls ask for in advance, on machine words.  [Vec::with_capacity] panics ("capacity overflow") if the
    room comes to more than [isize::MAX] bytes; the room is multiplied out before that, with the arithmetic of the build.

    Simplifications: the sizes of the elements in bytes are parameters; a request which fits is granted exactly, although
    [Vec] may give more; a machine which has not got the memory aborts, which is not modelled. *)
From Verif Require Import Base Bell Stage Row Utils SameStageVec Music Machine.
Local Open Scope list_scope.

Section Room.
Context (bd : build).

(* [Vec::with_capacity], same_stage_vec.rs 84, music.rs 159, 191, 223 *)
Definition m_room (size n : N) : exec N := if (n * size <? 2 ^ (width bd - 1))%N then Ret n else Panic.

(* same_stage_vec.rs 82-87: the buffer, and the room for bells which it has *)
Definition m_ssv_with_capacity (size : N) (s : stage) (capacity : N) : exec (ssv * N) :=
  n <- word bd (capacity * N.of_nat s);; room <- m_room size n;; Ret (Ssv [] s, room).

(* music.rs 163, 195, 227: the bells of a run *)
Definition m_run_iterator (i len : nat) : exec (list regex_elem) :=
  e <- word bd (N.of_nat i + N.of_nat len);; Ret (map RBell (range i (N.to_nat e))).

(* music.rs 153-181, 185-213 and 217-252, which differ in the two patterns they make of a run *)
Definition m_runs (patterns : list regex_elem -> list regex) (size : N) (s : stage) (len : nat) : exec (list regex) :=
  if s <? len then Ret []
  else
    n <- word bd (N.of_nat (s - 3) * 2);; _ <- m_room size n;;
    runs <- mapM (fun i => r <- m_run_iterator i len;; Ret (patterns r)) (range 0 (s - len + 1));;
    Ret (concat runs).

(* music.rs 153-181 *)
Definition m_runs_front : N -> stage -> nat -> exec (list regex) := m_runs (fun r => [r ++ [RGlob]; rev r ++ [RGlob]]).
(* music.rs 185-213 *)
Definition m_runs_back : N -> stage -> nat -> exec (list regex) := m_runs (fun r => [[RGlob] ++ r; [RGlob] ++ rev r]).
(* music.rs 217-252 *)
Definition m_all_runs : N -> stage -> nat -> exec (list regex) :=
  m_runs (fun r => [[RGlob] ++ r ++ [RGlob]; [RGlob] ++ rev r ++ [RGlob]]).
(* music.rs 256-261 *)
Definition m_runs_front_or_back (size : N) (s : stage) (len : nat) : exec (list regex) :=
  front <- m_runs_front size s len;; back <- m_runs_back size s len;; Ret (front ++ back).
(* music.rs 265-271 *)
Definition m_regex_runs (size : N) (s : stage) (len : nat) (internal : bool) : exec (list regex) :=
  if internal then m_all_runs size s len else m_runs_front_or_back size s len.
End Room.
