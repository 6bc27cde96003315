(** Property theorems C125: room asked for in advance. *)

(* Generated from tools/props/Room.src; the proofs are in RoomThms.v. *)
From Verif Require Import Base Spec ListFacts Bell Stage Row RowFacts MulFacts Utils SameStageVec SpecVec SsvFacts Music Machine Room RoomFacts.
Local Open Scope list_scope.
From Verif Require Import RoomThms.

(** C125: if the bells asked for come to at most [isize::MAX] bytes, [with_capacity] gives an empty buffer of the stage with room for them, in
    every build.  Otherwise it panics with overflow checks; without them it is the remainder of the number of bells that counts. *)
Theorem C125_with_capacity :
  forall w size s capacity, (0 < w)%N -> (0 < size)%N -> 0 < s ->
    exists v, holds v s [] /\
    ((capacity * N.of_nat s * size < 2 ^ (w - 1))%N -> forall ck,
       m_ssv_with_capacity (Build w ck) size s capacity = Ret (v, (capacity * N.of_nat s)%N)) /\
    ((2 ^ (w - 1) <= capacity * N.of_nat s * size)%N -> m_ssv_with_capacity (Build w true) size s capacity = Panic) /\
    (forall bells, bells = ((capacity * N.of_nat s) mod 2 ^ w)%N ->
       ((bells * size < 2 ^ (w - 1))%N -> m_ssv_with_capacity (Build w false) size s capacity = Ret (v, bells)) /\
       ((2 ^ (w - 1) <= bells * size)%N -> m_ssv_with_capacity (Build w false) size s capacity = Panic)).
Proof. exact pf_C125_with_capacity. Qed.
Print Assumptions C125_with_capacity.

(** C125: without overflow checks [with_capacity] may return a buffer without the room asked for. *)
Theorem C125_with_capacity_unchecked_refuted :
  ~ (forall s capacity v room, 0 < s -> (capacity < 2 ^ 64)%N ->
       m_ssv_with_capacity (Build 64 false) 8 s capacity = Ret (v, room) -> (capacity * N.of_nat s <= room)%N).
Proof. exact pf_C125_with_capacity_unchecked_refuted. Qed.
Print Assumptions C125_with_capacity_unchecked_refuted.

(** C125: on a stage whose number of bells fits into a word, the functions which make patterns for runs return no patterns for runs longer than
    the stage, and otherwise the same patterns in every build, unless they ask for more room than [isize::MAX] bytes, when they panic.  Without
    overflow checks it is again the remainder of the room that counts. *)
Theorem C125_runs :
  forall w ck size s len internal, (0 < w)%N -> (0 < size)%N -> (N.of_nat s < 2 ^ w)%N ->
    (s < len -> m_runs_front (Build w ck) size s len = Ret [] /\ m_runs_back (Build w ck) size s len = Ret [] /\
       m_regex_runs (Build w ck) size s len internal = Ret []) /\
    (len <= s -> (N.of_nat (s - 3) * 2 * size < 2 ^ (w - 1))%N ->
       m_runs_front (Build w ck) size s len = Ret (runs_front s len) /\ m_runs_back (Build w ck) size s len = Ret (runs_back s len) /\
       m_regex_runs (Build w ck) size s len internal = Ret (regex_runs s len internal)) /\
    (len <= s -> (2 ^ (w - 1) <= N.of_nat (s - 3) * 2 * size)%N -> ck = true \/ (N.of_nat (s - 3) * 2 < 2 ^ w)%N ->
       m_runs_front (Build w ck) size s len = Panic /\ m_runs_back (Build w ck) size s len = Panic /\
       m_regex_runs (Build w ck) size s len internal = Panic) /\
    (len <= s -> ck = false -> (((N.of_nat (s - 3) * 2) mod 2 ^ w) * size < 2 ^ (w - 1))%N ->
       m_runs_front (Build w ck) size s len = Ret (runs_front s len) /\ m_runs_back (Build w ck) size s len = Ret (runs_back s len) /\
       m_regex_runs (Build w ck) size s len internal = Ret (regex_runs s len internal)).
Proof. exact pf_C125_runs. Qed.
Print Assumptions C125_runs.

(** C125: the room which these functions ask for is enough for the patterns exactly for runs of at least four bells. *)
Theorem C125_room_for_runs :
  forall s len, len <= s -> (length (runs_front s len) <= (s - 3) * 2 <-> 4 <= len) /\ (length (runs_back s len) <= (s - 3) * 2 <-> 4 <= len) /\
    (length (all_runs s len) <= (s - 3) * 2 <-> 4 <= len).
Proof. exact pf_C125_room_for_runs. Qed.
Print Assumptions C125_room_for_runs.

(** On 64 bits: room for 1000 rows of 12 bells is granted, and 2 to the 60 rows are refused; a stage of 2 to the 62 bells is too large for runs. *)
Example C125_example :
  m_ssv_with_capacity (Build 64 true) 8 12 1000 = Ret (Ssv [] 12, 12000%N) /\
  m_ssv_with_capacity (Build 64 false) 8 12 (2 ^ 60) = Panic /\
  m_regex_runs (Build 64 true) 24 6 4 true = Ret (all_runs 6 4) /\ length (all_runs 6 4) = 6 /\
  (2 ^ (64 - 1) <= (2 ^ 62 - 3) * 2 * 24)%N.
Proof. splits; try (vm_compute; reflexivity). vm_compute. discriminate. Qed.
