(** Property theorems C103: each run of at least two bells is counted once. *)

(* Generated from tools/props/Runs.src; the proofs are in RunsThms.v. *)
From Verif Require Import Base Bell Spec Stage Row Utils SameStageVec Block PlaceNot Mask Music SpecMask SpecVec SpecBlock ListFacts BellFacts RowFacts MulFacts GroupFacts
  SsvFacts BlockFacts ClassFacts MusicFacts MusicFacts2 SymFacts SpecRuns RunFacts.
Local Open Scope list_scope.
From Verif Require Import RunsThms.

(** C103: of the patterns for runs anywhere, a row matches as many as there are places where a run starts. *)
Theorem C103_runs_anywhere :
  forall r len, valid_row r -> 2 <= len ->
    exists ps, NoDup ps /\ (forall p, In p ps <-> run_at r p len) /\
      length (matching (all_runs (length r) len) r) = length ps /\
      length (matching (regex_runs (length r) len true) r) = length ps.
Proof. exact pf_C103_runs_anywhere. Qed.
Print Assumptions C103_runs_anywhere.

(** C103: of those for runs at the front, it matches one if it starts with a run, and none otherwise; likewise at the
    back; and the two are counted together for runs at the front or back. *)
Theorem C103_runs_at_the_ends :
  forall r len, valid_row r -> 2 <= len ->
    (run_at r 0 len -> length (matching (runs_front (length r) len) r) = 1) /\
    (~ run_at r 0 len -> matching (runs_front (length r) len) r = []) /\
    (len <= length r -> run_at r (length r - len) len -> length (matching (runs_back (length r) len) r) = 1) /\
    (len <= length r -> ~ run_at r (length r - len) len -> matching (runs_back (length r) len) r = []) /\
    (length r < len -> matching (runs_back (length r) len) r = []) /\
    length (matching (regex_runs (length r) len false) r) =
      length (matching (runs_front (length r) len) r) + length (matching (runs_back (length r) len) r).
Proof. exact pf_C103_runs_at_the_ends. Qed.
Print Assumptions C103_runs_at_the_ends.

(** C103: so on [len] bells a row of a run is counted twice for runs at the front or back. *)
Theorem C103_whole_rows_are_counted_at_both_ends :
  forall r, valid_row r -> 2 <= length r -> run_at r 0 (length r) ->
    length (matching (regex_runs (length r) (length r) false) r) = 2 /\
    length (matching (regex_runs (length r) (length r) true) r) = 1.
Proof. exact pf_C103_whole_rows_are_counted_at_both_ends. Qed.
Print Assumptions C103_whole_rows_are_counted_at_both_ends.

(** With runs of one bell it would be false: each pattern is there twice. *)
Theorem C103_single_bells_refuted :
  ~ (forall r len, valid_row r -> 1 <= len -> run_at r 0 len -> length (matching (runs_front (length r) len) r) = 1).
Proof. exact pf_C103_single_bells_refuted. Qed.
Print Assumptions C103_single_bells_refuted.

Example C103_example :
  valid_row [4; 5; 6; 7; 3; 2; 1; 0] /\ length (matching (all_runs 8 4) [4; 5; 6; 7; 3; 2; 1; 0]) = 2 /\
  length (matching (all_runs 8 3) [4; 5; 6; 7; 3; 2; 1; 0]) = 4 /\ length (matching (regex_runs 8 4 false) [4; 5; 6; 7; 3; 2; 1; 0]) = 2.
Proof. splits; [vr|vm_compute; reflexivity..]. Qed.
