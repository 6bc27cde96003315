(** Property theorems C104: how many rows of a stage fit masks and patterns for runs. *)

(* Generated from tools/props/Extent.src; the proofs are in ExtentThms.v. *)
From Verif Require Import Base Bell Spec Stage Row Utils SameStageVec Block PlaceNot Mask Music SpecMask SpecVec SpecBlock ListFacts BellFacts RowFacts MulFacts GroupFacts
  SsvFacts BlockFacts ClassFacts MaskFacts MaskFacts2 MusicFacts MusicFacts2 SymFacts SpecRuns RunFacts ExtentFacts.
From Verif Require Import MaskThms MusicThms RunsThms.
Local Open Scope list_scope.
From Verif Require Import ExtentThms.

(** C104: a mask which specifies bells of its stage, each at most once, matches as many rows as there are orders of the
    bells it leaves open; any other mask matches no row. *)
Theorem C104_rows_which_a_mask_matches :
  forall m, m <> [] ->
    (each_bell_once m -> (forall p b, specifies m p b -> b < length m) ->
     there_are (fact (length (mask_unspecified_places m))) (fun r => valid_row r /\ mask_matches m r = Ret true)) /\
    (~ each_bell_once m \/ (exists p b, specifies m p b /\ length m <= b) ->
     there_are 0 (fun r => valid_row r /\ mask_matches m r = Ret true)).
Proof. exact pf_C104_rows_which_a_mask_matches. Qed.
Print Assumptions C104_rows_which_a_mask_matches.

(** C104: each pattern for a run at one end is matched by as many rows as there are orders of the other bells; each
    pattern for a run anywhere by as many as there are orders of the other bells and the run. *)
Theorem C104_rows_which_a_run_pattern_matches :
  forall s len es, 1 <= len <= s ->
    (In es (runs_front s len) \/ In es (runs_back s len) ->
     there_are (fact (s - len)) (fun r => valid_row r /\ length r = s /\ regex_matches es r = Ret true)) /\
    (In es (all_runs s len) ->
     there_are (fact (s - len + 1)) (fun r => valid_row r /\ length r = s /\ regex_matches es r = Ret true)).
Proof. exact pf_C104_rows_which_a_run_pattern_matches. Qed.
Print Assumptions C104_rows_which_a_run_pattern_matches.

(** C104: so over all the rows of a stage, taken once each, these are the numbers of runs which are counted. *)
Theorem C104_runs_in_the_extent :
  forall s len l, 2 <= len <= s -> NoDup l -> (forall r, In r l <-> valid_row r /\ length r = s) ->
    length l = fact s /\
    list_sum (map (fun r => length (matching (runs_front s len) r)) l) = 2 * fact (s - len + 1) /\
    list_sum (map (fun r => length (matching (runs_back s len) r)) l) = 2 * fact (s - len + 1) /\
    list_sum (map (fun r => length (matching (regex_runs s len false) r)) l) = 4 * fact (s - len + 1) /\
    list_sum (map (fun r => length (matching (regex_runs s len true) r)) l) = 2 * (s - len + 1) * fact (s - len + 1).
Proof. exact pf_C104_runs_in_the_extent. Qed.
Print Assumptions C104_runs_in_the_extent.

Example C104_example :
  there_are 24 (fun r => valid_row r /\ mask_matches (mask_parse (s2l "xx56xx78")) r = Ret true) /\
  length (matching (regex_runs 3 2 true) [0; 1; 2]) = 2 /\
  (exists l, NoDup l /\ length l = 720 /\ (forall r, In r l <-> valid_row r /\ length r = 6) /\
     list_sum (map (fun r => length (matching (regex_runs 6 4 false) r)) l) = 24 /\
     list_sum (map (fun r => length (matching (regex_runs 6 4 true) r)) l) = 36).
Proof.
  splits; [|vm_compute; reflexivity|].
  - apply (pf_C104_rows_which_a_mask_matches (mask_parse (s2l "xx56xx78"))); [discriminate|..].
    + apply NoDup_once. vm_compute. repeat constructor; cbn; intuition discriminate.
    + intros p b. do 8 (destruct p as [|p]; [vm_compute; intros [= <-] || discriminate; lia|]). destruct p; discriminate.
  - destruct (count_one_glob [RGlob] 6) as (l & L & N & I); try (cbn; lia); try constructor.
    assert (H : forall r, In r l <-> valid_row r /\ length r = 6).
    { intros r. rewrite I. split; [tauto|]. intros [V Lr]. splits; auto. apply described_globend. }
    destruct (pf_C104_runs_in_the_extent 6 4 l ltac:(lia) N H) as (E & _ & _ & A & B).
    exists l. rewrite A, B, E. splits; trivial; vm_compute; reflexivity.
Qed.
