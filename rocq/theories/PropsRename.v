(** Property theorems C115: patterns read backwards, and with other bells. *)

(* Generated from tools/props/Rename.src; the proofs are in RenameThms.v. *)
From Coq Require Import Permutation.
From Verif Require Import Base Bell Spec Stage Row Utils SameStageVec Block PlaceNot Mask Music SpecMask ListFacts BellFacts RowFacts MulFacts GroupFacts
  SsvFacts BlockFacts ClassFacts MusicFacts MusicFacts2 SymFacts SpecRuns RunFacts SpecRename RenameFacts.
Local Open Scope list_scope.
From Verif Require Import RenameThms.

(** C115: a pattern matches a row exactly when the pattern read backwards matches the row read backwards (which is the
    row times backrounds); the bells it matches stand in the same places, counted from the back. *)
Theorem C115_backwards :
  forall es r, valid_row r ->
    exists es' fs' v places, regex_from_vec es = Ret es' /\ regex_from_vec (rev es) = Ret fs' /\
      row_mul r (row_backrounds (length r)) = Ret (rev r) /\
      regex_matches es' r = Ret v /\ regex_matches fs' (rev r) = Ret v /\
      match_pattern es' r = Ret places /\
      match_pattern fs' (rev r) = Ret (option_map (fun ps => rev (map (fun p => length r - 1 - p) ps)) places).
Proof. exact pf_C115_backwards. Qed.
Print Assumptions C115_backwards.

(** C115: the same for the text of the pattern. *)
Theorem C115_texts_backwards :
  forall t r, valid_row r ->
    exists es fs v, regex_parse t = Ret es /\ regex_parse (rev t) = Ret fs /\
      regex_matches es r = Ret v /\ regex_matches fs (rev r) = Ret v.
Proof. exact pf_C115_texts_backwards. Qed.
Print Assumptions C115_texts_backwards.

(** C115: a pattern matches a row exactly when, with each bell of the pattern replaced by the bell in that place of
    some row [x], it matches the product of [x] and the row; the bells it matches stand in the same places. *)
Theorem C115_other_bells :
  forall x es fs r, valid_row x -> valid_row r -> length x = length r -> Forall2 (renamed x) es fs ->
    exists es' fs' y v places, regex_from_vec es = Ret es' /\ regex_from_vec fs = Ret fs' /\ row_mul x r = Ret y /\
      regex_matches es' r = Ret v /\ regex_matches fs' y = Ret v /\
      match_pattern es' r = Ret places /\ match_pattern fs' y = Ret places.
Proof. exact pf_C115_other_bells. Qed.
Print Assumptions C115_other_bells.

(** C115: neither changes the number of rows which [num_matching_rows] gives. *)
Theorem C115_counts :
  (forall es es' fs' w s, regex_from_vec es = Ret es' -> regex_from_vec (rev es) = Ret fs' ->
     num_matching_rows w fs' s = num_matching_rows w es' s) /\
  (forall x es fs es' fs' w s, Forall2 (renamed x) es fs -> regex_from_vec es = Ret es' -> regex_from_vec fs = Ret fs' ->
     num_matching_rows w fs' s = num_matching_rows w es' s).
Proof. exact pf_C115_counts. Qed.
Print Assumptions C115_counts.

(** C115: a row has as many runs at the front as the row read backwards has at the back, and the other way round, and
    both have as many runs anywhere; and exchanging the first bell with the last, the second with the last but one and so
    on changes none of these numbers. *)
Theorem C115_runs :
  forall r len, valid_row r -> 0 < len ->
    length (matching (runs_front (length r) len) r) = length (matching (runs_back (length r) len) (rev r)) /\
    length (matching (runs_back (length r) len) r) = length (matching (runs_front (length r) len) (rev r)) /\
    length (matching (all_runs (length r) len) r) = length (matching (all_runs (length r) len) (rev r)) /\
    exists y, row_mul (row_backrounds (length r)) r = Ret y /\
      length (matching (runs_front (length r) len) y) = length (matching (runs_front (length r) len) r) /\
      length (matching (runs_back (length r) len) y) = length (matching (runs_back (length r) len) r) /\
      length (matching (all_runs (length r) len) y) = length (matching (all_runs (length r) len) r).
Proof. exact pf_C115_runs. Qed.
Print Assumptions C115_runs.

(** "*5678x" and "x8765*", and "*5682x" for the row "13475682" in place of rounds. *)
Example C115_example :
  exists es fs gs, regex_parse (s2l "*5678x") = Ret es /\ regex_parse (s2l "x8765*") = Ret fs /\ regex_parse (s2l "*5682x") = Ret gs /\
    match_pattern es [0; 1; 2; 4; 5; 6; 7; 3] = Ret (Some [3; 4; 5; 6]) /\
    match_pattern fs [3; 7; 6; 5; 4; 2; 1; 0] = Ret (Some [1; 2; 3; 4]) /\
    Forall2 (renamed [0; 2; 3; 6; 4; 5; 7; 1]) es gs /\
    row_mul [0; 2; 3; 6; 4; 5; 7; 1] [0; 1; 2; 4; 5; 6; 7; 3] = Ret [0; 2; 3; 4; 5; 7; 1; 6] /\
    match_pattern gs [0; 2; 3; 4; 5; 7; 1; 6] = Ret (Some [3; 4; 5; 6]) /\
    length (matching (runs_front 8 4) [4; 5; 6; 7; 3; 1; 2; 0]) = 1 /\ length (matching (runs_back 8 4) [0; 2; 1; 3; 7; 6; 5; 4]) = 1 /\
    length (matching (runs_back 8 4) [4; 5; 6; 7; 3; 1; 2; 0]) = 0.
Proof.
  do 3 eexists. split; [vm_compute; reflexivity|]. split; [vm_compute; reflexivity|]. split; [vm_compute; reflexivity|].
  split; [vm_compute; reflexivity|]. split; [vm_compute; reflexivity|]. split; [|splits; vm_compute; reflexivity].
  repeat (apply Forall2_cons; [constructor; try reflexivity|]). apply Forall2_nil.
Qed.
