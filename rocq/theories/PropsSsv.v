(** Property theorems C23 to C29: buffers of rows of one stage. *)

(* Generated from tools/props/Ssv.src; the proofs are in SsvThms.v. *)
From Verif Require Import Base Bell Stage Row Utils SameStageVec Spec SpecVec ListFacts BellFacts
  RowFacts MulFacts GroupFacts SsvFacts SsvFacts2.
Local Open Scope list_scope.
From Verif Require Import SsvThms.

(** C23: any history of calls which stays within the contract ([vec_run] is defined) runs without
    panicking on the buffer, returns exactly what the same calls on a plain list of rows would
    return, and leaves a buffer whose iteration is that list of (valid) rows. *)
Theorem C23_same_stage_vec_is_a_list_of_rows :
  forall s ops rs outs, 0 < s -> Forall vec_op_args_valid ops ->
    vec_run s [] ops = Some (rs, outs) ->
    exists v, ssv_run (ssv_new s) ops = Ret (v, outs) /\ holds v s rs.
Proof. exact pf_C23_same_stage_vec_is_a_list_of_rows. Qed.
Print Assumptions C23_same_stage_vec_is_a_list_of_rows.

(** C23: the same from any buffer that holds rows already, for instance one which was parsed. *)
Theorem C23_histories_from_any_buffer :
  forall v s rs0 ops rs outs, holds v s rs0 -> Forall vec_op_args_valid ops ->
    vec_run s rs0 ops = Some (rs, outs) ->
    exists v', ssv_run v ops = Ret (v', outs) /\ holds v' s rs.
Proof. exact pf_C23_histories_from_any_buffer. Qed.
Print Assumptions C23_histories_from_any_buffer.

(** C23: indexing is the call that panics, exactly when the index is out of range. *)
Theorem C23_index_panics_out_of_range :
  forall v s rs i, holds v s rs ->
    (forall r, nth_error rs i = Some r -> ssv_index v i = Ret r) /\
    (length rs <= i -> ssv_index v i = Panic).
Proof. exact pf_C23_index_panics_out_of_range. Qed.
Print Assumptions C23_index_panics_out_of_range.

Example C23_history :
  let ops := [VPush [1; 0; 2]; VPush [0; 1]; VExtend [[2; 1; 0]; [0; 1; 2]]; VExtend [[2; 1; 0]; [0]];
              VPreMultiply [2; 0; 1]; VExtendTransposedFromWithin (Included 1) (Excluded 3) [1; 2; 0];
              VSwapInRow 4 0 2; VSplitKeepRight 1; VPop; VLen; VGet 1; VLast; VPathOf 2] in
  Forall vec_op_args_valid ops /\ exists rs outs, vec_run 3 [] ops = Some (rs, outs) /\ length rs = 3.
Proof.
  split.
  - repeat (apply Forall_cons; [cbn [vec_op_args_valid]; repeat (apply Forall_cons); try apply Forall_nil; try exact I; vr|]). apply Forall_nil.
  - vm_compute. eauto.
Qed.

(** C24: an operation that reports incompatible stages returns the buffer it was given, and the
    error carries the stages; this includes [extend] with rows of the right stage before the wrong
    one. *)
Theorem C24_failed_operations_change_nothing :
  forall v s rs, holds v s rs ->
    (forall r, valid_row r -> length r <> s ->
       ssv_push v r = Ret (v, Err (IncompatibleStages s (length r)))) /\
    (forall good bad rest, Forall valid_row good -> Forall (fun r => length r = s) good ->
       Forall valid_row (bad :: rest) -> length bad <> s ->
       ssv_extend v (good ++ bad :: rest) = Ret (v, Err (IncompatibleStages s (length bad)))) /\
    (forall w s' rs', holds w s' rs' -> s' <> s ->
       ssv_extend_from_buf v w = (v, Err (IncompatibleStages s s'))) /\
    (forall t w lo hi, valid_row t -> length t <> s ->
       ssv_extend_range_transposed v t w lo hi = Ret (v, Err (IncompatibleStages s (length t))) /\
       ssv_extend_transposed v t w = Ret (v, Err (IncompatibleStages s (length t))) /\
       ssv_extend_transposed_from_within v lo hi t = Ret (v, Err (IncompatibleStages s (length t))) /\
       ssv_pre_multiply v t = Ret (v, Err (IncompatibleStages (length t) s)) /\
       ssv_pre_multiplied v t = Ret (Err (IncompatibleStages s (length t)))).
Proof. exact pf_C24_failed_operations_change_nothing. Qed.
Print Assumptions C24_failed_operations_change_nothing.

Example C24_partial_extend_is_undone :
  exists v, ssv_build 3 [[0; 1; 2]] = Ret v /\
    ssv_extend v [[2; 1; 0]; [0; 1]; [0; 2; 1]] = Ret (v, Err (IncompatibleStages 3 2)).
Proof. vm_compute. eauto. Qed.

(** C25: however [next] and [next_back] are interleaved, the iterator yields what a double-ended
    queue of the rows would; [len] is the number of rows that remain. *)
Theorem C25_iterator_is_a_deque :
  forall v s rs sched, holds v s rs ->
    exists outs it rest, iter_run (ssv_iterator v) sched = Ret (outs, it) /\
      deque_run rs sched = (outs, rest) /\
      it_len it = Ret (length rest) /\
      taken true sched outs ++ rest ++ rev (taken false sched outs) = rs /\
      (rest = [] -> it_next it = Ret (None, it) /\ it_next_back it = Ret (None, it)).
Proof. exact pf_C25_iterator_is_a_deque. Qed.
Print Assumptions C25_iterator_is_a_deque.

Example C25_interleaved :
  exists v, ssv_build 2 [[0; 1]; [1; 0]; [0; 1]] = Ret v /\
    iter_run (ssv_iterator v) [false; true; true; false] =
    Ret ([Some [0; 1]; Some [0; 1]; Some [1; 0]; None], SsvIter [] 2).
Proof. vm_compute. eauto. Qed.

(** C26: the path of a bell lists the only place of the bell in each row; [None] exactly for a bell
    outside the stage. *)
Theorem C26_paths :
  forall v s rs b, holds v s rs ->
    (b < s -> exists p, ssv_path_of v b = Ret (Some p) /\
       Forall2 (fun r i => forall j, nth_error r j = Some b <-> j = i) rs p) /\
    (s <= b -> ssv_path_of v b = Ret None).
Proof. exact pf_C26_paths. Qed.
Print Assumptions C26_paths.

Example C26_path : exists v, ssv_build 4 [[0; 1; 2; 3]; [1; 0; 3; 2]; [1; 3; 0; 2]] = Ret v /\
  ssv_path_of v 0 = Ret (Some [0; 1; 2]) /\ ssv_path_of v 4 = Ret None.
Proof. vm_compute. eauto. Qed.

(** C27: splitting cuts the rows at the index, and joining the parts restores the buffer. *)
Theorem C27_split :
  forall v s rs i, holds v s rs ->
    (length rs < i <-> ssv_split v i = None) /\
    (i <= length rs -> exists a b, ssv_split v i = Some (a, b) /\
       holds a s (firstn i rs) /\ holds b s (skipn i rs) /\ length (firstn i rs) = i /\
       ssv_extend_from_buf a b = (v, Ok tt)).
Proof. exact pf_C27_split. Qed.
Print Assumptions C27_split.

Example C27_split_example : exists v a b, ssv_build 2 [[0; 1]; [1; 0]; [0; 1]] = Ret v /\
  ssv_split v 2 = Some (a, b) /\ ssv_rows a = Ret [[0; 1]; [1; 0]] /\ ssv_rows b = Ret [[0; 1]].
Proof. vm_compute. eauto 10. Qed.

(** C28: extension by a transposed range of another buffer of the same stage; every form of bound;
    an out-of-range or inverted range panics. *)
Theorem C28_extend_range_transposed_partial :
  forall v s rs w rs' t lo hi, holds v s rs -> holds w s rs' -> valid_row t -> length t = s ->
    let a := range_start lo in let b := range_end hi (length rs') in
    (a <= b /\ b <= length rs' ->
       exists v', ssv_extend_range_transposed v t w lo hi = Ret (v', Ok tt) /\
         holds v' s (rs ++ map (row_product t) (sublist a b rs'))) /\
    (~ (a <= b /\ b <= length rs') -> ssv_extend_range_transposed v t w lo hi = Panic) /\
    (exists v', ssv_extend_transposed v t w = Ret (v', Ok tt) /\
       holds v' s (rs ++ map (row_product t) rs')).
Proof. exact pf_C28_extend_range_transposed_partial. Qed.
Print Assumptions C28_extend_range_transposed_partial.

(** C28: the same from a range of the buffer itself. *)
Theorem C28_extend_transposed_from_within :
  forall v s rs t lo hi, holds v s rs -> valid_row t -> length t = s ->
    let a := range_start lo in let b := range_end hi (length rs) in
    (a <= b -> b <= length rs ->
     exists v', ssv_extend_transposed_from_within v lo hi t = Ret (v', Ok tt) /\
       holds v' s (rs ++ map (row_product t) (sublist a b rs))) /\
    (b <= a -> ssv_extend_transposed_from_within v lo hi t = Ret (v, Ok tt)).
Proof. exact pf_C28_extend_transposed_from_within. Qed.
Print Assumptions C28_extend_transposed_from_within.

(** C28: pre-multiplication, by value and in place; [row_product] is composition (C10). *)
Theorem C28_pre_multiplied :
  forall v s rs t, holds v s rs -> valid_row t -> length t = s ->
    (exists v', ssv_pre_multiplied v t = Ret (Ok v') /\ holds v' s (map (row_product t) rs) /\
       ssv_pre_multiply v t = Ret (v', Ok tt)) /\
    (forall r, In r rs -> composition t r (row_product t r)).
Proof. exact pf_C28_pre_multiplied. Qed.
Print Assumptions C28_pre_multiplied.

(** C28, the missing case: the claim "they report an error when stages are incompatible" is false
    of a source buffer of another stage.  The call then succeeds and the buffer stops holding valid
    rows, or it panics. *)
Theorem C28_source_of_another_stage_refuted :
  (exists v w v' t r, holds v 3 [] /\ holds w 1 [[0]; [0]; [0]] /\ valid_row t /\ length t = 3 /\
     ssv_extend_transposed v t w = Ret (v', Ok tt) /\ ssv_rows v' = Ret [r] /\ ~ valid_row r) /\
  (exists v w v' t, holds v 3 [] /\ holds w 2 [[0; 1]] /\ valid_row t /\ length t = 3 /\
     ssv_extend_transposed v t w = Ret (v', Ok tt) /\ ssv_len v' = Panic) /\
  (exists v w t, holds v 3 [] /\ holds w 4 [[0; 1; 2; 3]] /\ valid_row t /\ length t = 3 /\
     ssv_extend_transposed v t w = Panic).
Proof. exact pf_C28_source_of_another_stage_refuted. Qed.
Print Assumptions C28_source_of_another_stage_refuted.

(** C28: an end beyond the buffer does not panic in [extend_transposed_from_within]: it copies rows
    which it has itself just appended. *)
Theorem C28_from_within_beyond_the_end_refuted :
  exists v v' t, holds v 2 [[0; 1]] /\ valid_row t /\ length t = 2 /\
    ssv_extend_transposed_from_within v (Included 0) (Excluded 3) t = Ret (v', Ok tt) /\
    ssv_rows v' = Ret [[0; 1]; [1; 0]; [0; 1]; [1; 0]].
Proof. exact pf_C28_from_within_beyond_the_end_refuted. Qed.
Print Assumptions C28_from_within_beyond_the_end_refuted.

(** C28, from within, for every range: rows before the end of the buffer at that moment are copied one by
    one, so a range which reaches past the old end copies rows the call itself has appended; a non-empty
    range which starts past the end panics. *)
Theorem C28_from_within_every_range :
  forall v s rs t lo hi, holds v s rs -> valid_row t -> length t = s ->
    let a := range_start lo in let b := range_end hi (length rs) in
    (b <= a -> ssv_extend_transposed_from_within v lo hi t = Ret (v, Ok tt)) /\
    (a < b -> length rs <= a -> ssv_extend_transposed_from_within v lo hi t = Panic) /\
    (a < b -> a < length rs ->
     exists v' new, ssv_extend_transposed_from_within v lo hi t = Ret (v', Ok tt) /\ holds v' s (rs ++ new) /\
       length new = b - a /\
       forall i, i < b - a -> nth_error new i = option_map (row_product t) (nth_error (rs ++ new) (a + i))).
Proof. exact pf_C28_from_within_every_range. Qed.
Print Assumptions C28_from_within_every_range.

(** C28: the same for every source of another stage and every non-empty range inside it.  A larger stage
    always panics.  A smaller one always succeeds, and leaves a buffer which is not a list of valid rows
    of any stage. *)
Theorem C28_every_source_of_another_stage_refuted :
  forall v s rs w s' rs' t lo hi, holds v s rs -> holds w s' rs' -> valid_row t -> length t = s ->
    let a := range_start lo in let b := range_end hi (length rs') in
    a < b -> b <= length rs' ->
    (s < s' -> ssv_extend_range_transposed v t w lo hi = Panic) /\
    (s' < s -> exists v', ssv_extend_range_transposed v t w lo hi = Ret (v', Ok tt) /\ forall s2 rs2, ~ holds v' s2 rs2).
Proof. exact pf_C28_every_source_of_another_stage_refuted. Qed.
Print Assumptions C28_every_source_of_another_stage_refuted.

Example C28_range :
  exists v w v', ssv_build 3 [[0; 1; 2]] = Ret v /\ ssv_build 3 [[0; 1; 2]; [1; 0; 2]; [1; 2; 0]; [2; 1; 0]] = Ret w /\
    ssv_extend_range_transposed v [2; 0; 1] w (Excluded 0) (Included 2) = Ret (v', Ok tt) /\
    ssv_rows v' = Ret [[0; 1; 2]; [0; 2; 1]; [0; 1; 2]].
Proof. vm_compute. eauto 10. Qed.

(** C29: a text whose lines are all rows of one stage parses to those rows. *)
Theorem C29_parse_rows :
  forall ended unfinished rs s,
    Forall no_line_feed ended -> no_line_feed unfinished ->
    text_lines ended unfinished <> [] ->
    Forall2 (fun l r => row_parse l = Ok r) (text_lines ended unfinished) rs ->
    Forall (fun r => length r = s) rs ->
    exists v, ssv_parse (text_of ended unfinished) = Ret (Ok v) /\ holds v s rs.
Proof. exact pf_C29_parse_rows. Qed.
Print Assumptions C29_parse_rows.

(** C29: otherwise the error gives the 1-based number of the first line which is not a row, or whose
    stage differs from the rows before it. *)
Theorem C29_parse_first_bad_line :
  forall ended unfinished pre bad post rs s,
    Forall no_line_feed ended -> no_line_feed unfinished ->
    text_lines ended unfinished = pre ++ bad :: post ->
    Forall2 (fun l r => row_parse l = Ok r) pre rs -> Forall (fun r => length r = s) rs ->
    (forall e, row_parse bad = Err e ->
       ssv_parse (text_of ended unfinished) = Ret (Err (SpeInvalidRow (length pre + 1) e))) /\
    (forall r, pre <> [] -> row_parse bad = Ok r -> length r <> s ->
       ssv_parse (text_of ended unfinished) =
       Ret (Err (SpeIncompatibleStages (length pre + 1) s (length r)))).
Proof. exact pf_C29_parse_first_bad_line. Qed.
Print Assumptions C29_parse_first_bad_line.

(** C29: every text but the empty one parses without panicking. *)
Theorem C29_no_panic_partial :
  forall text, text <> [] -> exists res, ssv_parse text = Ret res.
Proof. exact pf_C29_no_panic_partial. Qed.
Print Assumptions C29_no_panic_partial.

(** C29: "it never panics" is false of the empty string. *)
Theorem C29_empty_string_panics_refuted : ssv_parse [] = Panic.
Proof. exact pf_C29_empty_string_panics_refuted. Qed.
Print Assumptions C29_empty_string_panics_refuted.

Example C29_parse_example :
  exists v, ssv_parse (s2l "1234" ++ [10%N] ++ s2l "2143" ++ [13%N; 10%N]) = Ret (Ok v) /\
    ssv_rows v = Ret [[0; 1; 2; 3]; [1; 0; 3; 2]].
Proof. vm_compute. eauto. Qed.

Example C29_error_example :
  ssv_parse (s2l "1234" ++ [10%N] ++ s2l "214" ++ [10%N] ++ s2l "x") = Ret (Err (SpeInvalidRow 2 (BellOutOfStage 3 3))) /\
  ssv_parse (s2l "1234" ++ [10%N] ++ s2l "213" ++ [10%N] ++ s2l "x") = Ret (Err (SpeIncompatibleStages 2 4 3)).
Proof. vm_compute. auto. Qed.
