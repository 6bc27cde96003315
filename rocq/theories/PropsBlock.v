(** Property theorems C30 to C35 (blocks of rows), and the block part of C26 and C29. *)

(* Generated from tools/props/Block.src; the proofs are in BlockThms.v. *)
From Verif Require Import Base Bell Stage Row Utils SameStageVec Block Spec SpecVec SpecBlock ListFacts
  BellFacts RowFacts MulFacts GroupFacts SsvFacts SsvThms BlockFacts.
Local Open Scope list_scope.
From Verif Require Import BlockThms.

(** C30: a block built from rows and annotations holds them, and any history of calls with valid
    arguments and ranges inside the block runs without panicking, returns exactly what the list of
    annotated rows (and the left-over row) says, and leaves a block which holds the resulting list. *)
Theorem C30_block_is_a_list_of_annotated_rows :
  forall A (start : block_arg A) ops st outs,
    block_arg_valid start -> Forall block_op_args_valid ops ->
    block_run (ba_stage start) (arg_annot_rows start, arg_leftover start) ops = Some (st, outs) ->
    exists b0 b, block_build start = Ret (Some b0) /\
      block_holds b0 (ba_stage start) (arg_annot_rows start) (arg_leftover start) /\
      block_calls b0 ops = Ret (b, outs) /\ block_holds b (ba_stage start) (fst st) (snd st).
Proof. exact pf_C30_block_is_a_list_of_annotated_rows. Qed.
Print Assumptions C30_block_is_a_list_of_annotated_rows.

(** C30: the same from any block that holds annotated rows. *)
Theorem C30_histories_from_any_block :
  forall A (b0 : block A) s ars lo ops st outs,
    block_holds b0 s ars lo -> Forall block_op_args_valid ops ->
    block_run s (ars, lo) ops = Some (st, outs) ->
    exists b, block_calls b0 ops = Ret (b, outs) /\ block_holds b s (fst st) (snd st).
Proof. exact pf_C30_histories_from_any_block. Qed.
Print Assumptions C30_histories_from_any_block.

(** C30: a history panics exactly when it passes [extend_from_within] a range outside the block of that
    moment. *)
Theorem C30_panics_exactly_when :
  forall A (b0 : block A) s ars lo ops,
    block_holds b0 s ars lo -> Forall block_op_args_valid ops ->
    (block_calls b0 ops = Panic <-> block_run s (ars, lo) ops = None).
Proof. exact pf_C30_panics_exactly_when. Qed.
Print Assumptions C30_panics_exactly_when.

(** C30: a block has one more row than annotations, and every getter agrees with the list. *)
Theorem C30_getters_agree :
  forall A (b : block A) s ars lo, block_holds b s ars lo ->
    block_all_rows b = Ret (map fst ars ++ [lo]) /\ block_rows b = Ret (map fst ars) /\
    block_len b = length ars /\ block_stage b = s /\
    (block_is_empty b = true <-> ars = []) /\
    (forall i, block_get_row b i = nth_error (map fst ars ++ [lo]) i) /\
    (forall i, block_get_annot b i = option_map snd (nth_error ars i)) /\
    (forall i, block_get_annot_row b i = nth_error ars i) /\
    block_first_annot_row b = hd_error ars /\
    block_first_row b = Ret (hd lo (map fst ars)).
Proof. exact pf_C30_getters_agree. Qed.
Print Assumptions C30_getters_agree.

(** C30: the other constructors.  [with_default_annots] panics exactly for an empty buffer, and
    [with_annots_from_indices] returns [None] exactly then. *)
Theorem C30_constructors :
  forall A (default : A) (f : nat -> A) v s rs, holds v s rs ->
    (rs = [] -> with_default_annots default v = Panic /\ with_annots_from_indices v f = Ret None) /\
    (forall rows lo, rs = rows ++ [lo] ->
       (exists b, with_default_annots default v = Ret b /\
          block_holds b s (map (fun r => (r, default)) rows) lo) /\
       (exists b, with_annots_from_indices v f = Ret (Some b) /\
          block_holds b s (combine rows (map f (seq 0 (length rows)))) lo)).
Proof. exact pf_C30_constructors. Qed.
Print Assumptions C30_constructors.

(** C30: the empty block holds no annotated rows and has rounds left over. *)
Theorem C30_empty_block :
  forall A s, 0 < s -> exists b, @block_empty A s = Ret b /\ block_holds b s [] (seq 0 s).
Proof. exact pf_C30_empty_block. Qed.
Print Assumptions C30_empty_block.

Example C30_history :
  let start := BlockArg 3 [[0; 1; 2]; [1; 0; 2]; [1; 2; 0]] (fun i => i =? 1) in
  let ops := [BAnnotRows; BExtend (BlockArg 3 [[2; 1; 0]; [2; 0; 1]] (fun _ => true));
              BExtend (BlockArg 2 [[1; 0]] (fun _ => true));
              BExtendFromWithin (Included 1) (Excluded 3); BPreMultiply [2; 0; 1]; BSetAnnot 3 false;
              BMapAnnots (fun i a => xorb a (i =? 2)); BSplitKeepRight 1; BLen; BGetAnnotRow 2; BAllRows] in
  block_arg_valid start /\ Forall block_op_args_valid ops /\
  exists st outs, block_run 3 (arg_annot_rows start, arg_leftover start) ops = Some (st, outs) /\ length (fst st) = 4.
Proof.
  intros start ops. split; [|split].
  - subst start. bav.
  - subst ops. repeat (apply Forall_cons; [cbn [block_op_args_valid]; first [exact I | bav | vr]|]). apply Forall_nil.
  - vm_compute. eauto.
Qed.

(** C31: [extend] appends the other block moved by the transposition [t] which takes its first row to
    the old left-over row, and such a [t] exists and is unique. *)
Theorem C31_extend :
  forall A (b other : block A) s ars lo ars' lo' first,
    block_holds b s ars lo -> block_holds other s ars' lo' ->
    hd_error (map fst ars' ++ [lo']) = Some first ->
    exists t, valid_row t /\ length t = s /\ composition t first lo /\
      (forall t', length t' = s -> composition t' first lo -> t' = t) /\
      exists b', block_extend b other = Ret (b', Ok tt) /\
        block_holds b' s (ars ++ map (fun ra => (row_product t (fst ra), snd ra)) ars') (row_product t lo').
Proof. exact pf_C31_extend. Qed.
Print Assumptions C31_extend.

(** C31: blocks of different stages are refused, with the stages in the error and no change. *)
Theorem C31_extend_incompatible :
  forall A (b other : block A) s ars lo s' ars' lo',
    block_holds b s ars lo -> block_holds other s' ars' lo' -> s <> s' ->
    block_extend b other = Ret (b, Err (IncompatibleStages s s')).
Proof. exact pf_C31_extend_incompatible. Qed.
Print Assumptions C31_extend_incompatible.

(** C31, part true of [extend_range]: its rows are the rows of the range, including the row after it
    as the new left-over row, moved to start at the old left-over row.  Missing: the annotations,
    see the refutation below. *)
Theorem C31_extend_range_rows_partial :
  forall A (b other : block A) s ars lo ars' lo' lo_ hi_ first,
    block_holds b s ars lo -> block_holds other s ars' lo' ->
    let a := range_start lo_ in let e := range_end hi_ (length ars') in
    a <= e -> e <= length ars' ->
    nth_error (map fst ars' ++ [lo']) a = Some first ->
    exists b' t, block_extend_range b other lo_ hi_ = Ret (b', Ok tt) /\
      valid_row t /\ length t = s /\ composition t first lo /\
      block_all_rows b' =
        Ret (map fst ars ++ map (row_product t) (sublist a (e + 1) (map fst ars' ++ [lo']))).
Proof. exact pf_C31_extend_range_rows_partial. Qed.
Print Assumptions C31_extend_range_rows_partial.

(** C31: the whole-range case of [extend_range] is [extend]. *)
Theorem C31_extend_range_full :
  forall A (b other : block A) s ars lo ars' lo' lo_ hi_,
    block_holds b s ars lo -> block_holds other s ars' lo' ->
    range_start lo_ = 0 -> range_end hi_ (length ars') = length ars' ->
    block_extend_range b other lo_ hi_ = block_extend b other.
Proof. exact pf_C31_extend_range_full. Qed.
Print Assumptions C31_extend_range_full.

(** C31: [extend_range] by any proper sub-range gives a block that breaks the invariant of C30, for it
    keeps all the annotations of the other block: iterating over its annotated rows panics. *)
Theorem C31_extend_range_sub_range_refuted :
  forall A (b other : block A) s ars lo ars' lo' lo_ hi_,
    block_holds b s ars lo -> block_holds other s ars' lo' ->
    range_start lo_ <= range_end hi_ (length ars') -> range_end hi_ (length ars') <= length ars' ->
    range_end hi_ (length ars') - range_start lo_ < length ars' ->
    exists b', block_extend_range b other lo_ hi_ = Ret (b', Ok tt) /\ block_annot_rows b' = Panic.
Proof. exact pf_C31_extend_range_sub_range_refuted. Qed.
Print Assumptions C31_extend_range_sub_range_refuted.

(** C31: ranges reaching outside the other block (by more than the left-over row) panic. *)
Theorem C31_extend_range_panics :
  forall A (b other : block A) s ars lo ars' lo' lo_ hi_,
    block_holds b s ars lo -> block_holds other s ars' lo' ->
    range_end hi_ (length ars') + 1 < range_start lo_ \/ length ars' < range_end hi_ (length ars') ->
    block_extend_range b other lo_ hi_ = Panic.
Proof. exact pf_C31_extend_range_panics. Qed.
Print Assumptions C31_extend_range_panics.

(** C31: [extend_range] by a range inverted by one, such as [1..0], takes the left-over row off the block
    and puts nothing in its place: the block then has fewer rows than it should, and none at all if it was
    empty. *)
Theorem C31_extend_range_inverted_refuted :
  forall A (b other : block A) s ars lo ars' lo' lo_ hi_,
    block_holds b s ars lo -> block_holds other s ars' lo' ->
    range_start lo_ = range_end hi_ (length ars') + 1 -> range_start lo_ <= length ars' ->
    exists b', block_extend_range b other lo_ hi_ = Ret (b', Ok tt) /\ block_all_rows b' = Ret (map fst ars) /\
      (ars = [] -> block_leftover_row b' = Panic).
Proof. exact pf_C31_extend_range_inverted_refuted. Qed.
Print Assumptions C31_extend_range_inverted_refuted.

(** C31: [extend_range] of a block of another stage is refused too, once the start of the range is found. *)
Theorem C31_extend_range_incompatible :
  forall A (b other : block A) s ars lo s' ars' lo' lo_ hi_,
    block_holds b s ars lo -> block_holds other s' ars' lo' -> s <> s' ->
    (range_start lo_ <= length ars' -> block_extend_range b other lo_ hi_ = Ret (b, Err (IncompatibleStages s s'))) /\
    (length ars' < range_start lo_ -> block_extend_range b other lo_ hi_ = Panic).
Proof. exact pf_C31_extend_range_incompatible. Qed.
Print Assumptions C31_extend_range_incompatible.

Example C31_example :
  exists b1 b2 b3, block_build (BlockArg 3 [[0; 1; 2]; [1; 0; 2]] (fun i => i)) = Ret (Some b1) /\
    block_build (BlockArg 3 [[2; 1; 0]; [2; 0; 1]; [0; 2; 1]] (fun i => i + 7)) = Ret (Some b2) /\
    block_extend b1 b2 = Ret (b3, Ok tt) /\
    block_annot_rows b3 = Ret [([0; 1; 2], 0); ([1; 0; 2], 7); ([1; 2; 0], 8)] /\
    block_leftover_row b3 = Ret [2; 1; 0].
Proof. vm_compute. do 3 eexists. splits; reflexivity. Qed.

Example C31_sub_range_example :
  exists b1 b2 b3, block_build (BlockArg 3 [[0; 1; 2]; [1; 0; 2]] (fun i => i)) = Ret (Some b1) /\
    block_build (BlockArg 3 [[2; 1; 0]; [2; 0; 1]; [0; 2; 1]] (fun i => i + 7)) = Ret (Some b2) /\
    block_extend_range b1 b2 (Included 0) (Excluded 1) = Ret (b3, Ok tt) /\
    block_annot_rows b3 = Panic.
Proof. vm_compute. do 3 eexists. splits; reflexivity. Qed.

(** C32: [extend_from_within] appends the annotated rows of the range, moved by the transposition
    that takes the first of them to the old left-over row. *)
Theorem C32_extend_from_within :
  forall A (b : block A) s ars lo lo_ hi_ first,
    block_holds b s ars lo ->
    let a := range_start lo_ in let e := range_end hi_ (length ars) in
    a <= e -> e <= length ars ->
    nth_error (map fst ars ++ [lo]) a = Some first ->
    exists t b', valid_row t /\ length t = s /\ composition t first lo /\
      block_extend_from_within b lo_ hi_ = Ret b' /\
      block_holds b' s (ars ++ map (fun ra => (row_product t (fst ra), snd ra)) (sublist a e ars))
        (row_product t (nth e (map fst ars ++ [lo]) [])).
Proof. exact pf_C32_extend_from_within. Qed.
Print Assumptions C32_extend_from_within.

(** C32: any other range makes it panic. *)
Theorem C32_outside_the_block_panics :
  forall A (b : block A) s ars lo lo_ hi_, block_holds b s ars lo ->
    ~ (range_start lo_ <= range_end hi_ (length ars) /\ range_end hi_ (length ars) <= length ars) ->
    block_extend_from_within b lo_ hi_ = Panic.
Proof. exact pf_C32_outside_the_block_panics. Qed.
Print Assumptions C32_outside_the_block_panics.

Example C32_example :
  exists b1 b2, block_build (BlockArg 4 [[0; 1; 2; 3]; [1; 0; 3; 2]; [1; 3; 0; 2]] (fun i => i)) = Ret (Some b1) /\
    block_extend_from_within b1 (Included 1) (Excluded 2) = Ret b2 /\
    block_annot_rows b2 = Ret [([0; 1; 2; 3], 0); ([1; 0; 3; 2], 1); ([1; 3; 0; 2], 1)] /\
    block_leftover_row b2 = Ret [1; 0; 3; 2].
Proof. vm_compute. do 2 eexists. splits; reflexivity. Qed.

(** C33: splitting; [extend]ing the first part by the second gives back the same block. *)
Theorem C33_split :
  forall A (b : block A) s ars lo i, block_holds b s ars lo ->
    (length ars < i -> block_split b i = Ret None) /\
    (i <= length ars ->
     exists b1 b2 mid, block_split b i = Ret (Some (b1, b2)) /\
       nth_error (map fst ars ++ [lo]) i = Some mid /\
       block_holds b1 s (firstn i ars) mid /\ block_holds b2 s (skipn i ars) lo /\
       block_len b1 = i /\ block_len b2 = block_len b - i /\
       block_first_row b2 = Ret mid /\
       block_extend b1 b2 = Ret (b, Ok tt)).
Proof. exact pf_C33_split. Qed.
Print Assumptions C33_split.

Example C33_example :
  exists b b1 b2, block_build (BlockArg 3 [[0; 1; 2]; [1; 0; 2]; [1; 2; 0]] (fun i => i)) = Ret (Some b) /\
    block_split b 1 = Ret (Some (b1, b2)) /\ block_annot_rows b1 = Ret [([0; 1; 2], 0)] /\
    block_leftover_row b1 = Ret [1; 0; 2] /\ block_split b 3 = Ret None.
Proof. vm_compute. do 3 eexists. splits; reflexivity. Qed.

(** C34: from any start row of the block's stage, any mixture of calls of [next] and [next_into]
    yields, at step [k], [start * leftover^(k / len) * row[k mod len]] with the index and annotation
    of that row. *)
Theorem C34_repeat_iter_items :
  forall A (b : block A) s ars lo start sched,
    block_holds b s ars lo -> ars <> [] -> valid_row start -> length start = s ->
    exists ri outs ri', repeat_iter_new start b = Ret (Ok ri) /\
      repeat_run ri sched = Ret (outs, ri') /\ length outs = length sched /\
      forall k, k < length sched ->
        exists r a p head item,
          nth_error ars (k mod length ars) = Some (r, a) /\
          power lo (k / length ars) p /\ composition start p head /\ composition head r item /\
          nth_error outs k = Some (Some (item, k mod length ars, a)).
Proof. exact pf_C34_repeat_iter_items. Qed.
Print Assumptions C34_repeat_iter_items.

(** C34: the iterator of an empty block yields nothing, however often it is called. *)
Theorem C34_repeat_iter_empty_block :
  forall A (b : block A) s lo start sched out,
    block_holds b s [] lo -> valid_row start -> length start = s ->
    exists ri ri' ri'', repeat_iter_new start b = Ret (Ok ri) /\
      repeat_run ri sched = Ret (repeat None (length sched), ri') /\
      repeat_iter_next_into ri' out = Ret (None, out, ri'').
Proof. exact pf_C34_repeat_iter_empty_block. Qed.
Print Assumptions C34_repeat_iter_empty_block.

(** C34: a start row of another stage is refused. *)
Theorem C34_repeat_iter_incompatible :
  forall A (b : block A) s ars lo start,
    block_holds b s ars lo -> valid_row start -> length start <> s ->
    repeat_iter_new start b = Ret (Err (IncompatibleStages (length start) s)).
Proof. exact pf_C34_repeat_iter_incompatible. Qed.
Print Assumptions C34_repeat_iter_incompatible.

Example C34_example :
  exists b ri ri', block_build (BlockArg 3 [[0; 1; 2]; [1; 0; 2]; [1; 2; 0]] (fun i => i)) = Ret (Some b) /\
    repeat_iter_new [2; 1; 0] b = Ret (Ok ri) /\
    repeat_run ri [None; None; Some [0]; None; Some []; None] =
      Ret ([Some ([2; 1; 0], 0, 0); Some ([1; 2; 0], 1, 1); Some ([1; 0; 2], 0, 0); Some ([0; 1; 2], 1, 1);
            Some ([0; 2; 1], 0, 0); Some ([2; 0; 1], 1, 1)], ri').
Proof. vm_compute. do 3 eexists. splits; reflexivity. Qed.

(** C35: the effective stage is the least (non-zero) number of bells such that every row of the block,
    the left-over row included, leaves all the bells above it in their places; no panic. *)
Theorem C35_effective_stage :
  forall A (b : block A) s ars lo, block_holds b s ars lo ->
    let fixes n := forall r i x, In r (map fst ars ++ [lo]) -> n <= i -> nth_error r i = Some x -> x = i in
    exists e, block_effective_stage b = Ret e /\ 1 <= e /\ e <= s /\ fixes e /\
      (forall n, 1 <= n -> fixes n -> e <= n) /\
      (exists r, In r (map fst ars ++ [lo]) /\ effective_stage r = Ret e) /\
      (forall r er, In r (map fst ars ++ [lo]) -> effective_stage r = Ret er -> er <= e).
Proof. exact pf_C35_effective_stage. Qed.
Print Assumptions C35_effective_stage.

Example C35_example :
  exists b, block_build (BlockArg 5 [[0; 1; 2; 3; 4]; [1; 0; 2; 3; 4]; [1; 2; 0; 3; 4]] (fun i => i)) = Ret (Some b) /\
    block_effective_stage b = Ret 3.
Proof. vm_compute. eauto. Qed.

(** C26 for blocks: [full_path_of] lists the unique place of the bell in each row including the
    left-over one, and [path_of] splits off the last of these; for a bell outside the stage both
    are [None]. *)
Theorem C26_block_paths :
  forall A (b : block A) s ars lo x, block_holds b s ars lo ->
    (x < s -> exists p l, block_path_of b x = Ret (Some (p, l)) /\
       block_full_path_of b x = Ret (Some (p ++ [l])) /\
       Forall2 (fun r i => forall j, nth_error r j = Some x <-> j = i) (map fst ars) p /\
       (forall j, nth_error lo j = Some x <-> j = l)) /\
    (s <= x -> block_path_of b x = Ret None /\ block_full_path_of b x = Ret None).
Proof. exact pf_C26_block_paths. Qed.
Print Assumptions C26_block_paths.

Example C26_block_example :
  exists b, block_build (BlockArg 3 [[0; 1; 2]; [1; 0; 2]; [1; 2; 0]] (fun i => i)) = Ret (Some b) /\
    block_path_of b 0 = Ret (Some ([0; 1], 2)).
Proof. vm_compute. eauto. Qed.

(** C29 for blocks: text whose lines are all rows of one stage parses to the block of those rows, the
    last one left over, and with default annotations. *)
Theorem C29_block_parse_rows :
  forall A (default : A) ended unfinished rs lo s,
    Forall no_line_feed ended -> no_line_feed unfinished ->
    Forall2 (fun l r => row_parse l = Ok r) (text_lines ended unfinished) (rs ++ [lo]) ->
    Forall (fun r => length r = s) (rs ++ [lo]) ->
    exists b, block_parse default (text_of ended unfinished) = Ret (Ok b) /\
      block_holds b s (map (fun r => (r, default)) rs) lo.
Proof. exact pf_C29_block_parse_rows. Qed.
Print Assumptions C29_block_parse_rows.

(** C29 for blocks: errors of the buffer's parser are passed on, [ZeroLengthBlock] is never returned,
    and only the empty string panics. *)
Theorem C29_block_parse_errors :
  forall A (default : A) text,
    (forall e, ssv_parse text = Ret (Err e) -> block_parse default text = Ret (Err (BlockOther e))) /\
    block_parse default text <> Ret (Err ZeroLengthBlock) /\
    (text <> [] -> exists res, block_parse default text = Ret res).
Proof. exact pf_C29_block_parse_errors. Qed.
Print Assumptions C29_block_parse_errors.

Theorem C29_block_parse_empty_string_panics_refuted :
  forall A (default : A), block_parse default [] = Panic.
Proof. exact pf_C29_block_parse_empty_string_panics_refuted. Qed.
Print Assumptions C29_block_parse_empty_string_panics_refuted.

Example C29_block_example :
  exists b, block_parse true (s2l "1234" ++ [10%N] ++ s2l "2143") = Ret (Ok b) /\
    block_annot_rows b = Ret [([0; 1; 2; 3], true)] /\ block_leftover_row b = Ret [1; 0; 3; 2].
Proof. vm_compute. eauto. Qed.
