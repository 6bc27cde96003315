(** Property C77: what a program sees after it catches a panic. *)
(*IMPORTS*)
From Verif Require Import Base Spec Bell Stage Row Utils SameStageVec Block PlaceNot Mask Class Method Program Unwind SpecVec SpecBlock
  SpecProg SpecUnwind ListFacts RowFacts SsvFacts BlockFacts SafeFacts SafeFacts2 UnwindFacts UnwindFacts2 UnwindFacts3 UnwindFacts4.
Local Open Scope list_scope.
(*BODY*)
(** C77: [Unwind.v] gives, for each function with a [&mut] argument which may panic after its first write,
    a version which also says what it leaves behind.  These return, fail and panic exactly when the
    functions do about which all other properties are stated, and with the same results. *)
Theorem C77_same_functions :
  (forall a b out, forget (mul_into_b a b out) = mul_into a b out) /\
  (forall a b out, forget (mul_into_row_b a b out) = mul_into_row a b out) /\
  (forall r out, forget (inv_into_b r out) = inv_into r out) /\
  (forall r out, forget (inv_into_buf_b r out) = (out' <- inv_into_buf r out;; Ret (out', tt))) /\
  (forall fuel r, forget (row_parity_b fuel r) = row_parity fuel r) /\
  (forall pn r, forget (pn_permute_b pn r) = pn_permute pn r) /\
  (forall r a, forget (acc_accumulate_b r a) = acc_accumulate a r) /\
  (forall r a, forget (acc_pre_accumulate_b r a) = acc_pre_accumulate a r) /\
  (forall r a, forget (acc_mul_assign_b r a) = (a' <- acc_mul_assign a r;; Ret (a', tt))) /\
  (forall rows v, forget (ssv_extend_b rows false v) = ssv_extend v rows) /\
  (forall t o lo hi v, forget (ssv_extend_range_transposed_b t o lo hi v) = ssv_extend_range_transposed v t o lo hi) /\
  (forall lo hi t v, forget (ssv_extend_transposed_from_within_b lo hi t v) = ssv_extend_transposed_from_within v lo hi t) /\
  (forall v, forget (ssv_pop_b v) = ssv_pop v) /\
  (forall A (o b : block A) lo hi, forget (block_extend_range_b o lo hi b) = block_extend_range b o lo hi) /\
  (forall A (b : block A) lo hi,
     forget (block_extend_from_within_b lo hi b) = (b' <- block_extend_from_within b lo hi;; Ret (b', tt))) /\
  (forall A (ri : repeat_iter A), forget (repeat_iter_next_b ri) = ('(o, ri') <- repeat_iter_next ri;; Ret (ri', o))) /\
  (forall A (ri : repeat_iter A) out,
     forget (repeat_iter_next_into_b (ri, out)) = ('(o, out', ri') <- repeat_iter_next_into ri out;; Ret ((ri', out'), o))).
Proof.
  repeat match goal with |- _ /\ _ => split end; intros.
  - apply forget_mul_into.
  - apply forget_mul_into_row.
  - apply forget_inv_into.
  - apply forget_inv_into_buf.
  - apply forget_parity.
  - apply forget_pn_permute.
  - apply forget_acc_accumulate.
  - apply forget_acc_pre_accumulate.
  - apply forget_acc_mul_assign.
  - apply forget_extend.
  - apply forget_extend_range_transposed.
  - apply forget_from_within.
  - apply forget_pop.
  - apply forget_block_extend_range.
  - apply forget_block_extend_from_within.
  - apply forget_repeat_next.
  - apply forget_repeat_next_into.
Qed.

(** C77 (false as claimed, see the [_refuted] theorems; these are the parts which are true): a program
    which goes on after every panic, and calls anything except [Mask::as_row],
    [SameStageVec::extend_transposed] and [SameStageVec::extend_range_transposed], makes no out-of-bounds
    unchecked access, and every row which it has at any time is valid. *)
Theorem C77_caught_programs_partial :
  forall hash_order prog, Forall (fun c => unguarded c = false) prog ->
    run_caught hash_order prog <> Ub /\ run_caught hash_order prog <> Panic /\
    forall st r, run_caught hash_order prog = Ret st -> In (VRow r) st -> valid_row r.
Proof.
  intros ho prog F. pose proof (run_caught_safe ho prog [] (Forall_nil _) (unguarded_careful_caught ho prog F [])) as S.
  assert (P : run_caught_from ho [] prog <> Panic).
  { clear. generalize (@nil value) as st. induction prog as [|c prog IH]; intros st; [discriminate|].
    unfold run_caught_from in *. cbn [foldM]. unfold step_caught at 1. destruct (step ho st c); cbn; try discriminate; apply IH. }
  unfold run_caught. destruct (run_caught_from ho [] prog) as [st| | |] eqn:E; cbn in S; try contradiction; splits; try congruence.
  intros st' r E' Hr. injection E' as ->. rewrite Forall_forall in S. exact (S _ Hr).
Qed.

(** C77: so does one which makes the other three calls with care. *)
Theorem C77_careful_caught_programs_partial :
  forall hash_order prog, careful_caught hash_order [] prog ->
    run_caught hash_order prog <> Ub /\
    forall st r, run_caught hash_order prog = Ret st -> In (VRow r) st -> valid_row r.
Proof.
  intros ho prog C. pose proof (run_caught_safe ho prog [] (Forall_nil _) C) as S.
  unfold run_caught. destruct (run_caught_from ho [] prog) as [st| | |] eqn:E; cbn in S; split; try congruence; try contradiction.
  intros st' r E' Hr. injection E' as ->. rewrite Forall_forall in S. exact (S _ Hr).
Qed.

(** C77: at any point of such a program, a call which panics leaves every value as it was, unless it is
    [extend], [extend_range] or [extend_from_within] of a block or advances a [RepeatIter]. *)
Theorem C77_panic_changes_nothing_partial :
  forall hash_order prog st c,
    careful_caught hash_order [] prog -> run_caught hash_order prog = Ret st ->
    careful_call st c -> writes_early c = false -> step hash_order st c = Panic ->
    step_caught hash_order st c = Ret st.
Proof.
  intros ho prog st c C E Cc W P. unfold step_caught. rewrite P. f_equal.
  pose proof (run_caught_safe ho prog [] (Forall_nil _) C) as S. pose proof (run_caught_pn ho prog [] (Forall_nil _) (Forall_nil _) C) as S'.
  unfold run_caught in E. rewrite E in S, S'. apply step_left_same; auto.
Qed.

(** C77: in a program which calls neither [extend_range] nor [extend_from_within] of blocks, a call
    which panics leaves every value as it was, without exception. *)
Theorem C77_panic_changes_nothing_without_ranges_partial :
  forall hash_order prog st c,
    careful_caught hash_order [] prog -> Forall (fun c => takes_a_range c = false) prog ->
    run_caught hash_order prog = Ret st ->
    careful_call st c -> takes_a_range c = false -> step hash_order st c = Panic ->
    step_caught hash_order st c = Ret st.
Proof.
  intros ho prog st c C F E Cc W P. unfold step_caught. rewrite P. f_equal.
  pose proof (run_caught_whole ho prog [] (Forall_nil _) (Forall_nil _) (Forall_nil _) C F) as S.
  unfold run_caught in E. rewrite E in S. destruct S as (S1 & S2 & S3). eapply step_left_unchanged; eauto.
Qed.

(** C77: what [extend_range] leaves behind.  If the range starts outside the other block nothing has
    changed; if it starts inside but does not fit, the left-over row has gone. *)
Theorem C77_extend_range_leaves :
  forall A (b other : block A) s ars lo ars' lo' lo_ hi_,
    block_holds b s ars lo -> block_holds other s ars' lo' ->
    (length ars' < range_start lo_ -> block_extend_range_b other lo_ hi_ b = Unwound b) /\
    (range_start lo_ <= length ars' ->
     range_end hi_ (length ars') + 1 < range_start lo_ \/ length ars' < range_end hi_ (length ars') ->
     exists b', block_extend_range_b other lo_ hi_ b = Unwound b' /\
       block_all_rows b' = Ret (map fst ars) /\ block_stage b' = s /\
       (forall i, block_get_annot b' i = option_map snd (nth_error ars i)) /\ block_len b' = length ars).
Proof.
  intros A b o s ars lo ars' lo' lo_ hi_ H Ho. apply holds_brep in H. apply holds_brep in Ho. split.
  - intros L. eapply left_extend_range_outside; eauto.
  - intros L N. destruct (left_extend_range_popped s ars lo b ars' lo' o lo_ hi_ H Ho L) as (v & E & R); [lia|].
    eexists. split; [exact E|]. unfold block_all_rows, block_stage, block_get_annot, block_len. cbn [blk_rows blk_annots].
    splits.
    + eapply rep_rows; eauto.
    + apply R.
    + intros i. apply nth_error_map.
    + apply map_length.
Qed.

(** C77: what [extend_from_within] leaves behind: the copies made so far of the rows of the range, going on
    with copies of copies, if the range starts before the left-over row and ends after it, and otherwise
    what was there before.  The annotations are not copied. *)
Theorem C77_extend_from_within_leaves :
  forall A (b : block A) s ars lo lo_ hi_,
    block_holds b s ars lo ->
    let a := range_start lo_ in let e := range_end hi_ (length ars) in
    (a < length ars -> length ars < e ->
     exists b' new, block_extend_from_within_b lo_ hi_ b = Unwound b' /\
       block_all_rows b' = Ret (map fst ars ++ [lo] ++ new) /\ length new = e - a /\
       (forall i, i < e - a -> nth_error new i =
          option_map (moved (nth a (map fst ars) []) lo) (nth_error (map fst ars ++ [lo] ++ new) (a + 1 + i))) /\
       (forall i, block_get_annot b' i = option_map snd (nth_error ars i)) /\ block_len b' = length ars) /\
    (~ (a <= e /\ e <= length ars) -> ~ (a < length ars /\ length ars < e) ->
     block_extend_from_within_b lo_ hi_ b = Unwound b).
Proof.
  intros A b s ars lo lo_ hi_ H. apply holds_brep in H. intros a e.
  destruct (left_from_within s ars lo b lo_ hi_ H) as [K1 K2]. split; [|exact K2].
  intros L1 L2. destruct (K1 L1 L2) as (v & new & E & R & Ln & I). eexists _, new. split; [exact E|].
  unfold block_all_rows, block_get_annot, block_len. cbn [blk_rows blk_annots]. splits; auto.
  - eapply rep_rows; eauto.
  - intros i. apply nth_error_map.
  - apply map_length.
Qed.

(** C77: if the iterator given to [SameStageVec::extend] panics, the buffer keeps the rows which it had
    yielded before that. *)
Theorem C77_extend_by_a_panicking_iterator :
  forall v s rs yielded, holds v s rs -> Forall (fun r => valid_row r /\ length r = s) yielded ->
    exists v', ssv_extend_b yielded true v = Unwound v' /\ holds v' s (rs ++ yielded).
Proof.
  intros v s rs new H F. apply holds_rep in H. destruct (extend_panicking_left rs s v new H F) as (v' & E & R).
  exists v'. split; auto. apply holds_rep; auto.
Qed.

(** C77: what [extend_range_transposed] leaves behind when the other buffer has bells which this one has
    not: everything up to the first of them, even if that is not a whole number of rows. *)
Theorem C77_extend_range_transposed_leaves :
  forall v s rs other s' rs' t lo hi pre x post,
    holds v s rs -> holds other s' rs' -> valid_row t -> length t = s ->
    range_start lo <= range_end hi (length rs') -> range_end hi (length rs') <= length rs' ->
    concat (sublist (range_start lo) (range_end hi (length rs')) rs') = pre ++ x :: post ->
    Forall (fun y => y < s) pre -> s <= x ->
    ssv_extend_range_transposed v t other lo hi = Panic /\
    ssv_extend_range_transposed_b t other lo hi v = Unwound (Ssv (concat rs ++ map (fun y => nth y t 0) pre) s).
Proof.
  intros v s rs o s' rs' t lo hi pre x post H Ho V L H1 H2 E F Hx. apply holds_rep in H, Ho.
  assert (K : ssv_extend_range_transposed_b t o lo hi v = Unwound (Ssv (concat rs ++ map (fun y => nth y t 0) pre) s)).
  { eapply extend_range_transposed_partway; eauto. split; auto. }
  split; auto. rewrite <- forget_extend_range_transposed, K. reflexivity.
Qed.

(** C77 is false: a caught panic of either call changes the block, and the block then has not one
    annotation for each row before the left-over one: iterating over its annotated rows panics. *)
Theorem C77_panic_changes_nothing_refuted :
  (exists prog c st st' b b', (forall hash_order, run_caught hash_order prog = Ret st /\ step hash_order st c = Panic /\
       step_caught hash_order st c = Ret st') /\
     Forall (fun c => unguarded c = false) (prog ++ [c]) /\ c = BlockExtendRange 0 1 Unbounded (Excluded 9) /\
     nth_error st 0 = Some (VBlock b) /\ nth_error st' 0 = Some (VBlock b') /\ b' <> b /\
     block_all_rows b = Ret [[0; 1; 2]; [1; 0; 2]; [1; 2; 0]] /\ block_all_rows b' = Ret [[0; 1; 2]; [1; 0; 2]] /\
     block_annot_rows b' = Panic) /\
  (exists prog c st st' b b', (forall hash_order, run_caught hash_order prog = Ret st /\ step hash_order st c = Panic /\
       step_caught hash_order st c = Ret st') /\
     Forall (fun c => unguarded c = false) (prog ++ [c]) /\ c = BlockExtendFromWithin 0 Unbounded (Excluded 3) /\
     nth_error st 0 = Some (VBlock b) /\ nth_error st' 0 = Some (VBlock b') /\ b' <> b /\
     block_all_rows b = Ret [[0; 1; 2]; [1; 0; 2]; [1; 2; 0]] /\
     block_all_rows b' = Ret [[0; 1; 2]; [1; 0; 2]; [1; 2; 0]; [2; 1; 0]; [2; 0; 1]; [0; 2; 1]] /\
     block_annot_rows b' = Panic).
Proof.
  split.
  - exists [BlockParse (s2l "123
213
231"); BlockParse (s2l "123
321")], (BlockExtendRange 0 1 Unbounded (Excluded 9)). eexists. eexists. eexists. eexists. split.
    { intros ho. split; [vm_compute; reflexivity|]. split; [reflexivity|]. vm_compute. reflexivity. }
    split; [repeat constructor|]. split; [reflexivity|]. split; [reflexivity|]. split; [reflexivity|].
    split; [discriminate|]. repeat split; reflexivity.
  - exists [BlockParse (s2l "123
213
231")], (BlockExtendFromWithin 0 Unbounded (Excluded 3)). eexists. eexists. eexists. eexists. split.
    { intros ho. split; [vm_compute; reflexivity|]. split; [reflexivity|]. vm_compute. reflexivity. }
    split; [repeat constructor|]. split; [reflexivity|]. split; [reflexivity|]. split; [reflexivity|].
    split; [discriminate|]. repeat split; reflexivity.
Qed.

(** C77 is false: the damage spreads.  Block 2 is whole; extending it by block 0, which a caught panic has
    robbed of its left-over row, leaves block 2 without its own, and asking for that row panics. *)
Theorem C77_later_panics_refuted :
  exists prog st, (forall hash_order, run_caught hash_order prog = Ret st) /\
    Forall (fun c => unguarded c = false) prog /\
    exists b, nth_error st 2 = Some (VBlock b) /\ block_all_rows b = Ret [] /\ block_leftover_row b = Panic /\
      forall hash_order, step hash_order st (BlockLeftover 2) = Panic.
Proof.
  exists [BlockParse (s2l "123
213"); BlockParse (s2l "123
321"); BlockParse (s2l "123"); BlockExtendRange 0 1 Unbounded (Excluded 9); BlockExtend 2 0].
  eexists. split; [intros; vm_compute; reflexivity|]. split; [repeat constructor|].
  eexists. split; [reflexivity|]. repeat split; reflexivity.
Qed.

(** C77 is false of the calls excluded above, even if the only one of them that is made panics: the panic
    leaves part of a row in the buffer, and rows pushed later are read shifted. *)
Theorem C77_rows_stay_valid_refuted :
  exists before c after st r, unguarded c = true /\ Forall (fun c => unguarded c = false) (before ++ after) /\
    (forall hash_order, exists st0, run_caught hash_order before = Ret st0 /\ step hash_order st0 c = Panic /\
       run_caught hash_order (before ++ c :: after) = Ret st) /\
    In (VRow r) st /\ ~ valid_row r /\ r = [0; 0; 1; 2].
Proof.
  exists [VecNew 4; Parse (s2l "1234"); Parse (s2l "152346"); VecFromRow 2], (VecExtendTransposed 0 1 3),
    [VecPush 0 1; VecGet 0 0].
  eexists. exists [0; 0; 1; 2]. split; [reflexivity|]. split; [repeat constructor|]. split.
  { intros ho. eexists. split; [vm_compute; reflexivity|]. split; vm_compute; reflexivity. }
  split; [cbn; tauto|]. split; [|reflexivity].
  intros (_ & N & _). inversion N as [|? ? X _]; subst. apply X. left; reflexivity.
Qed.

(** A program of the first theorems: three of its calls panic, and it goes on. *)
Example C77_program_example :
  let prog :=
    [ Queens 5; Rounds 4; Mul 0 1; VecNew 5; VecPush 2 0; ChangeRow (InVec 2 0) (Swap 0 7); VecIndex 2 3;
      VecExtendFromWithin 2 (Included 1) (Excluded 4) 0; VecPush 2 0; VecRows 2; BlockWithDefault 2; BlockSetAnnot 5 0 None;
      MethodWithName (s2l "Plain") 5; MethodSetLabel 6 9 None; BlockExtend 5 5; BlockLeftover 5 ] in
  Forall (fun c => unguarded c = false) prog /\ Forall (fun c => takes_a_range c = false) prog /\
  exists st, run_caught (fun l => nodup Nat.eq_dec l) prog = Ret st /\
    filter_map (fun v => match v with VRow r => Some r | _ => None end) st =
    [[0; 2; 4; 1; 3]; [0; 1; 2; 3]; [0; 2; 4; 1; 3]; [0; 2; 4; 1; 3]; [0; 2; 4; 1; 3]] /\
  run (fun l => nodup Nat.eq_dec l) (firstn 3 prog) = Panic.
Proof.
  cbv zeta. split; [repeat constructor|]. split; [repeat constructor|]. eexists. split; [vm_compute; reflexivity|].
  split; vm_compute; reflexivity.
Qed.

(** The hypotheses of the theorems about what is left behind. *)
Example C77_left_example :
  exists b o, block_build (BlockArg 3 [[0; 1; 2]; [1; 0; 2]; [1; 2; 0]] (fun i => i)) = Ret (Some b) /\
    block_build (BlockArg 3 [[0; 1; 2]; [2; 1; 0]] (fun i => i)) = Ret (Some o) /\
    block_holds b 3 [([0; 1; 2], 0); ([1; 0; 2], 1)] [1; 2; 0] /\ block_holds o 3 [([0; 1; 2], 0)] [2; 1; 0] /\
    match block_extend_range_b o Unbounded (Included 1) b with
    | Unwound b' => (block_all_rows b', block_len b') = (Ret [[0; 1; 2]; [1; 0; 2]], 2)
    | _ => False
    end /\
    match block_extend_from_within_b (Included 1) (Excluded 4) b with
    | Unwound b' => (block_all_rows b', block_len b') =
        (Ret [[0; 1; 2]; [1; 0; 2]; [1; 2; 0]; [1; 0; 2]; [1; 2; 0]; [1; 0; 2]], 2)
    | _ => False
    end.
Proof.
  eexists. eexists. split; [reflexivity|]. split; [reflexivity|]. splits.
  - apply brep_holds. split; [|reflexivity]. apply rep_intro; [lia|repeat (apply Forall_cons; [split; [vr|reflexivity]|]); apply Forall_nil|reflexivity|reflexivity].
  - apply brep_holds. split; [|reflexivity]. apply rep_intro; [lia|repeat (apply Forall_cons; [split; [vr|reflexivity]|]); apply Forall_nil|reflexivity|reflexivity].
  - vm_compute. reflexivity.
  - vm_compute. reflexivity.
Qed.

Example C77_buffer_example :
  exists v o v', ssv_build 3 [[1; 0; 2]] = Ret v /\ ssv_build 4 [[0; 1; 2; 3]; [1; 0; 3; 2]] = Ret o /\
    holds v 3 [[1; 0; 2]] /\ holds o 4 [[0; 1; 2; 3]; [1; 0; 3; 2]] /\
    ssv_extend_b [[2; 1; 0]; [0; 1; 2]] true v = Unwound v' /\ ssv_rows v' = Ret [[1; 0; 2]; [2; 1; 0]; [0; 1; 2]] /\
    concat (sublist 1 2 [[0; 1; 2; 3]; [1; 0; 3; 2]]) = [1; 0] ++ 3 :: [2] /\
    ssv_extend_range_transposed_b [2; 1; 0] o (Included 1) Unbounded v = Unwound (Ssv [1; 0; 2; 1; 2] 3).
Proof.
  eexists. eexists. eexists. split; [reflexivity|]. split; [reflexivity|]. splits.
  - apply holds_rep. apply rep_intro; [lia|repeat (apply Forall_cons; [split; [vr|reflexivity]|]); apply Forall_nil|reflexivity|reflexivity].
  - apply holds_rep. apply rep_intro; [lia|repeat (apply Forall_cons; [split; [vr|reflexivity]|]); apply Forall_nil|reflexivity|reflexivity].
  - reflexivity.
  - reflexivity.
  - reflexivity.
  - reflexivity.
Qed.
