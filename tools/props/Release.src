(** Property C96: unchecked reads, in builds with and without overflow checks and debug assertions. *)
(*IMPORTS*)
From Verif Require Import Base Spec Bell Stage Row Utils SameStageVec Block PlaceNot Mask Class Method Program Machine Release
  SpecProg SpecMachine SpecRelease RowFacts SsvFacts SafeFacts SafeFacts2 MachineFacts MachineFacts2 ReleaseFacts ReleaseFacts2 WeakFacts WeakFacts2 WeakFacts3.
Local Open Scope list_scope.
(*BODY*)
(** C96 (false as claimed, see the two [_refuted] theorems; this is the part which is true): a program
    may call every modelled function in any order and on any values which it has, except
    [Mask::as_row] and [Row::inv_into_buf].  In every build, with words of any width, it makes no
    out-of-bounds unchecked read, and no row which it has at its end holds a bell beyond the stage of
    the row.  Its buffers may be of different stages and out of step, and its row numbers as large as
    it likes.  ([word_program] says that stages are machine words, as they are in Rust.) *)
Theorem C96_no_read_out_of_bounds_partial :
  forall bd limit hash_order prog, word_program bd limit hash_order [] prog ->
    Forall (fun c => may_go_beyond c = false) prog ->
    r_run bd limit hash_order prog <> Ub /\
    forall st r, r_run bd limit hash_order prog = Ret st -> In (VRow r) st -> within_stage r.
Proof.
  intros bd limit ho prog W F. pose proof (w_run bd limit ho prog [] (Forall_nil _) W (beyond_tame bd limit ho prog F [])) as S.
  unfold r_run. destruct (r_run_from bd limit ho [] prog) as [st| | |] eqn:E; cbn in S; split; try congruence; try contradiction.
  intros st' r [= <-] Hr. rewrite Forall_forall in S. apply wrow_within. exact (S _ Hr).
Qed.

(** C96: the two excluded calls are also fine in a program which checks, each time, that the bells of
    the mask are of its stage, or that the row in the buffer is no longer than the row to be inverted. *)
Theorem C96_tame_programs_partial :
  forall bd limit hash_order prog, word_program bd limit hash_order [] prog -> tame bd limit hash_order [] prog ->
    r_run bd limit hash_order prog <> Ub /\
    forall st r, r_run bd limit hash_order prog = Ret st -> In (VRow r) st -> within_stage r.
Proof.
  intros bd limit ho prog W C. pose proof (w_run bd limit ho prog [] (Forall_nil _) W C) as S.
  unfold r_run. destruct (r_run_from bd limit ho [] prog) as [st| | |] eqn:E; cbn in S; split; try congruence; try contradiction.
  intros st' r [= <-] Hr. rewrite Forall_forall in S. apply wrow_within. exact (S _ Hr).
Qed.

(** The model of this property is that of C68 and C78: with overflow checks, a program does what it
    does there, or it panics. *)
Theorem C96_checked_builds_partial :
  forall w limit hash_order prog,
    (forall i e, In (PowI i e) prog -> - 2 ^ (Z.of_N w - 1) <= e < 2 ^ (Z.of_N w - 1))%Z ->
    r_run (Build w true) limit hash_order prog = Panic \/
    r_run (Build w true) limit hash_order prog = run hash_order prog.
Proof.
  intros w limit ho prog T. exact (proj2 (rf_run (Build w true) limit ho prog T []) eq_refl).
Qed.

(** And a program which takes care (as in C68), whose values fit into the memory of the machine at every
    point and whose row numbers are below [2^w / stage - 2], does the same as there in every build, with
    or without checks. *)
Theorem C96_programs_which_fit_partial :
  forall bd limit hash_order prog,
    careful hash_order [] prog ->
    fits_program (width bd) hash_order [] prog -> roomy_program (width bd) limit hash_order [] prog ->
    r_run bd limit hash_order prog = run hash_order prog.
Proof. intros bd limit ho prog C F R. apply q_run; auto. Qed.

(** C96 is false of builds without overflow checks, even for programs which make none of the three
    calls of C68.  This one gets the "row" 323 from a wrapped row number, inverts it into a buffer which
    holds 54321, so that the buffer then holds 523, and multiplies a buffer with that row in it by 123. *)
Theorem C96_release_builds_refuted :
  exists prog, Forall (fun c => unguarded c = false) prog /\
    forall limit hash_order, r_run (Build 64 false) limit hash_order prog = Ub.
Proof.
  exists [VecParse (s2l "123" ++ [10%N] ++ s2l "231"); VecGet 0 (N.to_nat 6148914691236517206); Parse (s2l "54321");
          InvIntoBuf 1 2; VecFromRow 2; Parse (s2l "123"); VecPreMultiply 3 4].
  split; [repeat constructor|]. intros limit ho. unfold r_run, r_run_from. cbn [foldM].
  replace (r_step (Build 64 false) limit ho [] (VecParse (s2l "123" ++ [10%N] ++ s2l "231")))
    with (@Ret (list value) [VVec (Ssv [0; 1; 2; 1; 2; 0] 3)]) by reflexivity.
  cbn [bind r_step m_step with_vec nth_error]. rewrite N2Nat.id.
  replace (m_ssv_get (Build 64 false) (Ssv [0; 1; 2; 1; 2; 0] 3) 6148914691236517206) with (@Ret (option row) (Some [2; 1; 2]))
    by (vm_compute; reflexivity).
  vm_compute. reflexivity.
Qed.

(** C96 is false of every build, even for programs without masks: this one fills a buffer of rows of
    three bells from one of two bells, reads the "row" 121 from it, and goes on in the same way. *)
Theorem C96_every_build_refuted :
  exists prog, (forall i, ~ In (MaskAsRow i) prog) /\
    forall bd limit hash_order, (3 <= width bd)%N -> r_run bd limit hash_order prog = Ub.
Proof.
  exists [Rounds 3; Rounds 2; VecNew 3; VecFromRow 1; VecExtendTransposed 2 0 3; VecExtendTransposed 2 0 3;
          VecIndex 2 0; Parse (s2l "12543"); InvIntoBuf 4 5; VecFromRow 5; VecPreMultiply 6 0].
  split; [intros i H; cbn in H; intuition discriminate|]. intros bd limit ho Hw.
  assert (P : (8 <= 2 ^ width bd)%N) by (change 8%N with (2 ^ 3)%N; apply N.pow_le_mono_r; lia).
  assert (W : forall n, (n < 8)%N -> word bd n = Ret n) by (intros n Hn; apply word_fits; lia).
  assert (L : m_ssv_len bd (Ssv [0; 1] 2) = Ret 1%N) by (unfold m_ssv_len; destruct (checked bd); reflexivity).
  assert (X : forall l, m_ssv_extend_range_transposed bd (Ssv l 3) [0; 1; 2] (Ssv [0; 1] 2) MUnbounded MUnbounded = Ret (Ssv (l ++ [0; 1]) 3, Ok tt)).
  { intros l. unfold m_ssv_extend_range_transposed, m_to_bell_range. cbn [row_stage length stage_new bind ssv_stage test_err Nat.eqb].
    change (stage_new 3) with (@Ret nat 3). cbn [bind test_err Nat.eqb]. rewrite L. cbn. rewrite !W by reflexivity. reflexivity. }
  assert (Y : m_ssv_index bd (Ssv [0; 1; 0; 1] 3) 0 = Ret [0; 1; 0]).
  { unfold m_ssv_index, m_range_of_row. cbn. rewrite !W by reflexivity. cbn. rewrite !W by reflexivity. reflexivity. }
  unfold r_run, r_run_from. cbn [foldM].
  change (r_step bd limit ho [] (Rounds 3)) with (@Ret (list value) [VRow [0; 1; 2]]). cbn [bind].
  change (r_step bd limit ho [VRow [0; 1; 2]] (Rounds 2)) with (@Ret (list value) [VRow [0; 1; 2]; VRow [0; 1]]). cbn [bind].
  change (r_step bd limit ho [VRow [0; 1; 2]; VRow [0; 1]] (VecNew 3)) with (@Ret (list value) [VRow [0; 1; 2]; VRow [0; 1]; VVec (Ssv [] 3)]). cbn [bind].
  change (r_step bd limit ho [VRow [0; 1; 2]; VRow [0; 1]; VVec (Ssv [] 3)] (VecFromRow 1))
    with (@Ret (list value) [VRow [0; 1; 2]; VRow [0; 1]; VVec (Ssv [] 3); VVec (Ssv [0; 1] 2)]). cbn [bind].
  cbn [r_step with_vec with_row nth_error]. unfold r_ssv_extend_transposed. rewrite X. cbn [bind put upd app].
  cbn [r_step with_vec with_row nth_error]. rewrite X. cbn [bind put upd app].
  cbn [r_step m_step with_vec with_row nth_error N.of_nat]. rewrite Y. reflexivity.
Qed.

(** A program of the first theorem, in a build without checks and with words of eight bits.  It puts
    two bells of a row of two into a buffer of rows of three and uses that buffer, which is out of
    step; and it gets row 86 of it, which is a row at place 2 since 86 times 3 wraps around to 2. *)
Example C96_example :
  let prog := [Rounds 3; Rounds 2; VecNew 3; VecFromRow 1; VecExtendTransposed 2 0 3; VecPush 2 0; VecLast 2; VecGet 2 86;
               VecPop 2; Parse (s2l "321"); VecPush 2 0; VecPreMultiply 2 7; BlockWithDefault 2; BlockLeftover 8; Mul 4 7] in
  let rows := fun st => filter_map (fun v => match v with VRow r => Some r | _ => None end) st in
  word_program (Build 8 false) 100 (fun l => l) [] prog /\
  Forall (fun c => may_go_beyond c = false) prog /\
  exists st, r_run (Build 8 false) 100 (fun l => l) prog = Ret st /\
    rows st = [[0; 1; 2]; [0; 1]; [0; 1; 0]; [0; 1; 2]; [0; 1; 2]; [2; 1; 0]; [2; 1; 2]; [0; 1; 0]] /\
  r_run (Build 8 true) 100 (fun l => l) prog = Panic.
Proof.
  cbv zeta. split; [|split; [repeat constructor|]].
  - word_program_steps.
  - eexists. split; [vm_compute; reflexivity|]. split; vm_compute; reflexivity.
Qed.

(** A tame program which makes both of the other calls, on a "row" with a repeated bell. *)
Example C96_tame_example :
  let prog := [MaskParse (s2l "131"); MaskAsRow 0; Parse (s2l "321"); InvIntoBuf 1 2; VecFromRow 2; VecPreMultiply 3 1; VecIndex 3 0] in
  word_program (Build 64 false) 100 (fun l => l) [] prog /\
  tame (Build 64 false) 100 (fun l => l) [] prog /\
  existsb may_go_beyond prog = true /\
  exists st, r_run (Build 64 false) 100 (fun l => l) prog = Ret st /\ In (VRow [0; 2; 2]) st.
Proof.
  cbv zeta. split; [|split; [|split; [reflexivity|]]].
  - word_program_steps.
  - cbn [tame]. split; [exact I|]. intros st E; vm_compute in E; injection E as <-. split.
    { intros m b E H. vm_compute in E. injection E as <-. destruct H as [[= <-]|[[= <-]|[[= <-]|[]]]]; cbn; lia. }
    intros st E; vm_compute in E; injection E as <-. split; [exact I|].
    intros st E; vm_compute in E; injection E as <-. split.
    { intros r q E F. vm_compute in E, F. injection E as <-. injection F as <-. left. cbn. lia. }
    intros st E; vm_compute in E; injection E as <-. split; [exact I|].
    intros st E; vm_compute in E; injection E as <-. split; [exact I|].
    intros st E; vm_compute in E; injection E as <-. split; [exact I|].
    intros st E; vm_compute in E; injection E as <-. exact I.
  - eexists. split; [vm_compute; reflexivity|]. cbn. tauto.
Qed.

(** A program which fits, on words of eight bits: a plain course of Plain Bob Minimus, cut in two and
    joined again, one of its rows, and one row of an iterator. *)
Example C96_fits_example :
  let prog := [MethodFromString (s2l "Plain") 4 (s2l "-14-14,12"); MethodPlainCourse 3 0; MethodRowInCourse 0 20;
               BlockRowVec 1; VecPop 3; VecLast 3; VecGet 3 30; BlockSplit 1 9; BlockExtend 6 7; Parse (s2l "1342");
               RepeatNew 8 7; RepeatNextInto 9 8] in
  let rows := fun st => filter_map (fun v => match v with VRow r => Some r | _ => None end) st in
  careful (fun l => l) [] prog /\ fits_program 8 (fun l => l) [] prog /\ roomy_program 8 40 (fun l => l) [] prog /\
  exists st, run (fun l => l) prog = Ret st /\ rows st = [[2; 1; 3; 0]; [0; 1; 2; 3]; [0; 1; 3; 2]; [3; 0; 2; 1]] /\
    r_run (Build 8 true) 40 (fun l => l) prog = Ret st /\ r_run (Build 8 false) 40 (fun l => l) prog = Ret st.
Proof.
  cbv zeta. split; [apply unguarded_careful; repeat constructor|].
  match goal with |- fits_program ?w ?ho ?st ?prog /\ roomy_program _ ?limit _ _ _ /\ _ =>
    destruct (fit_run_b w limit ho prog st ltac:(vm_compute; reflexivity)) as [F R]; split; [exact F|split; [exact R|]] end.
  eexists. split; [vm_compute; reflexivity|]. repeat split; vm_compute; reflexivity.
Qed.
