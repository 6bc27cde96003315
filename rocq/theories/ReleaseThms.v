(** Property C96: unchecked reads, in builds with and without overflow checks and debug assertions. *)

(* Generated from tools/props/Release.src: the proofs behind PropsRelease.v. *)
From Verif Require Import Base Spec Bell Stage Row Utils SameStageVec Block PlaceNot Mask Class Method Program Machine Release
  SpecProg SpecMachine SpecRelease RowFacts SsvFacts SafeFacts SafeFacts2 MachineFacts MachineFacts2 ReleaseFacts ReleaseFacts2 WeakFacts WeakFacts2 WeakFacts3.
Local Open Scope list_scope.

Lemma pf_C96_no_read_out_of_bounds_partial :
  forall bd limit hash_order prog, word_program bd limit hash_order [] prog ->
    Forall (fun c => may_go_beyond c = false) prog ->
    r_run bd limit hash_order prog <> Ub /\
    forall st r, r_run bd limit hash_order prog = Ret st -> In (VRow r) st -> within_stage r.
Proof.
  intros bd limit ho prog W F. pose proof (w_run bd limit ho prog [] (Forall_nil _) W (beyond_tame bd limit ho prog F [])) as S.
  unfold r_run. destruct (r_run_from bd limit ho [] prog) as [st| | |] eqn:E; cbn in S; split; try congruence; try contradiction.
  intros st' r [= <-] Hr. rewrite Forall_forall in S. apply wrow_within. exact (S _ Hr).
Qed.

Lemma pf_C96_tame_programs_partial :
  forall bd limit hash_order prog, word_program bd limit hash_order [] prog -> tame bd limit hash_order [] prog ->
    r_run bd limit hash_order prog <> Ub /\
    forall st r, r_run bd limit hash_order prog = Ret st -> In (VRow r) st -> within_stage r.
Proof.
  intros bd limit ho prog W C. pose proof (w_run bd limit ho prog [] (Forall_nil _) W C) as S.
  unfold r_run. destruct (r_run_from bd limit ho [] prog) as [st| | |] eqn:E; cbn in S; split; try congruence; try contradiction.
  intros st' r [= <-] Hr. rewrite Forall_forall in S. apply wrow_within. exact (S _ Hr).
Qed.

Lemma pf_C96_checked_builds_partial :
  forall w limit hash_order prog,
    (forall i e, In (PowI i e) prog -> - 2 ^ (Z.of_N w - 1) <= e < 2 ^ (Z.of_N w - 1))%Z ->
    r_run (Build w true) limit hash_order prog = Panic \/
    r_run (Build w true) limit hash_order prog = run hash_order prog.
Proof.
  intros w limit ho prog T. exact (proj2 (rf_run (Build w true) limit ho prog T []) eq_refl).
Qed.

Lemma pf_C96_programs_which_fit_partial :
  forall bd limit hash_order prog,
    careful hash_order [] prog ->
    fits_program (width bd) hash_order [] prog -> roomy_program (width bd) limit hash_order [] prog ->
    r_run bd limit hash_order prog = run hash_order prog.
Proof. intros bd limit ho prog C F R. apply q_run; auto. Qed.

Lemma pf_C96_release_builds_refuted :
  exists prog, Forall (fun c => unguarded c = false) prog /\
    forall limit hash_order, r_run (Build 64 false) limit hash_order prog = Ub.
Proof.
  exists [VecParse (s2l "123" ++ [10%N] ++ s2l "231"); VecGet 0 (N.to_nat 6148914691236517206); Parse (s2l "54321");
          InvIntoBuf 1 2; VecFromRow 2; Parse (s2l "123"); VecPreMultiply 3 4].
  split; [repeat constructor|]. intros limit ho. unfold r_run, r_run_from. cbn [foldM].
  replace (r_step (Build 64 false) limit ho [] (VecParse (s2l "123" ++ [10%N] ++ s2l "231")))
    with (@Ret (list value) [VVec (Ssv [0; 1; 2; 1; 2; 0] 3)]) by reflexivity.
  cbn [bind r_step m_step with_vec nth_error]. rewrite N2Nat.id.
  replace (m_ssv_get (Build 64 false) (Ssv [0; 1; 2; 1; 2; 0] 3) 6148914691236517206) with (@Ret (option row) (Some [2; 1; 2]))
    by (vm_compute; reflexivity).
  vm_compute. reflexivity.
Qed.

Lemma pf_C96_every_build_refuted :
  exists prog, (forall i, ~ In (MaskAsRow i) prog) /\
    forall bd limit hash_order, (3 <= width bd)%N -> r_run bd limit hash_order prog = Ub.
Proof.
  exists [Rounds 3; Rounds 2; VecNew 3; VecFromRow 1; VecExtendTransposed 2 0 3; VecExtendTransposed 2 0 3;
          VecIndex 2 0; Parse (s2l "12543"); InvIntoBuf 4 5; VecFromRow 5; VecPreMultiply 6 0].
  split; [intros i H; cbn in H; intuition discriminate|]. intros bd limit ho Hw.
  assert (P : (8 <= 2 ^ width bd)%N) by (change 8%N with (2 ^ 3)%N; apply N.pow_le_mono_r; lia).
  assert (W : forall n, (n < 8)%N -> word bd n = Ret n) by (intros n Hn; apply word_fits; lia).
  assert (L : m_ssv_len bd (Ssv [0; 1] 2) = Ret 1%N) by (unfold m_ssv_len; destruct (checked bd); reflexivity).
  assert (X : forall l, m_ssv_extend_range_transposed bd (Ssv l 3) [0; 1; 2] (Ssv [0; 1] 2) MUnbounded MUnbounded = Ret (Ssv (l ++ [0; 1]) 3, Ok tt)).
  { intros l. unfold m_ssv_extend_range_transposed, m_to_bell_range. cbn [row_stage length stage_new bind ssv_stage test_err Nat.eqb].
    change (stage_new 3) with (@Ret nat 3). cbn [bind test_err Nat.eqb]. rewrite L. cbn. rewrite !W by reflexivity. reflexivity. }
  assert (Y : m_ssv_index bd (Ssv [0; 1; 0; 1] 3) 0 = Ret [0; 1; 0]).
  { unfold m_ssv_index, m_range_of_row. cbn. rewrite !W by reflexivity. cbn. rewrite !W by reflexivity. reflexivity. }
  unfold r_run, r_run_from. cbn [foldM].
  change (r_step bd limit ho [] (Rounds 3)) with (@Ret (list value) [VRow [0; 1; 2]]). cbn [bind].
  change (r_step bd limit ho [VRow [0; 1; 2]] (Rounds 2)) with (@Ret (list value) [VRow [0; 1; 2]; VRow [0; 1]]). cbn [bind].
  change (r_step bd limit ho [VRow [0; 1; 2]; VRow [0; 1]] (VecNew 3)) with (@Ret (list value) [VRow [0; 1; 2]; VRow [0; 1]; VVec (Ssv [] 3)]). cbn [bind].
  change (r_step bd limit ho [VRow [0; 1; 2]; VRow [0; 1]; VVec (Ssv [] 3)] (VecFromRow 1))
    with (@Ret (list value) [VRow [0; 1; 2]; VRow [0; 1]; VVec (Ssv [] 3); VVec (Ssv [0; 1] 2)]). cbn [bind].
  cbn [r_step with_vec with_row nth_error]. unfold r_ssv_extend_transposed. rewrite X. cbn [bind put upd app].
  cbn [r_step with_vec with_row nth_error]. rewrite X. cbn [bind put upd app].
  cbn [r_step m_step with_vec with_row nth_error N.of_nat]. rewrite Y. reflexivity.
Qed.
