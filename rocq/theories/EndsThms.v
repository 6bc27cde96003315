(** Property theorems C93: calls of the API come to an end. *)

(* Generated from tools/props/Ends.src: the proofs behind PropsEnds.v. *)
From Verif Require Import Base Bell Stage Row Utils SameStageVec Block PlaceNot Mask Class Method Program
  Spec SpecVec SpecBlock SpecProg SpecEnds ListFacts BellFacts RowFacts MulFacts GroupFacts SsvFacts BlockFacts MethodThms SafeFacts SafeFacts2 UnwindFacts UnwindFacts2 UnwindFacts3 UnwindFacts4 EndFacts EndFacts2.
Local Open Scope list_scope.

Lemma pf_C93_calls_end_partial :
  forall ho prog st c, careful ho [] prog -> run ho prog = Ret st -> sound_course st c ->
    comes_to_an_end (fun k => step ho st (cut_off k c)).
Proof.
  intros ho prog st c C E D. assert (H : okst st).
  { pose proof (run_safe ho prog [] (Forall_nil _) C) as X. unfold run in E. rewrite E in X. exact X. }
  destruct (ends_step ho st c H D) as (k & N). apply (mono_end _ k); [apply mono_step|exact N].
Qed.

Lemma pf_C93_programs_end_partial :
  forall ho prog, (forall k, careful ho [] (map (cut_off k) prog)) ->
    Forall (fun c => makes_unsound_leads c = false) prog \/ Forall (fun c => rings_a_course c = false) prog ->
    comes_to_an_end (fun k => run ho (map (cut_off k) prog)).
Proof.
  intros ho prog C [F|F].
  - destruct (run_ends ho prog [] 0) as (k & _ & N); auto. apply (mono_end _ k); [apply mono_run|exact N].
  - destruct (run_ends_no_course ho prog [] 0) as (k & _ & N); auto. apply (mono_end _ k); [apply mono_run|exact N].
Qed.

Lemma pf_C93_methods_have_sound_leads :
  forall ho prog st i m, careful ho [] prog -> Forall (fun c => makes_unsound_leads c = false) prog ->
    run ho prog = Ret st -> nth_error st i = Some (VMethod m) -> sound_lead m.
Proof.
  intros ho prog st i m C F E N. pose proof (run_sound ho prog [] (Forall_nil _) (Forall_nil _) (Forall_nil _) C F) as X.
  unfold run in E. rewrite E in X. destruct X as (_ & W & R).
  exact (sound_store st (MethodPlainCourse 0 i) W R m N).
Qed.

Lemma pf_C93_enough_is_enough :
  forall ho st c k k', k <= k' -> step ho st (cut_off k c) <> NoFuel -> step ho st (cut_off k' c) = step ho st (cut_off k c).
Proof. intros ho st c k k' L N. apply (mono_step ho st c); auto. Qed.

Lemma pf_C93_repeated_bells_refuted :
  forall ho, exists st, run ho two_trebles = Ret st /\ nth_error st 1 = Some (VRow [0; 0]) /\
    runs_for_ever (fun k => step ho st (ChangeRow (InRow 1) (Parity k))) /\
    runs_for_ever (fun k => step ho st (Closure k 1)) /\
    runs_for_ever (fun k => step ho st (ClosureFromRounds k 1)).
Proof.
  intros ho. eexists. split; [reflexivity|]. split; [reflexivity|]. split; [|split].
  - intros [|k]; [reflexivity|]. cbn [step nth_error with_row change_row app]. unfold row_parity. cbn. rewrite parity_for_ever. reflexivity.
  - intros k. cbn [step nth_error with_row app]. unfold closure. change (closure_loop k _ _) with (closure_loop k [0;0] [0;0]).
    rewrite closure_for_ever. reflexivity.
  - intros [|k]; [reflexivity|]. cbn [step nth_error with_row app]. unfold closure_from_rounds. cbn. rewrite closure_from_rounds_for_ever. reflexivity.
Qed.

Lemma pf_C93_method_new_refuted :
  forall ho, exists st m, run ho back_to_back = Ret st /\ nth_error st 1 = Some (VMethod m) /\
    Forall (fun c => unguarded c = false) back_to_back /\
    runs_for_ever (fun k => step ho st (MethodPlainCourse k 1)).
Proof.
  intros ho. set (b := Block (Ssv [1; 0; 1; 0] 2) [@None (list N)]). set (m := Method [] [] (FullClass false false false Principle) b).
  exists [VBlock b; VMethod m], m. split; [reflexivity|]. split; [reflexivity|]. split; [repeat constructor|].
  intros k. cbn [step nth_error with_method]. unfold plain_course.
  change (block_map_annots_with_index _ _) with (Block (Ssv [1; 0; 1; 0] 2) [RowAnnot 0 None]). change (lead_len m) with 1.
  rewrite (backwards_for_ever k [RowAnnot 0 None] 0 (Ssv [1; 0; 1; 0] 2)); [reflexivity| |cbn; lia].
  split; [lia|]. split; [reflexivity|]. split; [|reflexivity]. repeat (apply Forall_cons; [split; [vr|reflexivity]|]). constructor.
Qed.

Lemma pf_C93_extend_range_refuted :
  forall ho, exists st m, run ho too_many_annotations = Ret st /\ nth_error st 2 = Some (VMethod m) /\
    block_get_row (first_lead m) 0 = Some [0; 1; 2] /\
    Forall (fun c => unguarded c = false) too_many_annotations /\
    runs_for_ever (fun k => step ho st (MethodPlainCourse k 2)).
Proof.
  intros ho. set (b := Block (Ssv [0; 1; 2; 1; 2; 0] 3) [@None (list N); None; None]).
  set (m := Method (s2l "x Singles") (s2l "x") (FullClass false false false Principle) b).
  exists [VBlock (Block (Ssv [0; 1; 2; 1; 2; 0; 2; 0; 1; 0; 1; 2] 3) [None; None; None]); VBlock b; VMethod m], m.
  split; [reflexivity|]. split; [reflexivity|]. split; [reflexivity|]. split; [repeat constructor|].
  intros [|[|[|k]]]; try reflexivity. cbn [step nth_error with_method]. unfold plain_course.
  change (block_map_annots_with_index _ _) with (Block (Ssv [0; 1; 2; 1; 2; 0] 3) [RowAnnot 0 None; RowAnnot 1 None; RowAnnot 2 None]). change (lead_len m) with 3.
  set (an := [RowAnnot 0 None; RowAnnot 1 None; RowAnnot 2 None]).
  set (v := Ssv [0; 1; 2; 1; 2; 0; 2; 0; 1; 0; 1; 2; 1; 2; 0; 2; 0; 1; 0; 1; 2; 1; 2; 0; 2; 0; 1; 0; 1; 2; 1; 2; 0] 3).
  change (plain_course_loop (S (S (S k))) 3 _) with (plain_course_loop k 3 (Block v (an ++ an ++ an ++ an))).
  rewrite (unsound_for_ever k [[1;2;0]; [2;0;1]; [0;1;2]; [1;2;0]; [2;0;1]; [0;1;2]]); [reflexivity| |cbn; lia].
  split; [lia|]. split; [reflexivity|]. split; [|reflexivity].
  cbn [app]. repeat (apply Forall_cons; [split; [vr|reflexivity]|]). constructor.
Qed.
