(** Property C68: whatever a program does with the safe API, its rows stay valid. *)

(* Generated from tools/props/Prog.src: the proofs behind PropsProg.v. *)
From Verif Require Import Base Spec Bell Stage Row Utils SameStageVec Block PlaceNot Mask Class Method Program SpecProg
  RowFacts SsvFacts SafeFacts SafeFacts2.
Local Open Scope list_scope.

Lemma pf_C68_safe_programs_partial :
  forall hash_order prog, Forall (fun c => unguarded c = false) prog ->
    run hash_order prog <> Ub /\
    forall st r, run hash_order prog = Ret st -> In (VRow r) st -> valid_row r.
Proof.
  intros ho prog F. pose proof (run_safe ho prog [] (Forall_nil _) (unguarded_careful ho prog F [])) as S.
  unfold run. destruct (run_from ho [] prog) as [st| | |] eqn:E; cbn in S; split; try congruence; try contradiction.
  intros st' r E' Hr. injection E' as ->. rewrite Forall_forall in S. exact (S _ Hr).
Qed.

Lemma pf_C68_careful_programs_partial :
  forall hash_order prog, careful hash_order [] prog ->
    run hash_order prog <> Ub /\
    forall st r, run hash_order prog = Ret st -> In (VRow r) st -> valid_row r.
Proof.
  intros ho prog C. pose proof (run_safe ho prog [] (Forall_nil _) C) as S.
  unfold run. destruct (run_from ho [] prog) as [st| | |] eqn:E; cbn in S; split; try congruence; try contradiction.
  intros st' r E' Hr. injection E' as ->. rewrite Forall_forall in S. exact (S _ Hr).
Qed.

Lemma pf_C68_at_every_point_partial :
  forall hash_order before after st r, Forall (fun c => unguarded c = false) (before ++ after) ->
    run hash_order before = Ret st -> In (VRow r) st -> valid_row r.
Proof.
  intros ho before after st r F E H. apply Forall_app in F as [F _].
  exact (proj2 (pf_C68_safe_programs_partial ho before F) st r E H).
Qed.

Lemma pf_C68_no_unchecked_access_out_of_bounds_refuted :
  exists prog, forall hash_order, run hash_order prog = Ub.
Proof.
  exists [MaskParse (s2l "29"); MaskAsRow 0; VecFromRow 1; Parse (s2l "21"); VecPreMultiply 2 3].
  intros ho. reflexivity.
Qed.

Lemma pf_C68_every_row_is_valid_refuted :
  (exists prog st r, (forall hash_order, run hash_order prog = Ret st) /\ In (VRow r) st /\ ~ valid_row r /\
     In (MaskAsRow 0) prog) /\
  (exists prog st r, (forall hash_order, run hash_order prog = Ret st) /\ In (VRow r) st /\ ~ valid_row r /\
     In (VecExtendTransposed 2 0 3) prog).
Proof.
  split.
  - exists [MaskParse (s2l "112"); MaskAsRow 0]. eexists. exists [0; 0; 1]. split; [intros; reflexivity|].
    split; [right; left; reflexivity|]. split; [|right; left; reflexivity].
    intros (_ & N & _). inversion N as [|? ? X _]; subst. apply X. left; reflexivity.
  - exists [Rounds 4; Rounds 2; VecNew 4; VecFromRow 1; VecExtendTransposed 2 0 3; VecExtendTransposed 2 0 3; VecIndex 2 0].
    eexists. exists [0; 1; 0; 1]. split; [intros; reflexivity|].
    split; [do 4 right; left; reflexivity|]. split; [|do 4 right; left; reflexivity].
    intros (_ & N & _). inversion N as [|? ? X _]; subst. apply X. right; left; reflexivity.
Qed.
