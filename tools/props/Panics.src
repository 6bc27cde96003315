(** Property C112: which calls of a program panic. *)
(*IMPORTS*)
From Verif Require Import Base Spec SpecVec SpecBlock SpecPn SpecClass Bell Stage Row Utils SameStageVec Block PlaceNot Mask Class Method Program SpecProg SpecEnds SpecPanics
  ListFacts SsvFacts BlockFacts SafeFacts SafeFacts2 UnwindFacts2 UnwindFacts3 UnwindFacts4 PanicFacts PanicFacts3.
Local Open Scope list_scope.
(*BODY*)
(** C112: take any program over the safe API which does not use [AnnotBlock::extend_range] and is
    careful (C68), and any next call.  The call panics exactly when the small table [must_panic] says so:
    when its arguments are bad in the way which is listed there for this call.  Whatever the table does
    not list never panics, in whatever state the program is. *)
Theorem C112_calls :
  forall hash_order before st c, (forall l, collected_set l (hash_order l)) ->
    careful hash_order [] before -> Forall (fun c => extends_by_range c = false) before ->
    run hash_order before = Ret st -> careful_call st c ->
    (step hash_order st c = Panic <-> must_panic st c).
Proof.
  intros ho before st c HO C F E Cc. destruct (run_invariants ho before [] st) as (I1 & I2 & I3 & I4); auto.
  apply step_panics; auto.
Qed.

(** C112: so a whole program panics exactly when it gets to a call which must panic. *)
Theorem C112_programs :
  forall hash_order prog, (forall l, collected_set l (hash_order l)) ->
    careful hash_order [] prog -> Forall (fun c => extends_by_range c = false) prog ->
    (run hash_order prog = Panic <->
     exists before c after st, prog = before ++ c :: after /\ run hash_order before = Ret st /\ must_panic st c).
Proof.
  intros ho prog HO C F. apply (run_panics ho prog [] HO); auto.
Qed.

(** [AnnotBlock::extend_range] is left out because it can leave a block with more annotations than rows
    (C31): on such a block even looking at the rows panics. *)
Theorem C112_after_extend_range :
  exists prog st c, (forall hash_order, run hash_order prog = Ret st) /\ ~ must_panic st c /\
    forall hash_order, step hash_order st c = Panic.
Proof.
  exists (firstn 3 too_many_annotations). eexists. exists (BlockAnnotRows 1).
  split; [intros; vm_compute; reflexivity|]. split; [intros []|]. intros; reflexivity.
Qed.

(** A program with a row, a buffer of three rows and a block of them: the conditions of the theorems hold.
    Taking row 2 is fine, row 3 panics; so does a range which ends before it starts, a bell outside a
    mask, and a label at the last row of a lead. *)
Definition C112_program : list call :=
  [Parse (s2l "231"); VecParse (map (fun c => if (c =? 47)%N then 10%N else c) (s2l "123/231/312")); BlockWithDefault 1;
   MaskEmpty 3; MethodNew [] [] (FullClass false false false Principle) 2; Rounds 4].
Example C112_nonvacuous hash_order :
  careful hash_order [] C112_program /\ Forall (fun c => extends_by_range c = false) C112_program /\
  exists st, run hash_order C112_program = Ret st /\ length st = 6.
Proof.
  split; [vm_compute; repeat (split; [exact I|]; intros ? E; injection E as <-); auto|].
  split; [repeat constructor|]. eexists; split; vm_compute; reflexivity.
Qed.
Example C112_index hash_order :
  run hash_order (C112_program ++ [VecIndex 1 2]) <> Panic /\ run hash_order (C112_program ++ [VecIndex 1 3]) = Panic.
Proof. split; vm_compute; [discriminate|reflexivity]. Qed.
Example C112_stages hash_order :
  run hash_order (C112_program ++ [Mul 0 0]) <> Panic /\ run hash_order (C112_program ++ [Mul 0 5]) = Panic.
Proof. split; vm_compute; [discriminate|reflexivity]. Qed.
Example C112_range hash_order :
  run hash_order (C112_program ++ [BlockExtendFromWithin 2 (Included 1) (Excluded 2)]) <> Panic /\
  run hash_order (C112_program ++ [BlockExtendFromWithin 2 (Included 2) (Excluded 1)]) = Panic.
Proof. split; vm_compute; [discriminate|reflexivity]. Qed.
Example C112_mask hash_order :
  run hash_order (C112_program ++ [MaskFix 3 2]) <> Panic /\ run hash_order (C112_program ++ [MaskFix 3 3]) = Panic.
Proof. split; vm_compute; [discriminate|reflexivity]. Qed.
Example C112_label hash_order :
  run hash_order (C112_program ++ [MethodSetLabel 4 1 None]) <> Panic /\
  run hash_order (C112_program ++ [MethodSetLabel 4 2 None]) = Panic.
Proof. split; vm_compute; [discriminate|reflexivity]. Qed.
