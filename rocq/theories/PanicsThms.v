(** Property C112: which calls of a program panic. *)

(* Generated from tools/props/Panics.src: the proofs behind PropsPanics.v. *)
From Verif Require Import Base Spec SpecVec SpecBlock SpecPn SpecClass Bell Stage Row Utils SameStageVec Block PlaceNot Mask Class Method Program SpecProg SpecEnds SpecPanics
  ListFacts SsvFacts BlockFacts SafeFacts SafeFacts2 UnwindFacts2 UnwindFacts3 UnwindFacts4 PanicFacts PanicFacts3.
Local Open Scope list_scope.

Lemma pf_C112_calls :
  forall hash_order before st c, (forall l, collected_set l (hash_order l)) ->
    careful hash_order [] before -> Forall (fun c => extends_by_range c = false) before ->
    run hash_order before = Ret st -> careful_call st c ->
    (step hash_order st c = Panic <-> must_panic st c).
Proof.
  intros ho before st c HO C F E Cc. destruct (run_invariants ho before [] st) as (I1 & I2 & I3 & I4); auto.
  apply step_panics; auto.
Qed.

Lemma pf_C112_programs :
  forall hash_order prog, (forall l, collected_set l (hash_order l)) ->
    careful hash_order [] prog -> Forall (fun c => extends_by_range c = false) prog ->
    (run hash_order prog = Panic <->
     exists before c after st, prog = before ++ c :: after /\ run hash_order before = Ret st /\ must_panic st c).
Proof.
  intros ho prog HO C F. apply (run_panics ho prog [] HO); auto.
Qed.

Lemma pf_C112_after_extend_range :
  exists prog st c, (forall hash_order, run hash_order prog = Ret st) /\ ~ must_panic st c /\
    forall hash_order, step hash_order st c = Panic.
Proof.
  exists (firstn 3 too_many_annotations). eexists. exists (BlockAnnotRows 1).
  split; [intros; vm_compute; reflexivity|]. split; [intros []|]. intros; reflexivity.
Qed.
