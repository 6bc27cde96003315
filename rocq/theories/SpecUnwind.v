(** What a careful program is when it also catches panics, and which calls may leave a changed value
    behind when they panic. *)
From Verif Require Import Base Row Utils SameStageVec Block PlaceNot Mask Method Program Unwind Spec SpecProg.
Local Open Scope list_scope.

(** Every call of the program is careful when the program gets there, panics being caught. *)
Fixpoint careful_caught (hash_order : list nat -> list nat) (st : list value) (prog : list call) : Prop :=
  match prog with
  | [] => True
  | c :: t =>
      careful_call st c /\
      (forall st', step_caught hash_order st c = Ret st' -> careful_caught hash_order st' t)
  end.

(** The calls which write before their last panic: [AnnotBlock::extend], [extend_range] and
    [extend_from_within], and the two ways of advancing a [RepeatIter]. *)
Definition writes_early (c : call) : bool :=
  match c with
  | BlockExtend _ _ | BlockExtendRange _ _ _ _ | BlockExtendFromWithin _ _ _
  | RepeatNext _ | RepeatNextInto _ _ => true
  | _ => false
  end.

(** The two of them which do so even to a block with one annotation for each row before the left-over one. *)
Definition takes_a_range (c : call) : bool :=
  match c with BlockExtendRange _ _ _ _ | BlockExtendFromWithin _ _ _ => true | _ => false end.
