(** What a careful program is, for the theorems about programs. *)
From Verif Require Import Base Bell Stage Row Utils SameStageVec Block PlaceNot Mask Class Method Program
  Spec.
Local Open Scope list_scope.

(** The three calls which can break the rows: [Mask::as_row], [SameStageVec::extend_transposed] and
    [SameStageVec::extend_range_transposed]. *)
Definition unguarded (c : call) : bool :=
  match c with
  | MaskAsRow _ | VecExtendTransposed _ _ _ | VecExtendRangeTransposed _ _ _ _ _ => true
  | _ => false
  end.

(** The mask can be completed to a row: some valid row agrees with it wherever it has a bell. *)
Definition mask_of_some_row (m : list (option nat)) : Prop :=
  exists r, valid_row r /\ length r = length m /\
    forall i b, nth_error m i = Some (Some b) -> nth_error r i = Some b.

(** What the caller has to check before an unguarded call: that the mask fits some row; that the
    buffer copied from has the same stage as the buffer copied to. *)
Definition careful_call (st : list value) (c : call) : Prop :=
  match c with
  | MaskAsRow i => forall m, nth_error st i = Some (VMask m) -> mask_of_some_row m
  | VecExtendTransposed v _ w | VecExtendRangeTransposed v _ w _ _ =>
      forall x y, nth_error st v = Some (VVec x) -> nth_error st w = Some (VVec y) ->
        ssv_stage x = ssv_stage y
  | _ => True
  end.

(** Every call of the program is careful when the program gets there. *)
Fixpoint careful (hash_order : list nat -> list nat) (st : list value) (prog : list call) : Prop :=
  match prog with
  | [] => True
  | c :: t =>
      careful_call st c /\ (forall st', step hash_order st c = Ret st' -> careful hash_order st' t)
  end.
