(** For the theorems about machine words: when the indices which a program uses are small enough. *)
From Verif Require Import Base Bell Stage Row Utils SameStageVec Block PlaceNot Mask Class Method Program
  Spec.
Local Open Scope list_scope.

(** The buffer of rows in a value: a [SameStageVec] itself, or the one of a block or a method. *)
Definition buffer_of (st : list value) (v : nat) : option ssv :=
  match nth_error st v with
  | Some (VVec x) => Some x
  | Some (VBlock b) => Some (blk_rows b)
  | Some (VMethod m) => Some (blk_rows (first_lead m))
  | _ => None
  end.

Definition end_values (b : bound) : list nat :=
  match b with Included n | Excluded n => [n] | Unbounded => [] end.

(** The row numbers which a call is given, each with the value of whose rows it is a number. *)
Definition row_numbers (c : call) : list (nat * nat) :=
  match c with
  | VecGet v i | VecIndex v i | VecSplit v i | ChangeRow (InVec v i) _
  | BlockGetRow v i | MethodRowInLead v i => [(v, i)]
  | VecExtendRangeTransposed _ _ v lo hi | VecExtendFromWithin v lo hi _
  | BlockExtendRange _ v lo hi | BlockExtendFromWithin v lo hi =>
      map (fun i => (v, i)) (end_values lo ++ end_values hi)
  | _ => []
  end.

(** On a machine with words of [w] bits: the values fit into memory (for a block also one row for each
    of its annotations), every row number the call is given is below [2^w / stage - 2], and an exponent
    is an [isize], though not the least one. *)
Definition fits (w : N) (st : list value) (c : call) : Prop :=
  (forall v x, buffer_of st v = Some x -> (N.of_nat (length (ssv_bells x)) < 2 ^ w)%N) /\
  (forall v b, nth_error st v = Some (VBlock b) ->
     (N.of_nat ((block_len b + 1) * block_stage b) < 2 ^ w)%N) /\
  (forall v i x, In (v, i) (row_numbers c) -> buffer_of st v = Some x ->
     ((N.of_nat i + 2) * N.of_nat (ssv_stage x) < 2 ^ w)%N) /\
  (forall i e, c = PowI i e -> (- 2 ^ (Z.of_N w - 1) < e < 2 ^ (Z.of_N w - 1))%Z).

(** Every call of the program fits when the program gets there. *)
Fixpoint fits_program (w : N) (hash_order : list nat -> list nat) (st : list value) (prog : list call) : Prop :=
  match prog with
  | [] => True
  | c :: t =>
      fits w st c /\ (forall st', step hash_order st c = Ret st' -> fits_program w hash_order st' t)
  end.
