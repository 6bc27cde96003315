(** For the theorems about what a program may read in any kind of build. *)
From Verif Require Import Base Bell Stage Row Utils SameStageVec Block PlaceNot Mask Class Method Program Machine
  Release Spec.
Local Open Scope list_scope.

(** Every bell of the row is one of its stage (though perhaps more than once). *)
Definition within_stage (r : list nat) : Prop := forall b, In b r -> b < length r.

(** The two calls which can make a row with a bell beyond its stage: [Mask::as_row] and
    [Row::inv_into_buf]. *)
Definition may_go_beyond (c : call) : bool :=
  match c with MaskAsRow _ | InvIntoBuf _ _ => true | _ => false end.

(** What the caller has to check before such a call: that the bells of the mask are of its stage;
    that the old row in the buffer has no more bells than the row to be inverted, or that the latter
    is a proper row. *)
Definition tame_call (st : list value) (c : call) : Prop :=
  match c with
  | MaskAsRow i => forall m b, nth_error st i = Some (VMask m) -> In (Some b) m -> b < length m
  | InvIntoBuf i out => forall r q, nth_error st i = Some (VRow r) -> nth_error st out = Some (VRow q) ->
      length q <= length r \/ valid_row r
  | _ => True
  end.

(** Every call of the program is tame when the program gets there. *)
Fixpoint tame (bd : build) (limit : N) (hash_order : list nat -> list nat) (st : list value) (prog : list call) : Prop :=
  match prog with
  | [] => True
  | c :: t =>
      tame_call st c /\
      (forall st', r_step bd limit hash_order st c = Ret st' -> tame bd limit hash_order st' t)
  end.

(** The stage of the rows in a value which holds several. *)
Definition stage_of (v : value) : option nat :=
  match v with
  | VVec x => Some (ssv_stage x)
  | VBlock b => Some (block_stage b)
  | VRepeat ri => Some (block_stage (ri_block ri))
  | VMethod m => Some (block_stage (first_lead m))
  | _ => None
  end.

(** These stages are machine words, as they are in Rust. *)
Definition word_stages (w : N) (st : list value) : Prop :=
  forall v s, In v st -> stage_of v = Some s -> (N.of_nat s < 2 ^ w)%N.

(** This is so at every point of the program. *)
Fixpoint word_program (bd : build) (limit : N) (hash_order : list nat -> list nat) (st : list value) (prog : list call) : Prop :=
  word_stages (width bd) st /\
  match prog with
  | [] => True
  | c :: t => forall st', r_step bd limit hash_order st c = Ret st' -> word_program bd limit hash_order st' t
  end.

(** The block in a value. *)
Definition block_of (v : value) : option (block (option str)) :=
  match v with
  | VBlock b => Some b
  | VRepeat ri => Some (ri_block ri)
  | VMethod m => Some (first_lead m)
  | _ => None
  end.

(** The values fit into memory, on a machine with words of [w] bits and with [limit] annotations at
    most in one block.  (For a block also one row for each of its annotations.) *)
Definition roomy (w limit : N) (st : list value) : Prop :=
  (forall x, In (VVec x) st -> (N.of_nat (length (ssv_bells x)) < 2 ^ w)%N) /\
  (forall v b, In v st -> block_of v = Some b ->
     (N.of_nat (length (ssv_bells (blk_rows b))) < 2 ^ w)%N /\
     (N.of_nat ((block_len b + 1) * block_stage b) < 2 ^ w)%N /\ (N.of_nat (block_len b) <= limit)%N).

(** There is room for a plain course of as many leads as [fuel] allows. *)
Definition room_for_course (w limit : N) (st : list value) (c : call) : Prop :=
  forall fuel i m, c = MethodPlainCourse fuel i -> nth_error st i = Some (VMethod m) ->
    let lead := first_lead m in
    (N.of_nat (length (ssv_bells (blk_rows lead)) + fuel * block_len lead * block_stage lead) < 2 ^ w)%N /\
    (N.of_nat (((fuel + 1) * block_len lead + 2) * block_stage lead) < 2 ^ w)%N /\
    (N.of_nat ((fuel + 1) * block_len lead) <= limit)%N.

(** This is so at every point of the program. *)
Fixpoint roomy_program (w limit : N) (hash_order : list nat -> list nat) (st : list value) (prog : list call) : Prop :=
  roomy w limit st /\
  match prog with
  | [] => True
  | c :: t =>
      room_for_course w limit st c /\
      (forall st', step hash_order st c = Ret st' -> roomy_program w limit hash_order st' t)
  end.
