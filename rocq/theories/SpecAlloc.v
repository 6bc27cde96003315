(** Specification vocabulary for the requests made to the allocator. *)
From Verif Require Import Base Spec Bell Stage Row Utils SameStageVec Block Alloc SpecVec SpecAcc.
Local Open Scope list_scope.

(** A vector which asks for room gets at least what it needs. *)
Definition ample (grow : nat -> nat -> nat) : Prop := forall old needed, needed <= grow old needed.

(** What a computation gives when rooms and requests are forgotten. *)
Definition bare {A B} (f : A -> B) (m : alloc A) : exec B := '(a, _) <- m;; Ret (f a).

(** The number of requests of a computation which ends. *)
Definition requests {A} (m : alloc A) (n : nat) : Prop := exists a, m = Ret (a, n).

(** An accumulator without its rooms. *)
Definition acc_of (a : aacc) : accumulator := Accumulator (items (aa_total a)) (items (aa_temp a)).

Definition on_fst {A B C} (f : A -> B) (p : A * C) : B * C := (f (fst p), snd p).
Definition on_ok {A B E} (f : A -> B) (r : result A E) : result B E :=
  match r with Ok a => Ok (f a) | Err e => Err e end.

(** ** Histories *)
Section Grow.
Context (grow : nat -> nat -> nat).

(** One call on an accumulator. *)
Definition a_acc_call (a : aacc) (o : acc_op) : alloc (aacc * result unit incompatible_stages) :=
  match o with
  | PutAfter r => a_accumulate grow a r
  | PutBefore r => a_pre_accumulate grow a r
  | SetTo r => a' <+ a_set grow a r;; Ret ((a', Ok tt), 0)
  end.
Fixpoint a_acc_calls (a : aacc) (ops : list acc_op) : alloc aacc :=
  match ops with
  | [] => Ret (a, 0)
  | o :: t => '(a', _) <+ a_acc_call a o;; a_acc_calls a' t
  end.

Definition a_keep (v : assv) (r : option assv) : assv * vec_out :=
  match r with None => (v, OBool false) | Some v' => (v', OBool true) end.

(** One call on a buffer of rows, as in [ssv_step]; the requests made for another buffer which is an
    argument are not counted. *)
Definition a_ssv_step (v : assv) (op : vec_op) : alloc (assv * vec_out) :=
  match op with
  | VPush r => '(v', res) <+ a_ssv_push grow v r;; Ret ((v', out_of res), 0)
  | VPop => '(v', r) <+ a_ssv_pop grow v;; Ret ((v', ORow (option_map items r)), 0)
  | VExtend rows => '(v', res) <+ a_ssv_extend grow v rows;; Ret ((v', out_of res), 0)
  | VExtendFromBuf os orows =>
      o <+ free (ssv_build os orows);;
      '(v', res) <+ a_ssv_extend_from_buf grow v o;; Ret ((v', out_of res), 0)
  | VExtendRangeTransposed t os orows lo hi =>
      o <+ free (ssv_build os orows);;
      '(v', res) <+ a_ssv_extend_range_transposed grow v t o lo hi;; Ret ((v', out_of res), 0)
  | VExtendTransposed t os orows =>
      o <+ free (ssv_build os orows);;
      '(v', res) <+ a_ssv_extend_transposed grow v t o;; Ret ((v', out_of res), 0)
  | VExtendTransposedFromWithin lo hi t =>
      '(v', res) <+ a_ssv_extend_transposed_from_within grow v lo hi t;; Ret ((v', out_of res), 0)
  | VPreMultiply t => '(v', res) <+ a_ssv_pre_multiply v t;; Ret ((v', out_of res), 0)
  | VBecomePreMultiplied t =>
      res <+ a_ssv_pre_multiplied grow v t;;
      match res with
      | Ok v' => Ret ((v', ODone), 0)
      | Err (IncompatibleStages a b) => Ret ((v, OErr a b), 0)
      end
  | VSplitKeepLeft i => o <+ a_ssv_split grow v i;; Ret (a_keep v (option_map fst o), 0)
  | VSplitKeepRight i => o <+ a_ssv_split grow v i;; Ret (a_keep v (option_map snd o), 0)
  | VSwapInRow i a b => o <+ a_ssv_edit v i (fun r => row_swap r a b);; Ret (a_keep v o, 0)
  | VSwapInFirst a b => o <+ a_ssv_edit v 0 (fun r => row_swap r a b);; Ret (a_keep v o, 0)
  | VSwapInLast a b =>
      n <+ free (ssv_len (ssv_of v));;
      o <+ (if n =? 0 then Ret (None, 0) else a_ssv_edit v (n - 1) (fun r => row_swap r a b));;
      Ret (a_keep v o, 0)
  | VPathOf b =>
      p <+ free (ssv_path_of (ssv_of v) b);;
      match p with
      | None => Ret ((v, OPath None), 0)
      | Some l => c <+ vec_collect grow l;; Ret ((v, OPath (Some (items c))), 0)
      end
  | VLen | VIsEmpty | VGet _ | VIndex _ | VFirst | VLast =>
      '(_, out) <+ free (ssv_step (ssv_of v) op);; Ret ((v, out), 0)
  end.
Fixpoint a_ssv_run (v : assv) (ops : list vec_op) : alloc (assv * list vec_out) :=
  match ops with
  | [] => Ret ((v, []), 0)
  | op :: t =>
      '(v', o) <+ a_ssv_step v op;;
      '(v'', os) <+ a_ssv_run v' t;;
      Ret ((v'', o :: os), 0)
  end.

(** Taking [k] rows from an iterator with [next], and with [next_into]. *)
Fixpoint a_nexts {A} (k : nat) (ri : repeat_iter A) : alloc (list (option (list nat * nat * A)) * repeat_iter A) :=
  match k with
  | O => Ret (([], ri), 0)
  | S k' =>
      '(o, ri') <+ a_repeat_iter_next grow ri;;
      '(os, ri'') <+ a_nexts k' ri';;
      Ret ((option_map (fun '(r, i, a) => (items r, i, a)) o :: os, ri''), 0)
  end.
Fixpoint a_next_intos {A} (k : nat) (ri : repeat_iter A) (out : vec nat)
  : alloc (list (list nat * option (nat * A)) * vec nat) :=
  match k with
  | O => Ret (([], out), 0)
  | S k' =>
      '(o, out', ri') <+ a_repeat_iter_next_into grow ri out;;
      '(os, out'') <+ a_next_intos k' ri' out';;
      Ret (((items out', o) :: os, out''), 0)
  end.
End Grow.

(** ** Buffers of rows which never grow above [n] rows *)

(** Calls after which the buffer is another one. *)
Definition leaves_the_buffer (op : vec_op) : Prop :=
  match op with VBecomePreMultiplied _ | VSplitKeepRight _ => True | _ => False end.

(** No call leaves more than [n] rows in the buffer, nor offers it more in one go. *)
Fixpoint never_above (n s : nat) (rs : list (list nat)) (ops : list vec_op) : Prop :=
  length rs <= n /\
  match ops with
  | [] => True
  | op :: t =>
      ~ leaves_the_buffer op /\
      match op with VExtend rows => length rs + length rows <= n | _ => True end /\
      match vec_step s rs op with Some (rs', _) => never_above n s rs' t | None => False end
  end.

(** The number of new vectors handed out to the caller: a row taken off the end, the places of a bell,
    the rows cut off by a split (none when there is nothing to hold). *)
Definition handed_out (s : nat) (rs : list (list nat)) (op : vec_op) : nat :=
  match op with
  | VPop => if length rs =? 0 then 0 else 1
  | VPathOf b => if (b <? s) && negb (length rs =? 0) then 1 else 0
  | VSplitKeepLeft i => if i <? length rs then 1 else 0
  | _ => 0
  end.
Fixpoint all_handed_out (s : nat) (rs : list (list nat)) (ops : list vec_op) : nat :=
  match ops with
  | [] => 0
  | op :: t =>
      handed_out s rs op + match vec_step s rs op with Some (rs', _) => all_handed_out s rs' t | None => 0 end
  end.
