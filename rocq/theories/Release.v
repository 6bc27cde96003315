(** Programs on a machine, also on buffers which are out of step.  [Machine] keeps the debug assertions
    of same_stage_vec.rs 158 and 250 in the functions which it takes over from the other files.  A
    build without overflow checks has no such assertions either, so that a program can go on with a
    buffer which is not a whole number of rows.  This file repeats the functions which meet those
    assertions, or which multiply a length of such a buffer, for both kinds of build.

    Simplification: a [Vec] of annotations which would need more than [limit] elements is refused with
    a panic ("capacity overflow").  Rust's limit depends on the size of the type of annotations; the
    theorems are about every limit.  Other failures of allocation are not modelled.  The loop at
    class.rs 521-534 is cut off after as many rounds as there are bells, as in [Class]: on a buffer out
    of step it may go round for ever, but only through places which it has already been through. *)
From Verif Require Import Base Bell Stage Row Utils SameStageVec Block PlaceNot Mask Class Method Program Machine.
From Verif Require Call.
Local Open Scope list_scope.

Section Release.
Context (bd : build) (limit : N).

(** A [debug_assert!]: the assertion goes with the overflow checks. *)
(* same_stage_vec.rs 158, 250 *)
Definition debug_assert (b : bool) : exec unit := if checked bd then assert_ b else Ret tt.

(** ** same_stage_vec.rs *)

(** [self.len().checked_sub(1)] *)
(* same_stage_vec.rs 203, 208, block.rs 126 *)
Definition r_last_index (v : ssv) : exec (option N) :=
  n <- m_ssv_len bd v;; Ret (if (n =? 0)%N then None else Some (n - 1)%N).

(* same_stage_vec.rs 202-204 *)
Definition r_ssv_last (v : ssv) : exec (option row) :=
  o <- r_last_index v;;
  match o with None => Ret None | Some i => m_ssv_get bd v i end.

(* same_stage_vec.rs 207-209, for a caller which then changes the row in place by [f] *)
Definition r_ssv_edit_last (v : ssv) (f : row -> exec row) : exec (option ssv) :=
  o <- r_last_index v;;
  match o with None => Ret None | Some i => m_ssv_edit bd v i f end.

(* same_stage_vec.rs 246-254; the remainder for stage 0, which no [Stage] has, is a panic *)
Definition r_ssv_pop (v : ssv) : exec (ssv * option row) :=
  if length (ssv_bells v) <? ssv_stage v then Ret (v, None)
  else
    let start := length (ssv_bells v) - ssv_stage v in
    debug_assert (negb (ssv_stage v =? 0) && (start mod ssv_stage v =? 0));;;
    Ret (Ssv (firstn start (ssv_bells v)) (ssv_stage v), Some (skipn start (ssv_bells v))).

(* same_stage_vec.rs 288-294 *)
Definition r_ssv_extend_transposed (v : ssv) (transposition : row) (other : ssv)
  : exec (ssv * result unit incompatible_stages) :=
  m_ssv_extend_range_transposed bd v transposition other MUnbounded MUnbounded.

(* same_stage_vec.rs 355-359 *)
Definition r_ssv_pre_multiplied (v : ssv) (lhs : row) : exec (result ssv incompatible_stages) :=
  '(new, res) <- r_ssv_extend_transposed (ssv_new (ssv_stage v)) lhs v;;
  match res with Err e => Ret (Err e) | Ok _ => Ret (Ok new) end.

(** ** block.rs *)
Section Block.
Context {A : Type}.

(** A [Vec] of so many annotations. *)
(* block.rs 108, 127, 335, 360 *)
Definition with_capacity (annots : list A) : exec (list A) :=
  if (N.of_nat (length annots) <=? limit)%N then Ret annots else Panic.

(* block.rs 102-111; the number of annotations wraps around if there is no whole row *)
Definition r_with_default_annots (default : A) (rows : ssv) : exec (block A) :=
  assert_ (negb (ssv_is_empty rows));;;
  n <- m_ssv_len bd rows;;
  num_annots <- word_sub bd n 1;;
  if (num_annots <=? limit)%N then Ret (Block rows (repeat default (N.to_nat num_annots))) else Panic.

(* block.rs 125-131; [f] is pure *)
Definition r_with_annots_from_indices (rows : ssv) (f : nat -> A) : exec (option (block A)) :=
  o <- r_last_index rows;;
  match o with
  | None => Ret None
  | Some length_of_self =>
      annots <- with_capacity (map f (range 0 (N.to_nat length_of_self)));; Ret (Some (Block rows annots))
  end.

(* block.rs 216-218 *)
Definition r_block_leftover_row (b : block A) : exec row :=
  r <- r_ssv_last (blk_rows b);; unwrap r.

(* block.rs 313-338 *)
Definition r_block_extend_range (b other : block A) (lo hi : m_bound)
  : exec (block A * result unit incompatible_stages) :=
  '(start, end_) <- m_clamp_range bd lo hi (N.of_nat (block_len other));;
  o <- m_block_get_row bd other start;;
  first <- unwrap o;;
  leftover <- r_block_leftover_row b;;
  t <- solve_xa_equals_b first leftover;;
  match t with
  | Err e => Ret (b, Err e)
  | Ok transposition =>
      '(rows, _) <- r_ssv_pop (blk_rows b);;
      end_1 <- word bd (end_ + 1);;
      '(rows', res) <- m_ssv_extend_range_transposed bd rows transposition (blk_rows other)
                         (MIncluded start) (MExcluded end_1);;
      unwrap_res res;;;
      annots <- with_capacity (blk_annots b ++ blk_annots other);;
      Ret (Block rows' annots, Ok tt)
  end.

(* block.rs 300-305 *)
Definition r_block_extend (b other : block A) : exec (block A * result unit incompatible_stages) :=
  r_block_extend_range b other MUnbounded MUnbounded.

(* block.rs 341-363 *)
Definition r_block_extend_from_within (b : block A) (lo hi : m_bound) : exec (block A) :=
  '(start, end_) <- m_clamp_range bd lo hi (N.of_nat (block_len b));;
  o <- m_block_get_row bd b start;;
  first <- unwrap o;;
  leftover <- r_block_leftover_row b;;
  t <- solve_xa_equals_b first leftover;;
  transposition <- unwrap_res t;;
  start_1 <- word bd (start + 1);;
  end_1 <- word bd (end_ + 1);;
  '(rows, res) <- m_ssv_extend_transposed_from_within bd (blk_rows b) (MIncluded start_1) (MExcluded end_1) transposition;;
  unwrap_res res;;;
  new <- unwrap (slice_get (blk_annots b) start end_);;
  annots <- with_capacity (blk_annots b ++ new);;
  Ret (Block rows annots).

(* block.rs 425-445 *)
Definition r_block_split (b : block A) (index : N) : exec (option (block A * block A)) :=
  if (N.of_nat (length (blk_annots b)) <? index)%N then Ret None
  else
    let first_annots := firstn (N.to_nat index) (blk_annots b) in
    let second_annots := skipn (N.to_nat index) (blk_annots b) in
    o <- m_ssv_split bd (blk_rows b) index;;
    match o with
    | None => Ret None
    | Some (first_rows, second_rows) =>
        o <- m_ssv_get bd second_rows 0;;
        r <- unwrap o;;
        '(first_rows', res) <- ssv_push first_rows r;;
        unwrap_res res;;;
        Ret (Some (Block first_rows' first_annots, Block second_rows second_annots))
    end.

(* block.rs 522-532 *)
Definition r_next_untransposed_row (ri : repeat_iter A)
  : exec (option (nat * (row * A)) * repeat_iter A) :=
  '(o, it) <- ii_next (ri_iter ri);;
  match o with
  | Some x => Ret (Some x, RepeatIter (ri_head ri) it (ri_block ri))
  | None =>
      leftover <- r_block_leftover_row (ri_block ri);;
      head <- row_mul (ri_head ri) leftover;;
      it' <- get_iter (ri_block ri);;
      '(o', it'') <- ii_next it';;
      Ret (o', RepeatIter head it'' (ri_block ri))
  end.

(* block.rs 538-542 *)
Definition r_repeat_iter_next (ri : repeat_iter A) : exec (option (row * nat * A) * repeat_iter A) :=
  '(o, ri') <- r_next_untransposed_row ri;;
  match o with
  | None => Ret (None, ri')
  | Some (i, (r, a)) => next_row <- row_mul (ri_head ri') r;; Ret (Some (next_row, i, a), ri')
  end.

(* block.rs 510-516 *)
Definition r_repeat_iter_next_into (ri : repeat_iter A) (out : row)
  : exec (option (nat * A) * row * repeat_iter A) :=
  '(o, ri') <- r_next_untransposed_row ri;;
  match o with
  | None => Ret (None, out, ri')
  | Some (i, (r, a)) =>
      '(out', res) <- mul_into (ri_head ri') r out;;
      unwrap_res res;;;
      Ret (Some (i, a), out', ri')
  end.
End Block.

(** ** method/mod.rs *)

(* method/mod.rs 100-102 *)
Definition r_lead_head (m : method) : exec row := r_block_leftover_row (first_lead m).

(* method/mod.rs 140-147 *)
Definition r_row_in_plain_course (m : method) (i : N) : exec row :=
  let lead_len := N.of_nat (lead_len m) in
  assert_ (negb (lead_len =? 0)%N);;;
  let num_leads := (i / lead_len)%N in
  let sub_lead_idx := (i mod lead_len)%N in
  h <- r_lead_head m;;
  head <- pow_u h (N.to_nat num_leads);;
  row_within_lead <- m_row_in_plain_lead bd m sub_lead_idx;;
  row_mul head row_within_lead.

(* method/mod.rs 160-162 *)
Fixpoint r_plain_course_loop (fuel : nat) (len : N) (plain_course : block row_annot)
  : exec (block row_annot) :=
  match fuel with
  | O => NoFuel
  | S fuel' =>
      leftover <- r_block_leftover_row plain_course;;
      if is_rounds leftover then Ret plain_course
      else
        next <- r_block_extend_from_within plain_course (MIncluded 0) (MExcluded len);;
        r_plain_course_loop fuel' len next
  end.

(* method/mod.rs 150-164 *)
Definition r_plain_course (fuel : nat) (m : method) : exec (block row_annot) :=
  r_plain_course_loop fuel (N.of_nat (lead_len m))
    (block_map_annots_with_index (first_lead m) (fun i l => RowAnnot i l)).

(** ** Programs *)

(** A step of a program, as [m_step] in [Machine]. *)
(* no code in /repo: the caller, as in [Program] *)
Definition r_step (hash_order : list nat -> list nat) (st : store) (c : call) : exec store :=
  match c with
  | ChangeRow (InVecLast i) c =>
      with_vec st i (fun v => o <- r_ssv_edit_last v (change_row st c);;
                              match o with Some v' => put st i (VVec v') | None => Ret st end)
  | VecLast v => with_vec st v (fun v => r <- r_ssv_last v;; push_opt st (option_map VRow r))
  | VecPop v =>
      with_vec st v (fun x => '(x', r) <- r_ssv_pop x;; st' <- put st v (VVec x');; push_opt st' (option_map VRow r))
  | VecExtendTransposed v i w =>
      with_vec st v (fun x => with_row st i (fun t => with_vec st w (fun y =>
        '(x', _) <- r_ssv_extend_transposed x t y;; put st v (VVec x'))))
  | VecPreMultiplied v i =>
      with_vec st v (fun x => with_row st i (fun t => r <- r_ssv_pre_multiplied x t;; push_res st (res_map VVec r)))
  | BlockWithDefault v => with_vec st v (fun x => b <- r_with_default_annots None x;; push st (VBlock b))
  | BlockFromIndices v f =>
      with_vec st v (fun x => b <- r_with_annots_from_indices x f;; push_opt st (option_map VBlock b))
  | BlockLeftover b => with_block st b (fun x => r <- r_block_leftover_row x;; push st (VRow r))
  | BlockExtend b c =>
      with_block st b (fun x => with_block st c (fun y => '(x', _) <- r_block_extend x y;; put st b (VBlock x')))
  | BlockExtendRange b c lo hi =>
      with_block st b (fun x => with_block st c (fun y =>
        '(x', _) <- r_block_extend_range x y (to_bound lo) (to_bound hi);; put st b (VBlock x')))
  | BlockExtendFromWithin b lo hi =>
      with_block st b (fun x => x' <- r_block_extend_from_within x (to_bound lo) (to_bound hi);; put st b (VBlock x'))
  | BlockSplit b n =>
      with_block st b (fun x => o <- r_block_split x (N.of_nat n);;
                                match o with Some (a, c) => push_all st [VBlock a; VBlock c] | None => Ret st end)
  | RepeatNext ri =>
      with_repeat st ri (fun x => '(o, x') <- r_repeat_iter_next x;; st' <- put st ri (VRepeat x');;
                                  push_opt st' (option_map (fun p => VRow (fst (fst p))) o))
  | RepeatNextInto ri out =>
      with_repeat st ri (fun x => with_row st out (fun r =>
        '(o, r', x') <- r_repeat_iter_next_into x r;; st' <- put st ri (VRepeat x');; put st' out (VRow r')))
  | MethodLeadHead m => with_method st m (fun x => r <- r_lead_head x;; push st (VRow r))
  | MethodRowInCourse m i => with_method st m (fun x => r <- r_row_in_plain_course x (N.of_nat i);; push st (VRow r))
  | MethodPlainCourse fuel m =>
      with_method st m (fun x => b <- r_plain_course fuel x;; push st (VBlock (block_map_annots b label)))
  | CallNew notation location covers b =>
      with_block st b (fun x =>
        r <- r_block_leftover_row (Call.call_block (Call.Call notation location covers (block_map_annots x (fun _ => tt))));;
        push st (VRow r))
  | _ => m_step bd hash_order st c
  end.

(* no code in /repo: the caller, as in [Program] *)
Definition r_run_from (hash_order : list nat -> list nat) (st : store) (prog : list call) : exec store :=
  foldM (r_step hash_order) prog st.
(* no code in /repo: the caller, as in [Program] *)
Definition r_run (hash_order : list nat -> list nat) (prog : list call) : exec store :=
  r_run_from hash_order [] prog.
End Release.
