(** Where the rows live: the functions of /repo which promise to reuse an allocation, once more, with
    the room each vector has and the number of requests made to the allocator.

    A [Vec] is its elements and its room (the capacity).  What is assumed of [Vec] is what the
    standard library promises: a vector asks for memory only when its elements would not fit into
    its room; it then gets at least the room it needs; removing elements keeps the room; collecting
    an iterator of known length asks once, and an empty vector has asked for nothing.  How much more
    than the needed room a vector gets is the argument [grow], over which the theorems quantify.
    All iterators collected or extended from here have a known length (slices, ranges, [repeat]
    followed by [take], and [map] of those).

    A computation gives, beside its value, the number of requests it made.  When it panics, requests
    are not counted.  Hash sets and the annotations of blocks are not counted. *)
From Verif Require Import Base Bell Stage Row Utils SameStageVec Block.
Local Open Scope list_scope.

(* alloc::vec::Vec, with its capacity: e.g. same_stage_vec.rs 55, owned.rs 26 *)
Record vec (T : Type) := Vec { items : list T; room : nat }.
Arguments Vec {T}.
Arguments items {T}.
Arguments room {T}.

(* no code of its own: a computation with the number of its requests *)
Definition alloc (A : Type) : Type := exec (A * nat).
(* no code of its own: a computation which makes no request *)
Definition free {A} (m : exec A) : alloc A := a <- m;; Ret (a, 0).
(* no code of its own: one computation after the other *)
Definition abind {A B} (m : alloc A) (f : A -> alloc B) : alloc B :=
  '(a, n) <- m;; '(b, k) <- f a;; Ret (b, n + k).

Notation "x <+ m ;; k" := (abind m (fun x => k)) (at level 61, m at next level, right associativity).
Notation "' p <+ m ;; k" := (abind m (fun x => match x with p => k end))
  (at level 61, p pattern, m at next level, right associativity).

(* the fields of same_stage_vec.rs 42-58 *)
Record assv := Assv { as_bells : vec bell; as_stage : stage }.
(* the fields of accumulator.rs 8-11 *)
Record aacc := Aacc { aa_total : vec bell; aa_temp : vec bell }.

Section Alloc.
(** The room of a vector which had room for [old] elements and asked for [needed]. *)
Context (grow : nat -> nat -> nat).

(* Vec::reserve, before every write which adds [n] elements: e.g. same_stage_vec.rs 239, 327 *)
Definition reserve {T} (v : vec T) (n : nat) : alloc (vec T) :=
  if length (items v) + n <=? room v then Ret (v, 0)
  else Ret (Vec (items v) (grow (room v) (length (items v) + n)), 1).

(* Vec::new, same_stage_vec.rs 70 *)
Definition vec_new {T} : vec T := Vec [] 0.

(* Vec::with_capacity, same_stage_vec.rs 84; collect at owned.rs 301 and [vec!] at borrowed.rs
   388 also ask for the room of all the elements before writing them *)
Definition vec_with_capacity {T} (n : nat) : alloc (vec T) := reserve vec_new n.

(* Vec::extend, Vec::extend_from_slice: e.g. borrowed.rs 338, 550 *)
Definition vec_extend {T} (v : vec T) (l : list T) : alloc (vec T) :=
  v' <+ reserve v (length l);; Ret (Vec (items v' ++ l) (room v'), 0).

(* Vec::push, same_stage_vec.rs 327 *)
Definition vec_push {T} (v : vec T) (x : T) : alloc (vec T) :=
  v' <+ reserve v 1;; Ret (Vec (items v' ++ [x]) (room v'), 0).

(* Iterator::collect into a vector: owned.rs 105 and borrowed.rs 316 by way of owned.rs 301 *)
Definition vec_collect {T} (l : list T) : alloc (vec T) := vec_extend vec_new l.

(* Vec::clear, borrowed.rs 337, 549, owned.rs 396 *)
Definition vec_clear {T} (v : vec T) : vec T := Vec [] (room v).

(* Vec::drain from an index to the end, same_stage_vec.rs 253 and 266, borrowed.rs 465 *)
Definition vec_drain_from {T} (v : vec T) (n : nat) : vec T := Vec (firstn n (items v)) (room v).

(** ** owned.rs and borrowed.rs *)

(* owned.rs 103-106 *)
Definition a_rounds (s : stage) : alloc (vec bell) := vec_collect (row_rounds s).

(* owned.rs 388-392 *)
Definition a_extend_to_stage (v : vec bell) (s : stage) : alloc (vec bell) :=
  so <+ free (row_stage (items v));;
  _ <+ free (assert_ (so <=? s));;
  vec_extend v (range (length (items v)) s).

(* owned.rs 395-398 *)
Definition a_overwrite_from (v : vec bell) (r : row) : alloc (vec bell) := vec_extend (vec_clear v) r.

(* borrowed.rs 548-551 *)
Definition a_copy_into (r : row) (out : vec bell) : alloc (vec bell) := vec_extend (vec_clear out) r.

(* borrowed.rs 312-317 *)
Definition a_mul_unchecked (a b : row) : alloc (vec bell) :=
  l <+ free (mapM (fun x => idx a x) b);; vec_collect l.

(* borrowed.rs 275-280 *)
Definition a_mul_result (a b : row) : alloc (result (vec bell) incompatible_stages) :=
  sa <+ free (row_stage a);; sb <+ free (row_stage b);;
  match test_err sa sb with
  | Err e => Ret (Err e, 0)
  | Ok _ => r <+ a_mul_unchecked a b;; Ret (Ok r, 0)
  end.

(* borrowed.rs 903-1024: the operators *)
Definition a_mul (a b : row) : alloc (vec bell) := r <+ a_mul_result a b;; free (unwrap_res r).

(* borrowed.rs 335-340 *)
Definition a_mul_into_unchecked (a b : row) (out : vec bell) : alloc (vec bell) :=
  l <+ free (mapM (fun x => idx a x) b);; vec_extend (vec_clear out) l.

(* borrowed.rs 321-327 *)
Definition a_mul_into (a b : row) (out : vec bell)
  : alloc (vec bell * result unit incompatible_stages) :=
  sa <+ free (row_stage a);; sb <+ free (row_stage b);;
  match test_err sa sb with
  | Err e => Ret ((out, Err e), 0)
  | Ok _ => out' <+ a_mul_into_unchecked a b out;; Ret ((out', Ok tt), 0)
  end.

(* borrowed.rs 387-395 *)
Definition a_inv (r : row) : alloc (vec bell) :=
  s <+ free (row_stage r);;
  v <+ vec_collect (repeat TREBLE s);;
  l <+ free (inv_loop r (items v));; Ret (Vec l (room v), 0).

(* borrowed.rs 455-474 *)
Definition a_inv_into_buf (r : row) (out : vec bell) : alloc (vec bell) :=
  so <+ free (row_stage (items out));; s <+ free (row_stage r);;
  out1 <+ (match Nat.compare so s with
           | Lt => vec_extend out (repeat TREBLE (length r - length (items out)))
           | Gt => _ <+ free (slice (items out) 0 (length r));; Ret (vec_drain_from out (length r), 0)
           | Eq => Ret (out, 0)
           end);;
  so1 <+ free (row_stage (items out1));;
  _ <+ free (assert_ (so1 =? s));;
  l <+ free (inv_loop r (items out1));; Ret (Vec l (room out1), 0).

(* borrowed.rs 780-788: the loop over [a] *)
Fixpoint a_is_group_inner (set : list row) (b_inv : row) (buf : vec bell) (todo : list row)
  : alloc (vec bell * bool) :=
  match todo with
  | [] => Ret ((buf, true), 0)
  | a :: t =>
      buf' <+ a_mul_into_unchecked a b_inv buf;;
      if row_mem (items buf') set then a_is_group_inner set b_inv buf' t else Ret ((buf', false), 0)
  end.

(* borrowed.rs 778-789: the loop over [b] *)
Fixpoint a_is_group_outer (set : list row) (b_inv buf : vec bell) (todo : list row) : alloc bool :=
  match todo with
  | [] => Ret (true, 0)
  | b :: t =>
      b_inv' <+ a_inv_into_buf b b_inv;;
      '(buf', ok) <+ a_is_group_inner set (items b_inv') buf set;;
      if ok then a_is_group_outer set b_inv' buf' t else Ret (false, 0)
  end.

(* borrowed.rs 757-791: the requests of the two buffers made on lines 776-777 *)
Definition a_is_group_set (set : list row) : alloc (result bool incompatible_stages) :=
  match set with
  | [] => Ret (Ok false, 0)
  | _ :: _ =>
      st <+ free (is_group_stages None set);;
      match st with
      | Err e => Ret (Err e, 0)
      | Ok _ =>
          b_inv <+ a_rounds 1;; buf <+ a_rounds 1;;
          ok <+ a_is_group_outer set b_inv buf set;; Ret (Ok ok, 0)
      end
  end.

(** ** accumulator.rs *)

(* accumulator.rs 22-27 *)
Definition a_acc_new (total : vec bell) : alloc aacc :=
  s <+ free (row_stage (items total));; temp <+ a_rounds s;; Ret (Aacc total temp, 0).

(* accumulator.rs 16-18 *)
Definition a_acc_rounds (s : stage) : alloc aacc := total <+ a_rounds s;; a_acc_new total.

(* accumulator.rs 31-35; swapping two vectors swaps their rooms *)
Definition a_accumulate (a : aacc) (r : row) : alloc (aacc * result unit incompatible_stages) :=
  '(temp, res) <+ a_mul_into (items (aa_total a)) r (aa_temp a);;
  match res with
  | Err e => Ret ((Aacc (aa_total a) temp, Err e), 0)
  | Ok _ => Ret ((Aacc temp (aa_total a), Ok tt), 0)
  end.

(* accumulator.rs 39-43 *)
Definition a_pre_accumulate (a : aacc) (r : row) : alloc (aacc * result unit incompatible_stages) :=
  '(temp, res) <+ a_mul_into r (items (aa_total a)) (aa_temp a);;
  match res with
  | Err e => Ret ((Aacc (aa_total a) temp, Err e), 0)
  | Ok _ => Ret ((Aacc temp (aa_total a), Ok tt), 0)
  end.

(* accumulator.rs 47-49 *)
Definition a_set (a : aacc) (r : row) : alloc aacc :=
  total <+ a_copy_into r (aa_total a);; Ret (Aacc total (aa_temp a), 0).

(* borrowed.rs 489-492: the loop of pow_u *)
Fixpoint a_pow_loop (a : aacc) (r : row) (n : nat) : alloc aacc :=
  match n with
  | O => Ret (a, 0)
  | S n' => '(a', res) <+ a_accumulate a r;; _ <+ free (unwrap_res res);; a_pow_loop a' r n'
  end.

(* borrowed.rs 486-494 *)
Definition a_pow_u (r : row) (n : nat) : alloc (vec bell) :=
  s <+ free (row_stage r);; a <+ a_acc_rounds s;; a' <+ a_pow_loop a r n;; Ret (aa_total a', 0).

(* borrowed.rs 477-483 *)
Definition a_pow_i (r : row) (e : Z) : alloc (vec bell) :=
  if (e <? 0)%Z then ri <+ a_inv r;; a_pow_u (items ri) (Z.to_nat (- e)) else a_pow_u r (Z.to_nat e).

(** ** same_stage_vec.rs *)

(* same_stage_vec.rs 68-73 *)
Definition a_ssv_new (s : stage) : assv := Assv vec_new s.

(* same_stage_vec.rs 82-87; the product is taken to fit into a word (a buffer for which it does not
   cannot be in memory) *)
Definition a_ssv_with_capacity (s : stage) (capacity : nat) : alloc assv :=
  v <+ vec_with_capacity (capacity * s);; Ret (Assv v s, 0).

(* same_stage_vec.rs 92-97 *)
Definition a_ssv_from_row_buf (r : vec bell) : alloc assv :=
  s <+ free (row_stage (items r));; Ret (Assv r s, 0).

(* no code of its own: the buffer without its room *)
Definition ssv_of (v : assv) : ssv := Ssv (items (as_bells v)) (as_stage v).

(* same_stage_vec.rs 237-241 *)
Definition a_ssv_push (v : assv) (r : row) : alloc (assv * result unit incompatible_stages) :=
  s <+ free (row_stage r);;
  match test_err (as_stage v) s with
  | Err e => Ret ((v, Err e), 0)
  | Ok _ => bells <+ vec_extend (as_bells v) r;; Ret ((Assv bells (as_stage v), Ok tt), 0)
  end.

(* same_stage_vec.rs 246-254: the row handed out is collected into a vector of its own *)
Definition a_ssv_pop (v : assv) : alloc (assv * option (vec bell)) :=
  if length (items (as_bells v)) <? as_stage v then Ret ((v, None), 0)
  else
    let start := length (items (as_bells v)) - as_stage v in
    if as_stage v =? 0 then Panic
    else
      _ <+ free (assert_ (start mod as_stage v =? 0));;
      r <+ vec_collect (skipn start (items (as_bells v)));;
      Ret ((Assv (vec_drain_from (as_bells v) start) (as_stage v), Some r), 0).

(* same_stage_vec.rs 263-270 *)
Fixpoint a_ssv_extend_loop (s : stage) (before : nat) (bells : vec bell) (rows : list row)
  : alloc (vec bell * result unit incompatible_stages) :=
  match rows with
  | [] => Ret ((bells, Ok tt), 0)
  | r :: t =>
      rs <+ free (row_stage r);;
      match test_err s rs with
      | Err e => Ret ((vec_drain_from bells before, Err e), 0)
      | Ok _ => bells' <+ vec_extend bells r;; a_ssv_extend_loop s before bells' t
      end
  end.

(* same_stage_vec.rs 258-272 *)
Definition a_ssv_extend (v : assv) (rows : list row) : alloc (assv * result unit incompatible_stages) :=
  '(bells, res) <+ a_ssv_extend_loop (as_stage v) (length (items (as_bells v))) (as_bells v) rows;;
  Ret ((Assv bells (as_stage v), res), 0).

(* same_stage_vec.rs 279-283 *)
Definition a_ssv_extend_from_buf (v : assv) (other : ssv) : alloc (assv * result unit incompatible_stages) :=
  match test_err (as_stage v) (ssv_stage other) with
  | Err e => Ret ((v, Err e), 0)
  | Ok _ => bells <+ vec_extend (as_bells v) (ssv_bells other);; Ret ((Assv bells (as_stage v), Ok tt), 0)
  end.

(* same_stage_vec.rs 299-313 *)
Definition a_ssv_extend_range_transposed (v : assv) (transposition : row) (other : ssv) (lo hi : bound)
  : alloc (assv * result unit incompatible_stages) :=
  ts <+ free (row_stage transposition);;
  match test_err (as_stage v) ts with
  | Err e => Ret ((v, Err e), 0)
  | Ok _ =>
      '(a, b) <+ free (to_bell_range other lo hi);;
      src <+ free (slice (ssv_bells other) a b);;
      new <+ free (mapM (fun x => idx transposition x) src);;
      bells <+ vec_extend (as_bells v) new;;
      Ret ((Assv bells (as_stage v), Ok tt), 0)
  end.

(* same_stage_vec.rs 288-294 *)
Definition a_ssv_extend_transposed (v : assv) (transposition : row) (other : ssv)
  : alloc (assv * result unit incompatible_stages) :=
  a_ssv_extend_range_transposed v transposition other Unbounded Unbounded.

(* same_stage_vec.rs 325-328: the loop, which pushes one bell after the other *)
Fixpoint a_from_within_loop (transposition : row) (is_ : list nat) (bells : vec bell) : alloc (vec bell) :=
  match is_ with
  | [] => Ret (bells, 0)
  | i :: t =>
      x <+ free (idx (items bells) i);; y <+ free (idx transposition x);;
      bells' <+ vec_push bells y;; a_from_within_loop transposition t bells'
  end.

(* same_stage_vec.rs 317-330 *)
Definition a_ssv_extend_transposed_from_within (v : assv) (lo hi : bound) (transposition : row)
  : alloc (assv * result unit incompatible_stages) :=
  ts <+ free (row_stage transposition);;
  match test_err (as_stage v) ts with
  | Err e => Ret ((v, Err e), 0)
  | Ok _ =>
      '(a, b) <+ free (to_bell_range (ssv_of v) lo hi);;
      bells <+ a_from_within_loop transposition (range a b) (as_bells v);;
      Ret ((Assv bells (as_stage v), Ok tt), 0)
  end.

(* same_stage_vec.rs 339-352: the bells are overwritten where they are *)
Definition a_ssv_pre_multiply (v : assv) (lhs : row) : alloc (assv * result unit incompatible_stages) :=
  s <+ free (row_stage lhs);;
  match test_err s (as_stage v) with
  | Err e => Ret ((v, Err e), 0)
  | Ok _ =>
      l <+ free (mapM (fun b => idx_unchecked lhs b) (items (as_bells v)));;
      Ret ((Assv (Vec l (room (as_bells v))) (as_stage v), Ok tt), 0)
  end.

(* same_stage_vec.rs 355-359 *)
Definition a_ssv_pre_multiplied (v : assv) (lhs : row) : alloc (result assv incompatible_stages) :=
  '(new, res) <+ a_ssv_extend_transposed (a_ssv_new (as_stage v)) lhs (ssv_of v);;
  match res with Err e => Ret (Err e, 0) | Ok _ => Ret (Ok new, 0) end.

(* same_stage_vec.rs 364-373 and utils.rs 38-47: Vec::split_off keeps the room of the first part and
   collects the second into a vector of its own *)
Definition a_ssv_split (v : assv) (index : nat) : alloc (option (assv * assv)) :=
  if index * as_stage v <=? length (items (as_bells v)) then
    right <+ vec_collect (skipn (index * as_stage v) (items (as_bells v)));;
    Ret (Some (Assv (vec_drain_from (as_bells v) (index * as_stage v)) (as_stage v),
               Assv right (as_stage v)), 0)
  else Ret (None, 0).

(* same_stage_vec.rs 184-191 and what the caller does with the row: it is changed where it is *)
Definition a_ssv_edit (v : assv) (index : nat) (f : row -> exec row) : alloc (option assv) :=
  o <+ free (ssv_edit (ssv_of v) index f);;
  Ret (option_map (fun v' => Assv (Vec (ssv_bells v') (room (as_bells v))) (as_stage v)) o, 0).

(** ** [RepeatIter] of block.rs *)

(* block.rs 522-532: the iterator with the block head in a vector; the new head is a new vector *)
Definition a_next_untransposed_row {A} (ri : repeat_iter A)
  : alloc (option (nat * (row * A)) * repeat_iter A) :=
  '(o, it) <+ free (ii_next (ri_iter ri));;
  match o with
  | Some x => Ret ((Some x, RepeatIter (ri_head ri) it (ri_block ri)), 0)
  | None =>
      leftover <+ free (block_leftover_row (ri_block ri));;
      head <+ a_mul (ri_head ri) leftover;;
      it' <+ free (get_iter (ri_block ri));;
      '(o', it'') <+ free (ii_next it');;
      Ret ((o', RepeatIter (items head) it'' (ri_block ri)), 0)
  end.

(* block.rs 538-542 *)
Definition a_repeat_iter_next {A} (ri : repeat_iter A)
  : alloc (option (vec bell * nat * A) * repeat_iter A) :=
  '(o, ri') <+ a_next_untransposed_row ri;;
  match o with
  | None => Ret ((None, ri'), 0)
  | Some (i, (r, a)) =>
      next_row <+ a_mul (ri_head ri') r;; Ret ((Some (next_row, i, a), ri'), 0)
  end.

(* block.rs 510-516 *)
Definition a_repeat_iter_next_into {A} (ri : repeat_iter A) (out : vec bell)
  : alloc (option (nat * A) * vec bell * repeat_iter A) :=
  '(o, ri') <+ a_next_untransposed_row ri;;
  match o with
  | None => Ret ((None, out, ri'), 0)
  | Some (i, (r, a)) =>
      '(out', res) <+ a_mul_into (ri_head ri') r out;;
      _ <+ free (unwrap_res res);;
      Ret ((Some (i, a), out', ri'), 0)
  end.

End Alloc.
