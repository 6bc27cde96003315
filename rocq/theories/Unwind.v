(** What a [&mut] call leaves behind when it panics and the caller catches the panic
    ([std::panic::catch_unwind]).  Every function of /repo which takes something by [&mut], can write
    to it and can panic is modelled a second time here, as a computation on the thing borrowed: the
    writes happen one after the other, and a panic keeps those made so far.  The theorems about this
    file begin by showing that, but for this, these models do what the first ones do.

    - [Vec::extend] with an iterator which panics keeps the elements yielded before the panic.
    - All other panics of [&mut] calls come before the first write: overwriting one element or one
      annotation out of range (mask.rs 156, method/mod.rs 171), [Row::swap] (borrowed.rs 245), a
      failed assertion (owned.rs 389), [split_at] in the iterators (same_stage_vec.rs 444, 464),
      the unwrapping of an error which left its receiver as it was (accumulator.rs 67, 74).
    - Annotations whose [clone] panics are in [Closures].  Not modelled: failure to allocate (which
      aborts). *)
From Verif Require Import Base Bell Stage Parity Row Utils SameStageVec Block PlaceNot Mask Class Method Program.
Local Open Scope list_scope.

(** ** Computations on something borrowed *)

(** [Done s a] - the call returns [a] and leaves [s]; [Unwound s] - it panics and leaves [s]. *)
(* no code of its own: the ways in which a call with a [&mut] argument can end *)
Inductive outcome (S A : Type) : Type :=
| Done (s : S) (a : A)
| Unwound (s : S)
| BadAccess
| OutOfFuel.
Arguments Done {S A} s a.
Arguments Unwound {S A} s.
Arguments BadAccess {S A}.
Arguments OutOfFuel {S A}.

Notation borrow S A := (S -> outcome S A) (only parsing).

(* no code of its own: statements of Rust, in this reading *)
Definition andthen {S A B} (m : borrow S A) (f : A -> borrow S B) : borrow S B := fun s =>
  match m s with
  | Done s' a => f a s'
  | Unwound s' => Unwound s'
  | BadAccess => BadAccess
  | OutOfFuel => OutOfFuel
  end.
(** Reading only: a panic leaves everything as it is. *)
(* no code of its own: statements of Rust, in this reading *)
Definition reading {S A} (e : exec A) : borrow S A := fun s =>
  match e with Ret a => Done s a | Panic => Unwound s | Ub => BadAccess | NoFuel => OutOfFuel end.
(* no code of its own: statements of Rust, in this reading *)
Definition look {S} : borrow S S := fun s => Done s s.
(* no code of its own: statements of Rust, in this reading *)
Definition write {S} (s : S) : borrow S unit := fun _ => Done s tt.
(* no code of its own: statements of Rust, in this reading *)
Definition update {S} (f : S -> S) : borrow S unit := fun s => Done (f s) tt.
(* no code of its own: statements of Rust, in this reading *)
Definition give {S A} (a : A) : borrow S A := fun s => Done s a.

Notation "x <~ m ;; k" := (andthen m (fun x => k)) (at level 61, m at next level, right associativity).
Notation "' p <~ m ;; k" := (andthen m (fun x => match x with p => k end))
  (at level 61, p pattern, m at next level, right associativity).
Notation "m ;~ k" := (andthen m (fun _ => k)) (at level 61, right associativity).

(** [for x in l { body }] *)
(* no code of its own: statements of Rust, in this reading *)
Fixpoint each {S A} (f : A -> borrow S unit) (l : list A) : borrow S unit :=
  match l with
  | [] => give tt
  | x :: t => f x ;~ each f t
  end.

(** The same on a part of something: [&mut self.field]. *)
(* no code of its own: statements of Rust, in this reading *)
Definition inside {S T A} (get : S -> T) (set : S -> T -> S) (m : borrow T A) : borrow S A := fun s =>
  match m (get s) with
  | Done t a => Done (set s t) a
  | Unwound t => Unwound (set s t)
  | BadAccess => BadAccess
  | OutOfFuel => OutOfFuel
  end.

(** Forgetting what a panic leaves behind. *)
(* no code of its own: statements of Rust, in this reading *)
Definition forget {S A} (o : outcome S A) : exec (S * A) :=
  match o with Done s a => Ret (s, a) | Unwound _ => Panic | BadAccess => Ub | OutOfFuel => NoFuel end.

(** What is left behind, when [o] is a panic. *)
(* no code of its own: statements of Rust, in this reading *)
Definition left_behind {S A} (o : outcome S A) (otherwise : S) : S :=
  match o with Unwound s => s | _ => otherwise end.

(** ** Rows *)

(* borrowed.rs 335-340 *)
Definition mul_into_unchecked_b (a b : row) : borrow row unit :=
  write [] ;~ each (fun x => y <~ reading (idx a x);; update (fun out => out ++ [y])) b.

(* borrowed.rs 321-327 *)
Definition mul_into_b (a b : row) : borrow row (result unit incompatible_stages) :=
  sa <~ reading (row_stage a);; sb <~ reading (row_stage b);;
  match test_err sa sb with
  | Err e => give (Err e)
  | Ok _ => mul_into_unchecked_b a b ;~ give (Ok tt)
  end.

(* borrowed.rs 360-367: the loop from place [i] on; the lengths have been compared before *)
Definition mul_into_row_loop_b (a b : row) : borrow row unit :=
  each (fun '(i, x) => y <~ reading (idx a x);; update (fun out => upd out i y)) (enumerate b).

(* borrowed.rs 345-352 *)
Definition mul_into_row_b (a b : row) : borrow row (result unit mul_into_error) :=
  sa <~ reading (row_stage a);; sb <~ reading (row_stage b);;
  match test_err sa sb with
  | Err e => give (Err (RhsStage e))
  | Ok _ =>
      out <~ look;; so <~ reading (row_stage out);;
      match test_err sa so with
      | Err e => give (Err (IntoStage e))
      | Ok _ => mul_into_row_loop_b a b ;~ give (Ok tt)
      end
  end.

(* borrowed.rs 425-429, 471-473 *)
Definition inv_loop_b (r : row) : borrow row unit :=
  each (fun '(i, b) => out <~ look;; out' <~ reading (set_idx out b i);; write out') (enumerate r).

(* borrowed.rs 422-431 *)
Definition inv_into_b (r : row) : borrow row (result unit incompatible_stages) :=
  s <~ reading (row_stage r);; out <~ look;; so <~ reading (row_stage out);;
  match test_err s so with
  | Err e => give (Err e)
  | Ok _ => inv_loop_b r ;~ give (Ok tt)
  end.

(* borrowed.rs 455-474 *)
Definition inv_into_buf_b (r : row) : borrow row unit :=
  out <~ look;; so <~ reading (row_stage out);; s <~ reading (row_stage r);;
  (match Nat.compare so s with
   | Lt => write (out ++ repeat TREBLE (length r - length out))
   | Gt => out1 <~ reading (slice out 0 (length r));; write out1
   | Eq => give tt
   end) ;~
  out1 <~ look;; so1 <~ reading (row_stage out1);;
  reading (assert_ (so1 =? s)) ;~
  inv_loop_b r.

(* borrowed.rs 148-158 *)
Fixpoint parity_loop_b (fuel first num_swaps : nat) : borrow row nat :=
  match fuel with
  | O => reading NoFuel
  | S fuel' =>
      r <~ look;; s <~ reading (row_stage r);;
      if first <? s then
        cur <~ reading (idx r first);;
        if cur =? first then parity_loop_b fuel' (S first) num_swaps
        else
          r' <~ reading (row_swap r first cur);; write r' ;~
          parity_loop_b fuel' first (S num_swaps)
      else give num_swaps
  end.

(* borrowed.rs 144-160 *)
Definition row_parity_b (fuel : nat) : borrow row parity :=
  n <~ parity_loop_b fuel 0 0;; give (parity_from_number n).

(* place_not.rs 312-324 *)
Fixpoint permute_loop_b (fuel : nat) (s : stage) (places : list nat) (i : nat) : borrow row unit :=
  match fuel with
  | O => reading NoFuel
  | S fuel' =>
      if i <? s then
        let swap_on := r <~ look;; r' <~ reading (row_swap r i (i + 1));; write r' ;~ permute_loop_b fuel' s places (i + 2) in
        match places with
        | p :: places' => if p =? i then permute_loop_b fuel' s places' (i + 1) else swap_on
        | [] => swap_on
        end
      else give tt
  end.

(* place_not.rs 296-300 *)
Definition pn_permute_b (pn : place_not) : borrow row (result unit incompatible_stages) :=
  r <~ look;; s <~ reading (row_stage r);;
  match test_err s (pn_stage pn) with
  | Err e => give (Err e)
  | Ok _ => permute_loop_b (S (pn_stage pn)) (pn_stage pn) (pn_places pn) 0 ;~ give (Ok tt)
  end.

(* accumulator.rs 31-35 *)
Definition acc_accumulate_b (r : row) : borrow accumulator (result unit incompatible_stages) :=
  a <~ look;;
  res <~ inside acc_temp (fun a t => Accumulator (acc_total a) t) (mul_into_b (acc_total a) r);;
  match res with
  | Err e => give (Err e)
  | Ok _ => update (fun a => Accumulator (acc_temp a) (acc_total a)) ;~ give (Ok tt)
  end.

(* accumulator.rs 39-43 *)
Definition acc_pre_accumulate_b (r : row) : borrow accumulator (result unit incompatible_stages) :=
  a <~ look;;
  res <~ inside acc_temp (fun a t => Accumulator (acc_total a) t) (mul_into_b r (acc_total a));;
  match res with
  | Err e => give (Err e)
  | Ok _ => update (fun a => Accumulator (acc_temp a) (acc_total a)) ;~ give (Ok tt)
  end.

(* accumulator.rs 64-76 *)
Definition acc_mul_assign_b (r : row) : borrow accumulator unit :=
  res <~ acc_accumulate_b r;; reading (unwrap_res res).

(** ** Buffers *)

(* [Vec::push], same_stage_vec.rs 307-311 and 327 *)
Definition push_bell (b : bell) : borrow ssv unit :=
  update (fun v => Ssv (ssv_bells v ++ [b]) (ssv_stage v)).

(* same_stage_vec.rs 258-272, for an iterator which yields [rows] and then panics if [panics] *)
Fixpoint ssv_extend_loop_b (before : nat) (rows : list row) (panics : bool)
  : borrow ssv (result unit incompatible_stages) :=
  match rows with
  | [] => if panics then reading Panic else give (Ok tt)
  | r :: t =>
      v <~ look;; rs <~ reading (row_stage r);;
      match test_err (ssv_stage v) rs with
      | Err e => write (Ssv (firstn before (ssv_bells v)) (ssv_stage v)) ;~ give (Err e)
      | Ok _ => write (Ssv (ssv_bells v ++ r) (ssv_stage v)) ;~ ssv_extend_loop_b before t panics
      end
  end.
(* same_stage_vec.rs 258-272 *)
Definition ssv_extend_b (rows : list row) (panics : bool) : borrow ssv (result unit incompatible_stages) :=
  v <~ look;; ssv_extend_loop_b (length (ssv_bells v)) rows panics.

(* same_stage_vec.rs 299-313 *)
Definition ssv_extend_range_transposed_b (transposition : row) (other : ssv) (lo hi : bound)
  : borrow ssv (result unit incompatible_stages) :=
  v <~ look;; ts <~ reading (row_stage transposition);;
  match test_err (ssv_stage v) ts with
  | Err e => give (Err e)
  | Ok _ =>
      '(a, b) <~ reading (to_bell_range other lo hi);;
      src <~ reading (slice (ssv_bells other) a b);;
      each (fun x => y <~ reading (idx transposition x);; push_bell y) src ;~
      give (Ok tt)
  end.

(* same_stage_vec.rs 317-330 *)
Definition ssv_extend_transposed_from_within_b (lo hi : bound) (transposition : row)
  : borrow ssv (result unit incompatible_stages) :=
  v <~ look;; ts <~ reading (row_stage transposition);;
  match test_err (ssv_stage v) ts with
  | Err e => give (Err e)
  | Ok _ =>
      '(a, b) <~ reading (to_bell_range v lo hi);;
      each (fun i => v <~ look;; x <~ reading (idx (ssv_bells v) i);; y <~ reading (idx transposition x);; push_bell y)
           (range a b) ;~
      give (Ok tt)
  end.

(* same_stage_vec.rs 246-254 *)
Definition ssv_pop_b : borrow ssv (option row) :=
  v <~ look;; '(v', r) <~ reading (ssv_pop v);; write v' ;~ give r.

(** ** Blocks *)

Section Block.
Context {A : Type}.

(* [&mut self.rows], block.rs 328-330, 356-359 *)
Definition rows_of_block {X} (m : borrow ssv X) : borrow (block A) X :=
  inside blk_rows (fun b rows => Block rows (blk_annots b)) m.

(* block.rs 313-338 *)
Definition block_extend_range_b (other : block A) (lo hi : bound)
  : borrow (block A) (result unit incompatible_stages) :=
  let (start, end_) := clamp_range lo hi (block_len other) in
  first <~ reading (unwrap (block_get_row other start));;
  b <~ look;; leftover <~ reading (block_leftover_row b);;
  t <~ reading (solve_xa_equals_b first leftover);;
  match t with
  | Err e => give (Err e)
  | Ok transposition =>
      rows_of_block ssv_pop_b ;~
      res <~ rows_of_block (ssv_extend_range_transposed_b transposition (blk_rows other)
                              (Included start) (Excluded (end_ + 1)));;
      reading (unwrap_res res) ;~
      update (fun b => Block (blk_rows b) (blk_annots b ++ blk_annots other)) ;~
      give (Ok tt)
  end.

(* block.rs 341-363 *)
Definition block_extend_from_within_b (lo hi : bound) : borrow (block A) unit :=
  b <~ look;;
  let (start, end_) := clamp_range lo hi (block_len b) in
  first <~ reading (unwrap (block_get_row b start));;
  leftover <~ reading (block_leftover_row b);;
  t <~ reading (solve_xa_equals_b first leftover);;
  transposition <~ reading (unwrap_res t);;
  res <~ rows_of_block (ssv_extend_transposed_from_within_b (Included (start + 1)) (Excluded (end_ + 1)) transposition);;
  reading (unwrap_res res) ;~
  new <~ reading (slice (blk_annots b) start end_);;
  update (fun b => Block (blk_rows b) (blk_annots b ++ new)).

(** [Iterator::next] of the inner iterator of [RepeatIter]: both sides have moved on when [zip_eq]
    finds that one of them has ended. *)
(* block.rs 485-486, called at 523 and 530 *)
Definition ii_next_b : borrow (inner_iter A) (option (nat * (row * A))) :=
  it <~ look;;
  '(r, rows') <~ reading (it_next (ii_rows it));;
  write (InnerIter (ii_count it) rows' (tl (ii_annots it))) ;~
  match r, ii_annots it with
  | None, [] => give None
  | Some r, a :: _ =>
      update (fun it => InnerIter (S (ii_count it)) (ii_rows it) (ii_annots it)) ;~
      give (Some (ii_count it, (r, a)))
  | _, _ => reading Panic
  end.

(* [&mut self.iter], block.rs 523, 530 *)
Definition iter_of_repeat {X} (m : borrow (inner_iter A) X) : borrow (repeat_iter A) X :=
  inside ri_iter (fun ri it => RepeatIter (ri_head ri) it (ri_block ri)) m.

(* block.rs 522-532 *)
Definition next_untransposed_row_b : borrow (repeat_iter A) (option (nat * (row * A))) :=
  o <~ iter_of_repeat ii_next_b;;
  match o with
  | Some x => give (Some x)
  | None =>
      ri <~ look;;
      leftover <~ reading (block_leftover_row (ri_block ri));;
      head <~ reading (row_mul (ri_head ri) leftover);;
      write (RepeatIter head (ri_iter ri) (ri_block ri)) ;~
      it' <~ reading (get_iter (ri_block ri));;
      write (RepeatIter head it' (ri_block ri)) ;~
      iter_of_repeat ii_next_b
  end.

(* block.rs 538-542 *)
Definition repeat_iter_next_b : borrow (repeat_iter A) (option (row * nat * A)) :=
  o <~ next_untransposed_row_b;;
  match o with
  | None => give None
  | Some (i, (r, a)) =>
      ri <~ look;; next_row <~ reading (row_mul (ri_head ri) r);; give (Some (next_row, i, a))
  end.

(* block.rs 510-516: two things are borrowed *)
Definition repeat_iter_next_into_b : borrow (repeat_iter A * row) (option (nat * A)) :=
  o <~ inside fst (fun p ri => (ri, snd p)) next_untransposed_row_b;;
  match o with
  | None => give None
  | Some (i, (r, a)) =>
      p <~ look;;
      res <~ inside snd (fun p out => (fst p, out)) (mul_into_b (ri_head (fst p)) r);;
      reading (unwrap_res res) ;~
      give (Some (i, a))
  end.
End Block.

(** ** Programs which catch panics *)

Section Left.
Context (st : list value).

(** What a panicking change of a mutable row leaves there. *)
(* no code of its own: what the functions at borrowed.rs 144, 245, 345, 422 and place_not.rs 296 leave *)
Definition change_row_left (c : row_change) (r : row) : row :=
  match c with
  | Swap _ _ => r
  | Parity fuel => left_behind (row_parity_b fuel r) r
  | MulIntoRow i j =>
      match nth_error st i, nth_error st j with
      | Some (VRow a), Some (VRow b) => left_behind (mul_into_row_b a b r) r
      | _, _ => r
      end
  | InvInto i =>
      match nth_error st i with
      | Some (VRow a) => left_behind (inv_into_b a r) r
      | _ => r
      end
  | Permute p =>
      match nth_error st p with
      | Some (VPn pn) => left_behind (pn_permute_b pn r) r
      | _ => r
      end
  end.

(* same_stage_vec.rs 183-189 *)
Definition ssv_edit_left (v : ssv) (index : nat) (c : row_change) : ssv :=
  match ssv_get v index with
  | None => v
  | Some r =>
      let (a, b) := get_range_of_row v index in
      Ssv (firstn a (ssv_bells v) ++ change_row_left c r ++ skipn b (ssv_bells v)) (ssv_stage v)
  end.

(* no code in /repo: the caller names a value which it holds *)
Definition left_row (i : nat) (f : row -> row) : list value :=
  match nth_error st i with Some (VRow r) => upd st i (VRow (f r)) | _ => st end.
(* no code in /repo: the caller names a value which it holds *)
Definition left_acc (i : nat) (f : accumulator -> accumulator) : list value :=
  match nth_error st i with Some (VAcc a) => upd st i (VAcc (f a)) | _ => st end.
(* no code in /repo: the caller names a value which it holds *)
Definition left_vec (i : nat) (f : ssv -> ssv) : list value :=
  match nth_error st i with Some (VVec v) => upd st i (VVec (f v)) | _ => st end.
(* no code in /repo: the caller names a value which it holds *)
Definition left_block (i : nat) (f : block (option str) -> block (option str)) : list value :=
  match nth_error st i with Some (VBlock b) => upd st i (VBlock (f b)) | _ => st end.
(* no code in /repo: the caller names a value which it holds *)
Definition left_repeat (i : nat) (f : repeat_iter (option str) -> repeat_iter (option str)) : list value :=
  match nth_error st i with Some (VRepeat ri) => upd st i (VRepeat (f ri)) | _ => st end.

(** The store after the call has panicked: its receiver as the panic leaves it, and all else as it
    was.  Calls which borrow nothing mutably, or which panic before their first write, leave the
    whole store as it was. *)
(* no code in /repo: the caller, with std::panic::catch_unwind *)
Definition step_left (c : call) : list value :=
  match c with
  | MulInto i j out =>
      match nth_error st i, nth_error st j with
      | Some (VRow a), Some (VRow b) => left_row out (fun o => left_behind (mul_into_b a b o) o)
      | _, _ => st
      end
  | InvIntoBuf i out =>
      match nth_error st i with
      | Some (VRow a) => left_row out (fun o => left_behind (inv_into_buf_b a o) o)
      | _ => st
      end
  | ChangeRow (InRow i) c => left_row i (change_row_left c)
  | ChangeRow (InVec i index) c => left_vec i (fun v => ssv_edit_left v index c)
  | ChangeRow (InVecFirst i) c => left_vec i (fun v => ssv_edit_left v 0 c)
  | ChangeRow (InVecLast i) c =>
      left_vec i (fun v => match ssv_len v with Ret (S n) => ssv_edit_left v n c | _ => v end)
  | Accumulate a i =>
      match nth_error st i with
      | Some (VRow r) => left_acc a (fun x => left_behind (acc_accumulate_b r x) x)
      | _ => st
      end
  | PreAccumulate a i =>
      match nth_error st i with
      | Some (VRow r) => left_acc a (fun x => left_behind (acc_pre_accumulate_b r x) x)
      | _ => st
      end
  | AccMulAssign a i =>
      match nth_error st i with
      | Some (VRow r) => left_acc a (fun x => left_behind (acc_mul_assign_b r x) x)
      | _ => st
      end
  | VecExtend v is => left_vec v (fun x => left_behind (ssv_extend_b (rows_at st is) false x) x)
  | VecExtendTransposed v i w =>
      match nth_error st i, nth_error st w with
      | Some (VRow t), Some (VVec y) =>
          left_vec v (fun x => left_behind (ssv_extend_range_transposed_b t y Unbounded Unbounded x) x)
      | _, _ => st
      end
  | VecExtendRangeTransposed v i w lo hi =>
      match nth_error st i, nth_error st w with
      | Some (VRow t), Some (VVec y) =>
          left_vec v (fun x => left_behind (ssv_extend_range_transposed_b t y lo hi x) x)
      | _, _ => st
      end
  | VecExtendFromWithin v lo hi i =>
      match nth_error st i with
      | Some (VRow t) => left_vec v (fun x => left_behind (ssv_extend_transposed_from_within_b lo hi t x) x)
      | _ => st
      end
  | BlockExtend b c =>
      match nth_error st c with
      | Some (VBlock y) => left_block b (fun x => left_behind (block_extend_range_b y Unbounded Unbounded x) x)
      | _ => st
      end
  | BlockExtendRange b c lo hi =>
      match nth_error st c with
      | Some (VBlock y) => left_block b (fun x => left_behind (block_extend_range_b y lo hi x) x)
      | _ => st
      end
  | BlockExtendFromWithin b lo hi => left_block b (fun x => left_behind (block_extend_from_within_b lo hi x) x)
  | RepeatNext ri => left_repeat ri (fun x => left_behind (repeat_iter_next_b x) x)
  | RepeatNextInto ri out =>
      match nth_error st ri, nth_error st out with
      | Some (VRepeat x), Some (VRow r) =>
          let (x', r') := left_behind (repeat_iter_next_into_b (x, r)) (x, r) in
          upd (upd st ri (VRepeat x')) out (VRow r')
      | _, _ => st
      end
  | _ => st
  end.
End Left.

Section Caught.
Context (hash_order : list nat -> list nat).

(** A call inside [catch_unwind]. *)
(* no code in /repo: the caller, with std::panic::catch_unwind *)
Definition step_caught (st : list value) (c : call) : exec (list value) :=
  match step hash_order st c with
  | Panic => Ret (step_left st c)
  | o => o
  end.

(** A program which goes on after every panic. *)
(* no code in /repo: the caller *)
Definition run_caught_from (st : list value) (prog : list call) : exec (list value) := foldM step_caught prog st.
(* no code in /repo: the caller *)
Definition run_caught (prog : list call) : exec (list value) := run_caught_from [] prog.
End Caught.
