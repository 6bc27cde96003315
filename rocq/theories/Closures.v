(** The code of the caller which runs inside calls on blocks: the closures given to
    [with_annots_from_indices], [map_annots], [map_annots_with_index] and
    [clone_map_annots_with_index], and the [default] and [clone] of the type of annotations.  Such code
    may keep a state and may panic: it is a [borrow W Y] of [Unwind], for any world [W] of the caller.
    The functions of /repo/src/block.rs are modelled again around it, with what a panic leaves behind. *)
From Verif Require Import Base Bell Stage Row Utils SameStageVec Block Program Unwind.
Local Open Scope list_scope.

Section Closures.
Context {W : Type}.

(** [iter.map(f).collect_vec()]: the vector made so far is dropped when [f] panics. *)
(* block.rs 108, 128, 385, 395-400, 413-418 *)
Fixpoint collect_map {X Y} (f : X -> borrow W Y) (l : list X) : borrow W (list Y) :=
  match l with
  | [] => give []
  | x :: t => y <~ f x;; ys <~ collect_map f t;; give (y :: ys)
  end.

(* block.rs 102-111 *)
Definition with_default_annots_u {A} (default : borrow W A) (rows : ssv) : borrow W (block A) :=
  reading (assert_ (negb (ssv_is_empty rows))) ;~
  n <~ reading (ssv_len rows);;
  annots <~ collect_map (fun _ => default) (repeat tt (n - 1));;
  give (Block rows annots).

(* block.rs 125-131 *)
Definition with_annots_from_indices_u {A} (rows : ssv) (f : nat -> borrow W A) : borrow W (option (block A)) :=
  n <~ reading (ssv_len rows);;
  match n with
  | O => give None
  | S length_of_self =>
      annots <~ collect_map f (range 0 length_of_self);; give (Some (Block rows annots))
  end.

(* block.rs 382-387 *)
Definition block_map_annots_u {A B} (b : block A) (f : A -> borrow W B) : borrow W (block B) :=
  annots <~ collect_map f (blk_annots b);; give (Block (blk_rows b) annots).

(* block.rs 392-402, and 407-420 which leaves the block to the caller *)
Definition block_map_annots_with_index_u {A B} (b : block A) (f : nat -> A -> borrow W B) : borrow W (block B) :=
  annots <~ collect_map (fun '(i, a) => f i a) (enumerate (blk_annots b));; give (Block (blk_rows b) annots).

Section Clone.
Context {A : Type} (clone : A -> borrow W A).

(** What is borrowed now: the block and the world of the caller. *)
(* no code of its own: [&mut self] inside the caller's program *)
Definition of_block {X} (m : borrow (block A) X) : borrow (block A * W) X :=
  inside fst (fun s b => (b, snd s)) m.
(* no code of its own: [&mut self] inside the caller's program *)
Definition of_world {X} (m : borrow W X) : borrow (block A * W) X :=
  inside snd (fun s w => (fst s, w)) m.

(** [annots.extend(l.iter().cloned())] and [annots.extend_from_within(range)]: each clone is in the vector
    before the next one is made. *)
(* block.rs 335, 362 *)
Definition extend_annots (l : list A) : borrow (block A * W) unit :=
  each (fun a => c <~ of_world (clone a);; of_block (update (fun b => Block (blk_rows b) (blk_annots b ++ [c])))) l.

(* block.rs 313-338 *)
Definition block_extend_range_u (other : block A) (lo hi : bound)
  : borrow (block A * W) (result unit incompatible_stages) :=
  let (start, end_) := clamp_range lo hi (block_len other) in
  first <~ reading (unwrap (block_get_row other start));;
  b <~ of_block look;; leftover <~ reading (block_leftover_row b);;
  t <~ reading (solve_xa_equals_b first leftover);;
  match t with
  | Err e => give (Err e)
  | Ok transposition =>
      of_block (rows_of_block ssv_pop_b) ;~
      res <~ of_block (rows_of_block (ssv_extend_range_transposed_b transposition (blk_rows other)
                                        (Included start) (Excluded (end_ + 1))));;
      reading (unwrap_res res) ;~
      extend_annots (blk_annots other) ;~
      give (Ok tt)
  end.

(* block.rs 300-305 *)
Definition block_extend_u (other : block A) : borrow (block A * W) (result unit incompatible_stages) :=
  block_extend_range_u other Unbounded Unbounded.

(* block.rs 341-363; [Vec::extend_from_within] looks at the range before the first clone *)
Definition block_extend_from_within_u (lo hi : bound) : borrow (block A * W) unit :=
  b <~ of_block look;;
  let (start, end_) := clamp_range lo hi (block_len b) in
  first <~ reading (unwrap (block_get_row b start));;
  leftover <~ reading (block_leftover_row b);;
  t <~ reading (solve_xa_equals_b first leftover);;
  transposition <~ reading (unwrap_res t);;
  res <~ of_block (rows_of_block (ssv_extend_transposed_from_within_b (Included (start + 1)) (Excluded (end_ + 1)) transposition));;
  reading (unwrap_res res) ;~
  new <~ reading (slice (blk_annots b) start end_);;
  extend_annots new.
End Clone.
End Closures.
