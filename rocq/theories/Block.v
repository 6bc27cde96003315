(** Model of /repo/src/block.rs.  The annotation type is a parameter [A].  [AnnotRow] (19-44) is the
    pair of a row and an annotation.  The [Debug] and [Display] implementations (452-479, 554-561)
    are in [Format]. *)
From Verif Require Import Base Bell Stage Row Utils SameStageVec.
Local Open Scope list_scope.

(* block.rs 61-71 *)
Record block (A : Type) := Block { blk_rows : ssv; blk_annots : list A }.
Arguments Block {A}.
Arguments blk_rows {A}.
Arguments blk_annots {A}.

(* block.rs 549-552 *)
Inductive block_parse_error :=
| ZeroLengthBlock
| BlockOther (e : ssv_parse_error).

Section Block.
Context {A : Type}.

(** ** Constructors *)

(* block.rs 102-111; [default] is the value of [A::default()] *)
Definition with_default_annots (default : A) (rows : ssv) : exec (block A) :=
  assert_ (negb (ssv_is_empty rows));;;
  n <- ssv_len rows;;
  Ret (Block rows (repeat default (n - 1))).

(* block.rs 81-94 *)
Definition block_parse (default : A) (s : str) : exec (result (block A) block_parse_error) :=
  res <- ssv_parse s;;
  match res with
  | Err e => Ret (Err (BlockOther e))
  | Ok rows =>
      if ssv_is_empty rows then Ret (Err ZeroLengthBlock)
      else b <- with_default_annots default rows;; Ret (Ok b)
  end.

(* block.rs 115-120 *)
Definition block_empty (s : stage) : exec (block A) :=
  rows <- ssv_from_row_buf (row_rounds s);; Ret (Block rows []).

(* block.rs 125-131; [f] is pure *)
Definition with_annots_from_indices (rows : ssv) (f : nat -> A) : exec (option (block A)) :=
  n <- ssv_len rows;;
  match n with
  | O => Ret None
  | S length_of_self => Ret (Some (Block rows (map f (range 0 length_of_self))))
  end.

(** ** Stage, length, getters *)

(* block.rs 139-141 *)
Definition block_stage (b : block A) : stage := ssv_stage (blk_rows b).

(* block.rs 146-152: the largest of the rows' effective stages *)
Definition block_effective_stage (b : block A) : exec stage :=
  rows <- ssv_rows (blk_rows b);;
  stages <- mapM effective_stage rows;;
  unwrap (match stages with [] => None | s :: t => Some (fold_left Nat.max t s) end).

(* block.rs 156-158 *)
Definition block_is_empty (b : block A) : bool :=
  match blk_annots b with [] => true | _ => false end.

(* block.rs 162-164 *)
Definition block_len (b : block A) : nat := length (blk_annots b).

(* block.rs 172-174 *)
Definition block_get_row (b : block A) (i : nat) : option row := ssv_get (blk_rows b) i.

(* block.rs 179-181 *)
Definition block_get_annot (b : block A) (i : nat) : option A := nth_error (blk_annots b) i.

(* block.rs 186-188, for a caller which then overwrites the annotation with [x] *)
Definition block_set_annot (b : block A) (i : nat) (x : A) : option (block A) :=
  match nth_error (blk_annots b) i with
  | None => None
  | Some _ => Some (Block (blk_rows b) (upd (blk_annots b) i x))
  end.

(* block.rs 192-196 *)
Definition block_get_annot_row (b : block A) (i : nat) : option (row * A) :=
  match block_get_row b i with
  | None => None
  | Some r => match block_get_annot b i with None => None | Some a => Some (r, a) end
  end.

(* block.rs 200-204 *)
Definition block_first_row (b : block A) : exec row := unwrap (ssv_first (blk_rows b)).

(* block.rs 208-210 *)
Definition block_first_annot_row (b : block A) : option (row * A) := block_get_annot_row b 0.

(* block.rs 216-218 *)
Definition block_leftover_row (b : block A) : exec row :=
  r <- ssv_last (blk_rows b);; unwrap r.

(** ** Iterators and paths *)

(* block.rs 228-232: the iterator over all rows, with one taken off its back *)
Definition block_rows_iter (b : block A) : exec ssv_iter :=
  '(_, it) <- it_next_back (ssv_iterator (blk_rows b));; Ret it.

(** [for row in block.rows()] *)
(* block.rs 228-232, collected by the caller *)
Definition block_rows (b : block A) : exec (list row) :=
  it <- block_rows_iter b;; it_collect (S (length (it_left it))) it.

(* block.rs 236-238 *)
Definition block_all_rows (b : block A) : exec (list row) := ssv_rows (blk_rows b).

(** [zip_eq]: panics as soon as one side ends before the other. *)
(* block.rs 253, 519, place_not.rs 262, mask.rs 108, 184, 216, 251 *)
Fixpoint zip_eq {X Y} (l : list X) (m : list Y) : exec (list (X * Y)) :=
  match l, m with
  | [], [] => Ret []
  | x :: l', y :: m' => t <- zip_eq l' m';; Ret ((x, y) :: t)
  | _, _ => Panic
  end.

(* block.rs 251-255, iterated to the end *)
Definition block_annot_rows (b : block A) : exec (list (row * A)) :=
  rows <- block_rows b;; zip_eq rows (blk_annots b).

(* block.rs 267-269 *)
Definition block_full_path_of (b : block A) (x : bell) : exec (option (list nat)) :=
  ssv_path_of (blk_rows b) x.

(* block.rs 259-263 *)
Definition block_path_of (b : block A) (x : bell) : exec (option (list nat * nat)) :=
  p <- block_full_path_of b x;;
  match p with
  | None => Ret None
  | Some full =>
      match rev full with
      | [] => Panic
      | last :: init => Ret (Some (rev init, last))
      end
  end.

(** ** Operations in place *)

(* block.rs 294-296 (and the deprecated [permute], 288-290) *)
Definition block_pre_multiply (b : block A) (lhs : row)
  : exec (block A * result unit incompatible_stages) :=
  '(rows, res) <- ssv_pre_multiply (blk_rows b) lhs;; Ret (Block rows (blk_annots b), res).

(* block.rs 313-338 *)
Definition block_extend_range (b other : block A) (lo hi : bound)
  : exec (block A * result unit incompatible_stages) :=
  let (start, end_) := clamp_range lo hi (block_len other) in
  first <- unwrap (block_get_row other start);;
  leftover <- block_leftover_row b;;
  t <- solve_xa_equals_b first leftover;;
  match t with
  | Err e => Ret (b, Err e)
  | Ok transposition =>
      '(rows, _) <- ssv_pop (blk_rows b);;
      '(rows', res) <- ssv_extend_range_transposed rows transposition (blk_rows other)
                         (Included start) (Excluded (end_ + 1));;
      unwrap_res res;;;
      Ret (Block rows' (blk_annots b ++ blk_annots other), Ok tt)
  end.

(* block.rs 300-305 *)
Definition block_extend (b other : block A) : exec (block A * result unit incompatible_stages) :=
  block_extend_range b other Unbounded Unbounded.

(* block.rs 341-363; [Vec::extend_from_within] panics on a range which is not inside the vector *)
Definition block_extend_from_within (b : block A) (lo hi : bound) : exec (block A) :=
  let (start, end_) := clamp_range lo hi (block_len b) in
  first <- unwrap (block_get_row b start);;
  leftover <- block_leftover_row b;;
  t <- solve_xa_equals_b first leftover;;
  transposition <- unwrap_res t;;
  '(rows, res) <- ssv_extend_transposed_from_within (blk_rows b)
                    (Included (start + 1)) (Excluded (end_ + 1)) transposition;;
  unwrap_res res;;;
  new <- slice (blk_annots b) start end_;;
  Ret (Block rows (blk_annots b ++ new)).

(** ** Operations which consume the block *)

(* block.rs 382-387 *)
Definition block_map_annots {B} (b : block A) (f : A -> B) : block B :=
  Block (blk_rows b) (map f (blk_annots b)).

(* block.rs 392-402, 407-420 *)
Definition block_map_annots_with_index {B} (b : block A) (f : nat -> A -> B) : block B :=
  Block (blk_rows b) (map (fun '(i, a) => f i a) (enumerate (blk_annots b))).

(* block.rs 425-445 *)
Definition block_split (b : block A) (index : nat) : exec (option (block A * block A)) :=
  match split_vec (blk_annots b) index with
  | None => Ret None
  | Some (first_annots, second_annots) =>
      match ssv_split (blk_rows b) index with
      | None => Ret None
      | Some (first_rows, second_rows) =>
          r <- unwrap (ssv_first second_rows);;
          '(first_rows', res) <- ssv_push first_rows r;;
          unwrap_res res;;;
          Ret (Some (Block first_rows' first_annots, Block second_rows second_annots))
      end
  end.

(** ** [RepeatIter] *)

(* block.rs 485-496: the inner iterator is [enumerate] (its counter), over [zip_eq] of the iterator
   over rows and the iterator over annotations *)
Record inner_iter := InnerIter { ii_count : nat; ii_rows : ssv_iter; ii_annots : list A }.
(* block.rs 491-496 *)
Record repeat_iter := RepeatIter { ri_head : row; ri_iter : inner_iter; ri_block : block A }.

(* block.rs 518-520 *)
Definition get_iter (b : block A) : exec inner_iter :=
  it <- block_rows_iter b;; Ret (InnerIter 0 it (blk_annots b)).

(* block.rs 499-506 *)
Definition repeat_iter_new (start : row) (b : block A)
  : exec (result repeat_iter incompatible_stages) :=
  s <- row_stage start;;
  match test_err s (block_stage b) with
  | Err e => Ret (Err e)
  | Ok _ => it <- get_iter b;; Ret (Ok (RepeatIter start it b))
  end.

(** [Iterator::next] of the inner iterator. *)
(* block.rs 485-486, called at 523 and 530 *)
Definition ii_next (it : inner_iter) : exec (option (nat * (row * A)) * inner_iter) :=
  '(r, rows') <- it_next (ii_rows it);;
  match r, ii_annots it with
  | None, [] => Ret (None, InnerIter (ii_count it) rows' [])
  | Some r, a :: annots' =>
      Ret (Some (ii_count it, (r, a)), InnerIter (S (ii_count it)) rows' annots')
  | _, _ => Panic
  end.

(* block.rs 522-532 *)
Definition next_untransposed_row (ri : repeat_iter)
  : exec (option (nat * (row * A)) * repeat_iter) :=
  '(o, it) <- ii_next (ri_iter ri);;
  match o with
  | Some x => Ret (Some x, RepeatIter (ri_head ri) it (ri_block ri))
  | None =>
      leftover <- block_leftover_row (ri_block ri);;
      head <- row_mul (ri_head ri) leftover;;
      it' <- get_iter (ri_block ri);;
      '(o', it'') <- ii_next it';;
      Ret (o', RepeatIter head it'' (ri_block ri))
  end.

(* block.rs 538-542 *)
Definition repeat_iter_next (ri : repeat_iter) : exec (option (row * nat * A) * repeat_iter) :=
  '(o, ri') <- next_untransposed_row ri;;
  match o with
  | None => Ret (None, ri')
  | Some (i, (r, a)) => next_row <- row_mul (ri_head ri') r;; Ret (Some (next_row, i, a), ri')
  end.

(* block.rs 510-516: also gives the new contents of [out] *)
Definition repeat_iter_next_into (ri : repeat_iter) (out : row)
  : exec (option (nat * A) * row * repeat_iter) :=
  '(o, ri') <- next_untransposed_row ri;;
  match o with
  | None => Ret (None, out, ri')
  | Some (i, (r, a)) =>
      '(out', res) <- mul_into (ri_head ri') r out;;
      unwrap_res res;;;
      Ret (Some (i, a), out', ri')
  end.
End Block.

Arguments inner_iter : clear implicits.
Arguments repeat_iter : clear implicits.
