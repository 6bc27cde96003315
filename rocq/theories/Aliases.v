(** Operators, conversions and second names of functions which are modelled elsewhere.  A borrowed
    [Row] and an owned [RowBuf] are both the list of their bells, and so are their counted copies; the
    casts between them (owned.rs 371-384, borrowed.rs 822-844) keep the bells. *)
From Verif Require Import Base Bell Stage Row SameStageVec Block PlaceNot Compare.
Local Open Scope list_scope.

(* bell.rs 76-78 *)
Definition bell_from_index (index : nat) : bell := index.

(* bell.rs 180-182 *)
Definition bell_index (b : bell) : nat := b.

(* bell.rs 259-263 *)
Definition bell_add_assign (b : bell) (rhs : nat) : bell := bell_from_index (bell_index b + rhs).

(* bell.rs 275-279: usize subtraction, panics on underflow in overflow-checked builds *)
Definition bell_sub_assign (b : bell) (rhs : nat) : exec bell :=
  if rhs <=? bell_index b then Ret (bell_from_index (bell_index b - rhs)) else Panic.

(* borrowed.rs 105-107, and [bell_iter] (89-91), [into_iter] (1030-1032; owned.rs 480-482): what the iterator yields *)
Definition row_slice (r : row) : list bell := r.

(* borrowed.rs 848-850: slice indexing *)
Definition row_index (r : row) (index : nat) : exec bell := unwrap (nth_error (row_slice r) index).

(* borrowed.rs 853-873 for [&RowBuf] and 878-898 for [&Row] *)
Definition row_not (r : row) : exec row := row_inv r.

(* borrowed.rs 555-562 and, with [Arc], 566-573 *)
Definition row_to_rc (r : row) : row := row_slice r.

(* owned.rs 453-456 *)
Definition row_to_owned (r : row) : row := row_slice r.

(* owned.rs 363-365 *)
Definition into_bell_vec (r : row) : list bell := r.

(* owned.rs 489-491 *)
Definition row_from_str (s : str) : result row invalid_row_error := row_parse s.

(* owned.rs 494-498 and 500-504: both compare the two [Row]s *)
Definition buf_eq_row (a b : row) : bool := row_eqb a b.
Definition row_eq_buf (a b : row) : bool := row_eqb a b.

(* accumulator.rs 53-55 and 59-61 *)
Definition acc_get_total (a : accumulator) : row := acc_total a.

(* same_stage_vec.rs 334-336 *)
Definition ssv_permute (v : ssv) (lhs : row) : exec (ssv * result unit incompatible_stages) := ssv_pre_multiply v lhs.

(* block.rs 288-290 *)
Definition block_permute {A} (b : block A) (lhs : row) : exec (block A * result unit incompatible_stages) :=
  block_pre_multiply b lhs.

(* block.rs 277-279 *)
Definition block_repeat_iter {A} (b : block A) (start : row) : exec (result (repeat_iter A) incompatible_stages) :=
  repeat_iter_new start b.

(* place_not.rs 572-577; the iterator is the list of what it yields *)
Definition pn_block_from_iter (pns : list place_not) : result pn_block invalid_pn_block := pn_block_from_vec pns.
