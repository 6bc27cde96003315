(** Specification vocabulary for buffers of rows: what a plain list of rows would do. *)
From Verif Require Import Base Spec Stage Row SameStageVec.
Local Open Scope list_scope.

(** The row "a after b" ([composition a b (row_product a b)], see C10). *)
Definition row_product (a b : list nat) : list nat := map (fun x => nth x a 0) b.

(** [v] is a buffer of stage [s] whose iteration yields exactly the rows [rs], all valid. *)
Definition holds (v : ssv) (s : nat) (rs : list (list nat)) : Prop :=
  0 < s /\ ssv_stage v = s /\ Forall (fun r => valid_row r /\ length r = s) rs /\
  ssv_rows v = Ret rs.

(** First index of a range, and index one past its last, within [n] elements. *)
Definition range_start (lo : bound) : nat :=
  match lo with Included a => a | Excluded a => a + 1 | Unbounded => 0 end.
Definition range_end (hi : bound) (n : nat) : nat :=
  match hi with Included b => b + 1 | Excluded b => b | Unbounded => n end.
(** The elements of [l] in the range from [a] up to but excluding [b]. *)
Definition sublist {A} (a b : nat) (l : list A) : list A := firstn (b - a) (skipn a l).

Definition last_opt {A} (l : list A) : option A :=
  match rev l with [] => None | x :: _ => Some x end.

Definition replace_nth {A} (l : list A) (i : nat) (x : A) : list A :=
  firstn i l ++ match skipn i l with [] => [] | _ :: t => x :: t end.

(** Operations of a buffer of rows, as a user calls them.  Another buffer given as an argument is
    described by its stage and rows. *)
Inductive vec_op :=
| VPush (r : list nat)
| VPop
| VExtend (rows : list (list nat))
| VExtendFromBuf (os : nat) (orows : list (list nat))
| VExtendRangeTransposed (t : list nat) (os : nat) (orows : list (list nat)) (lo hi : bound)
| VExtendTransposed (t : list nat) (os : nat) (orows : list (list nat))
| VExtendTransposedFromWithin (lo hi : bound) (t : list nat)
| VPreMultiply (t : list nat)
| VBecomePreMultiplied (t : list nat)
| VSplitKeepLeft (i : nat)
| VSplitKeepRight (i : nat)
| VSwapInRow (i a b : nat)
| VSwapInFirst (a b : nat)
| VSwapInLast (a b : nat)
| VLen | VIsEmpty | VGet (i : nat) | VIndex (i : nat) | VFirst | VLast | VPathOf (b : nat).

Inductive vec_out :=
| ODone
| OErr (lhs rhs : nat)
| OBool (b : bool)
| ONat (n : nat)
| ORow (r : option (list nat))
| OPath (p : option (list nat)).

(** The arguments are rows (a [Row] in Rust always is one). *)
Definition vec_op_args_valid (op : vec_op) : Prop :=
  match op with
  | VPush r | VPreMultiply r | VBecomePreMultiplied r => valid_row r
  | VExtend rows => Forall valid_row rows
  | VExtendFromBuf os orows => 0 < os /\ Forall (fun r => valid_row r /\ length r = os) orows
  | VExtendRangeTransposed t os orows _ _ | VExtendTransposed t os orows =>
      valid_row t /\ 0 < os /\ Forall (fun r => valid_row r /\ length r = os) orows
  | VExtendTransposedFromWithin _ _ t => valid_row t
  | _ => True
  end.

Definition swap_list (r : list nat) (a b : nat) : list nat :=
  map (fun k => if k =? a then nth b r 0 else if k =? b then nth a r 0 else nth k r 0)
      (seq 0 (length r)).

Definition spec_swap_row (s : nat) (rs : list (list nat)) (i a b : nat)
  : option (list (list nat) * vec_out) :=
  match nth_error rs i with
  | None => Some (rs, OBool false)
  | Some r => if (a <? s) && (b <? s) then Some (replace_nth rs i (swap_list r a b), OBool true)
              else None
  end.

Definition spec_extend_transposed (s : nat) (rs : list (list nat)) (t : list nat)
  (src : list (list nat)) (lo hi : bound) : option (list (list nat) * vec_out) :=
  if length t =? s then
    let a := range_start lo in
    let b := range_end hi (length src) in
    if (a <=? b) && (b <=? length src)
    then Some (rs ++ map (row_product t) (sublist a b src), ODone) else None
  else Some (rs, OErr s (length t)).

(** What the operation does to a plain list of rows of stage [s]; [None] for the calls which are
    outside the contract: an index or range out of bounds, or a source buffer of another stage. *)
Definition vec_step (s : nat) (rs : list (list nat)) (op : vec_op)
  : option (list (list nat) * vec_out) :=
  match op with
  | VPush r => if length r =? s then Some (rs ++ [r], ODone) else Some (rs, OErr s (length r))
  | VPop => Some (removelast rs, ORow (last_opt rs))
  | VExtend rows =>
      match find (fun r => negb (length r =? s)) rows with
      | None => Some (rs ++ rows, ODone)
      | Some bad => Some (rs, OErr s (length bad))
      end
  | VExtendFromBuf os orows =>
      if os =? s then Some (rs ++ orows, ODone) else Some (rs, OErr s os)
  | VExtendRangeTransposed t os orows lo hi =>
      if (length t =? s) && negb (os =? s) then None
      else spec_extend_transposed s rs t orows lo hi
  | VExtendTransposed t os orows =>
      if (length t =? s) && negb (os =? s) then None
      else spec_extend_transposed s rs t orows Unbounded Unbounded
  | VExtendTransposedFromWithin lo hi t => spec_extend_transposed s rs t rs lo hi
  | VPreMultiply t => if length t =? s then Some (map (row_product t) rs, ODone)
                      else Some (rs, OErr (length t) s)
  | VBecomePreMultiplied t => if length t =? s then Some (map (row_product t) rs, ODone)
                              else Some (rs, OErr s (length t))
  | VSplitKeepLeft i => if i <=? length rs then Some (firstn i rs, OBool true)
                        else Some (rs, OBool false)
  | VSplitKeepRight i => if i <=? length rs then Some (skipn i rs, OBool true)
                         else Some (rs, OBool false)
  | VSwapInRow i a b => spec_swap_row s rs i a b
  | VSwapInFirst a b => spec_swap_row s rs 0 a b
  | VSwapInLast a b => spec_swap_row s rs (length rs - 1) a b
  | VLen => Some (rs, ONat (length rs))
  | VIsEmpty => Some (rs, OBool (length rs =? 0))
  | VGet i => Some (rs, ORow (nth_error rs i))
  | VIndex i => match nth_error rs i with None => None | Some r => Some (rs, ORow (Some r)) end
  | VFirst => Some (rs, ORow (nth_error rs 0))
  | VLast => Some (rs, ORow (last_opt rs))
  | VPathOf b =>
      if b <? s then Some (rs, OPath (Some (map (fun r => fst (hd (0, 0)
                           (filter (fun ib => snd ib =? b) (combine (seq 0 s) r)))) rs)))
      else Some (rs, OPath None)
  end.

Fixpoint vec_run (s : nat) (rs : list (list nat)) (ops : list vec_op)
  : option (list (list nat) * list vec_out) :=
  match ops with
  | [] => Some (rs, [])
  | op :: t =>
      match vec_step s rs op with
      | None => None
      | Some (rs', o) =>
          match vec_run s rs' t with
          | None => None
          | Some (rs'', os) => Some (rs'', o :: os)
          end
      end
  end.

(** A double-ended queue of the remaining elements: [true] takes from the front, [false] from the
    back. *)
Fixpoint deque_run {A} (l : list A) (sched : list bool) : list (option A) * list A :=
  match sched with
  | [] => ([], l)
  | front :: t =>
      let '(o, l') := if front then (nth_error l 0, skipn 1 l)
                      else (last_opt l, removelast l) in
      let '(os, rest) := deque_run l' t in (o :: os, rest)
  end.

(** ** Driving the model with such operations *)

(** A buffer built through the API: [new] followed by [push]es. *)
Definition ssv_build (s : nat) (rows : list (list nat)) : exec ssv :=
  foldM (fun v r => '(v', res) <- ssv_push v r;; unwrap_res res;;; Ret v') rows (ssv_new s).

Definition out_of (r : result unit incompatible_stages) : vec_out :=
  match r with Ok _ => ODone | Err (IncompatibleStages a b) => OErr a b end.

Definition keep (v : ssv) (r : option ssv) : ssv * vec_out :=
  match r with None => (v, OBool false) | Some v' => (v', OBool true) end.

(** One call of the modelled API. *)
Definition ssv_step (v : ssv) (op : vec_op) : exec (ssv * vec_out) :=
  match op with
  | VPush r => '(v', res) <- ssv_push v r;; Ret (v', out_of res)
  | VPop => '(v', r) <- ssv_pop v;; Ret (v', ORow r)
  | VExtend rows => '(v', res) <- ssv_extend v rows;; Ret (v', out_of res)
  | VExtendFromBuf os orows =>
      o <- ssv_build os orows;;
      let (v', res) := ssv_extend_from_buf v o in Ret (v', out_of res)
  | VExtendRangeTransposed t os orows lo hi =>
      o <- ssv_build os orows;;
      '(v', res) <- ssv_extend_range_transposed v t o lo hi;; Ret (v', out_of res)
  | VExtendTransposed t os orows =>
      o <- ssv_build os orows;;
      '(v', res) <- ssv_extend_transposed v t o;; Ret (v', out_of res)
  | VExtendTransposedFromWithin lo hi t =>
      '(v', res) <- ssv_extend_transposed_from_within v lo hi t;; Ret (v', out_of res)
  | VPreMultiply t => '(v', res) <- ssv_pre_multiply v t;; Ret (v', out_of res)
  | VBecomePreMultiplied t =>
      res <- ssv_pre_multiplied v t;;
      match res with
      | Ok v' => Ret (v', ODone)
      | Err (IncompatibleStages a b) => Ret (v, OErr a b)
      end
  | VSplitKeepLeft i => Ret (keep v (option_map fst (ssv_split v i)))
  | VSplitKeepRight i => Ret (keep v (option_map snd (ssv_split v i)))
  | VSwapInRow i a b => r <- ssv_edit v i (fun r => row_swap r a b);; Ret (keep v r)
  | VSwapInFirst a b => r <- ssv_edit_first v (fun r => row_swap r a b);; Ret (keep v r)
  | VSwapInLast a b => r <- ssv_edit_last v (fun r => row_swap r a b);; Ret (keep v r)
  | VLen => n <- ssv_len v;; Ret (v, ONat n)
  | VIsEmpty => Ret (v, OBool (ssv_is_empty v))
  | VGet i => Ret (v, ORow (ssv_get v i))
  | VIndex i => r <- ssv_index v i;; Ret (v, ORow (Some r))
  | VFirst => Ret (v, ORow (ssv_first v))
  | VLast => r <- ssv_last v;; Ret (v, ORow r)
  | VPathOf b => p <- ssv_path_of v b;; Ret (v, OPath p)
  end.

Fixpoint ssv_run (v : ssv) (ops : list vec_op) : exec (ssv * list vec_out) :=
  match ops with
  | [] => Ret (v, [])
  | op :: t =>
      '(v', o) <- ssv_step v op;;
      '(v'', os) <- ssv_run v' t;;
      Ret (v'', o :: os)
  end.

(** Calls of [next] ([true]) and [next_back] ([false]) on an iterator. *)
Fixpoint iter_run (it : ssv_iter) (sched : list bool) : exec (list (option (list nat)) * ssv_iter) :=
  match sched with
  | [] => Ret ([], it)
  | front :: t =>
      '(o, it') <- (if front then it_next it else it_next_back it);;
      '(os, it'') <- iter_run it' t;;
      Ret (o :: os, it'')
  end.

(** The rows which came out of the front (or the back) of such a run, in order. *)
Definition taken {A} (front : bool) (sched : list bool) (outs : list (option A)) : list A :=
  filter_map (fun p => if Bool.eqb (fst p) front then snd p else None) (combine sched outs).

(** A text is a sequence of lines each ended by a line feed, then possibly an unfinished last line;
    here are the lines it has. *)
Definition text_of (ended : list str) (unfinished : str) : str :=
  concat (map (fun l => l ++ [10%N]) ended) ++ unfinished.
Definition text_lines (ended : list str) (unfinished : str) : list str :=
  ended ++ (if length unfinished =? 0 then [] else [unfinished]).
Definition no_line_feed (l : str) : Prop := ~ In 10%N l.
