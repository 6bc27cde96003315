(** Model of /repo/src/row/same_stage_vec.rs.  Index arithmetic is on unbounded naturals: the
    overflow of [index * stage] near [usize::MAX] is in [Machine].  [with_capacity] (82-87) only
    differs from [new] in its allocation, see [Alloc].  [unsafe from_bell_vec_unchecked] (139-141) is the
    constructor [Ssv] itself. *)
From Verif Require Import Base Bell Stage Row Utils.
Local Open Scope list_scope.

(* same_stage_vec.rs 52-58 *)
Record ssv := Ssv { ssv_bells : list bell; ssv_stage : stage }.

(* same_stage_vec.rs 68-73 *)
Definition ssv_new (s : stage) : ssv := Ssv [] s.

(* same_stage_vec.rs 92-97 *)
Definition ssv_from_row_buf (r : row) : exec ssv := s <- row_stage r;; Ret (Ssv r s).

(* same_stage_vec.rs 156-161, with the debug assertion on line 158 *)
Definition ssv_len (v : ssv) : exec nat :=
  if ssv_stage v =? 0 then Panic
  else assert_ (length (ssv_bells v) mod ssv_stage v =? 0);;;
       Ret (length (ssv_bells v) / ssv_stage v).

(* same_stage_vec.rs 165-167 *)
Definition ssv_is_empty (v : ssv) : bool := match ssv_bells v with [] => true | _ => false end.

(* same_stage_vec.rs 390-393 *)
Definition get_range_of_row (v : ssv) (index : nat) : nat * nat :=
  (index * ssv_stage v, (index + 1) * ssv_stage v).

(* same_stage_vec.rs 174-179 ([slice::get] with a range) *)
Definition ssv_get (v : ssv) (index : nat) : option row :=
  let (a, b) := get_range_of_row v index in
  if b <=? length (ssv_bells v) then Some (firstn (b - a) (skipn a (ssv_bells v))) else None.

(* same_stage_vec.rs 183-189, for a caller which then changes the row in place by [f] *)
Definition ssv_edit (v : ssv) (index : nat) (f : row -> exec row) : exec (option ssv) :=
  match ssv_get v index with
  | None => Ret None
  | Some r =>
      let (a, b) := get_range_of_row v index in
      r' <- f r;;
      Ret (Some (Ssv (firstn a (ssv_bells v) ++ r' ++ skipn b (ssv_bells v)) (ssv_stage v)))
  end.

(* same_stage_vec.rs 192-199 *)
Definition ssv_first (v : ssv) : option row := ssv_get v 0.
(* same_stage_vec.rs 197-199, for a caller which then changes the row in place by [f] *)
Definition ssv_edit_first (v : ssv) (f : row -> exec row) : exec (option ssv) := ssv_edit v 0 f.

(* same_stage_vec.rs 202-204 *)
Definition ssv_last (v : ssv) : exec (option row) :=
  n <- ssv_len v;;
  Ret (match n with O => None | S i => ssv_get v i end).

(* same_stage_vec.rs 207-209 *)
Definition ssv_edit_last (v : ssv) (f : row -> exec row) : exec (option ssv) :=
  n <- ssv_len v;;
  match n with O => Ret None | S i => ssv_edit v i f end.

(* same_stage_vec.rs 399-403: [v[index]] *)
Definition ssv_index (v : ssv) (index : nat) : exec row :=
  let (a, b) := get_range_of_row v index in slice (ssv_bells v) a b.

(** ** Iteration *)

(* same_stage_vec.rs 427-433 *)
Record ssv_iter := SsvIter { it_left : list bell; it_stage : stage }.

(* same_stage_vec.rs 213-220 *)
Definition ssv_iterator (v : ssv) : ssv_iter := SsvIter (ssv_bells v) (ssv_stage v).

(** [slice::split_at]: panics when out of range. *)
(* same_stage_vec.rs 445, 467 *)
Definition split_at {A} (l : list A) (i : nat) : exec (list A * list A) :=
  if i <=? length l then Ret (firstn i l, skipn i l) else Panic.

(* same_stage_vec.rs 438-451 *)
Definition it_next (it : ssv_iter) : exec (option row * ssv_iter) :=
  match it_left it with
  | [] => Ret (None, it)
  | _ :: _ =>
      '(next_row, future_rows) <- split_at (it_left it) (it_stage it);;
      Ret (Some next_row, SsvIter future_rows (it_stage it))
  end.

(* same_stage_vec.rs 457-473; the subtraction panics when it underflows *)
Definition it_next_back (it : ssv_iter) : exec (option row * ssv_iter) :=
  match it_left it with
  | [] => Ret (None, it)
  | _ :: _ =>
      assert_ (it_stage it <=? length (it_left it));;;
      '(future_rows, next_row) <- split_at (it_left it) (length (it_left it) - it_stage it);;
      Ret (Some next_row, SsvIter future_rows (it_stage it))
  end.

(* same_stage_vec.rs 478-480 *)
Definition it_len (it : ssv_iter) : exec nat :=
  if it_stage it =? 0 then Panic else Ret (length (it_left it) / it_stage it).

(** [for row in iter]: all rows yielded by repeated [next]. *)
(* block.rs 471, and any loop of a caller over same_stage_vec.rs 435-451 *)
Fixpoint it_collect (fuel : nat) (it : ssv_iter) : exec (list row) :=
  match fuel with
  | O => NoFuel
  | S fuel' =>
      '(o, it') <- it_next it;;
      match o with
      | None => Ret []
      | Some r => rest <- it_collect fuel' it';; Ret (r :: rest)
      end
  end.

(** [for row in &v]; a row takes at least one bell, so this many steps are always enough. *)
(* same_stage_vec.rs 213-220 and 435-451 *)
Definition ssv_rows (v : ssv) : exec (list row) :=
  it_collect (S (length (ssv_bells v))) (ssv_iterator v).

(* same_stage_vec.rs 224-229 *)
Definition ssv_path_of (v : ssv) (b : bell) : exec (option (list nat)) :=
  if b <? ssv_stage v
  then rows <- ssv_rows v;; p <- mapM (fun r => unwrap (place_of r b)) rows;; Ret (Some p)
  else Ret None.

(** ** Operations *)

(* same_stage_vec.rs 237-241 *)
Definition ssv_push (v : ssv) (r : row) : exec (ssv * result unit incompatible_stages) :=
  s <- row_stage r;;
  match test_err (ssv_stage v) s with
  | Err e => Ret (v, Err e)
  | Ok _ => Ret (Ssv (ssv_bells v ++ r) (ssv_stage v), Ok tt)
  end.

(* same_stage_vec.rs 246-254, with the debug assertion on line 250 *)
Definition ssv_pop (v : ssv) : exec (ssv * option row) :=
  if length (ssv_bells v) <? ssv_stage v then Ret (v, None)
  else
    let start := length (ssv_bells v) - ssv_stage v in
    if ssv_stage v =? 0 then Panic
    else
      assert_ (start mod ssv_stage v =? 0);;;
      Ret (Ssv (firstn start (ssv_bells v)) (ssv_stage v), Some (skipn start (ssv_bells v))).

(* same_stage_vec.rs 263-270: the loop; [before] is [num_bells_before_extend] *)
Fixpoint ssv_extend_loop (s : stage) (before : nat) (bells : list bell) (rows : list row)
  : exec (list bell * result unit incompatible_stages) :=
  match rows with
  | [] => Ret (bells, Ok tt)
  | r :: t =>
      rs <- row_stage r;;
      match test_err s rs with
      | Err e => Ret (firstn before bells, Err e)
      | Ok _ => ssv_extend_loop s before (bells ++ r) t
      end
  end.

(* same_stage_vec.rs 258-272 *)
Definition ssv_extend (v : ssv) (rows : list row) : exec (ssv * result unit incompatible_stages) :=
  '(bells, res) <- ssv_extend_loop (ssv_stage v) (length (ssv_bells v)) (ssv_bells v) rows;;
  Ret (Ssv bells (ssv_stage v), res).

(* same_stage_vec.rs 279-283 *)
Definition ssv_extend_from_buf (v other : ssv) : ssv * result unit incompatible_stages :=
  match test_err (ssv_stage v) (ssv_stage other) with
  | Err e => (v, Err e)
  | Ok _ => (Ssv (ssv_bells v ++ ssv_bells other) (ssv_stage v), Ok tt)
  end.

(* same_stage_vec.rs 382-387 *)
Definition to_bell_range (v : ssv) (lo hi : bound) : exec (nat * nat) :=
  n <- ssv_len v;;
  let (a, b) := clamp_range lo hi n in
  Ret (a * ssv_stage v, b * ssv_stage v).

(* same_stage_vec.rs 299-313 *)
Definition ssv_extend_range_transposed (v : ssv) (transposition : row) (other : ssv) (lo hi : bound)
  : exec (ssv * result unit incompatible_stages) :=
  ts <- row_stage transposition;;
  match test_err (ssv_stage v) ts with
  | Err e => Ret (v, Err e)
  | Ok _ =>
      '(a, b) <- to_bell_range other lo hi;;
      src <- slice (ssv_bells other) a b;;
      new <- mapM (fun x => idx transposition x) src;;
      Ret (Ssv (ssv_bells v ++ new) (ssv_stage v), Ok tt)
  end.

(* same_stage_vec.rs 288-294 *)
Definition ssv_extend_transposed (v : ssv) (transposition : row) (other : ssv)
  : exec (ssv * result unit incompatible_stages) :=
  ssv_extend_range_transposed v transposition other Unbounded Unbounded.

(* same_stage_vec.rs 317-330 *)
Definition ssv_extend_transposed_from_within (v : ssv) (lo hi : bound) (transposition : row)
  : exec (ssv * result unit incompatible_stages) :=
  ts <- row_stage transposition;;
  match test_err (ssv_stage v) ts with
  | Err e => Ret (v, Err e)
  | Ok _ =>
      '(a, b) <- to_bell_range v lo hi;;
      bells <- foldM (fun bells i => x <- idx bells i;; y <- idx transposition x;; Ret (bells ++ [y]))
                     (range a b) (ssv_bells v);;
      Ret (Ssv bells (ssv_stage v), Ok tt)
  end.

(* same_stage_vec.rs 339-352 (and the deprecated [permute], 334-336) *)
Definition ssv_pre_multiply (v : ssv) (lhs : row) : exec (ssv * result unit incompatible_stages) :=
  s <- row_stage lhs;;
  match test_err s (ssv_stage v) with
  | Err e => Ret (v, Err e)
  | Ok _ =>
      bells <- mapM (fun b => idx_unchecked lhs b) (ssv_bells v);;
      Ret (Ssv bells (ssv_stage v), Ok tt)
  end.

(* same_stage_vec.rs 355-359 *)
Definition ssv_pre_multiplied (v : ssv) (lhs : row) : exec (result ssv incompatible_stages) :=
  '(new, res) <- ssv_extend_transposed (ssv_new (ssv_stage v)) lhs v;;
  match res with Err e => Ret (Err e) | Ok _ => Ret (Ok new) end.

(* same_stage_vec.rs 364-373 *)
Definition ssv_split (v : ssv) (index : nat) : option (ssv * ssv) :=
  match split_vec (ssv_bells v) (index * ssv_stage v) with
  | None => None
  | Some (l, r) => Some (Ssv l (ssv_stage v), Ssv r (ssv_stage v))
  end.

(** ** Parsing *)

(** [str::lines]: pieces ended by a line feed, the last one need not be; a carriage return at the
    end of a piece is dropped (this never matters for parsing rows). *)
Definition strip_cr (l : str) : str :=
  match rev l with
  | c :: t => if (c =? 13)%N then rev t else l
  | [] => l
  end.
(* [str::lines], same_stage_vec.rs 102 *)
Fixpoint lines_from (cur s : str) : list str :=
  match s with
  | [] => match cur with [] => [] | _ => [strip_cr cur] end
  | c :: t => if (c =? 10)%N then strip_cr cur :: lines_from [] t else lines_from (cur ++ [c]) t
  end.
(* [str::lines], same_stage_vec.rs 102 *)
Definition lines (s : str) : list str := lines_from [] s.

(* same_stage_vec.rs 484-496 ([ZeroStage] is never constructed) *)
Inductive ssv_parse_error :=
| SpeInvalidRow (line_num : nat) (err : invalid_row_error)
| SpeIncompatibleStages (line_num : nat) (first_stage different_stage : stage).

(* same_stage_vec.rs 114-127: the loop over the remaining lines *)
Fixpoint ssv_parse_loop (v : ssv) (line_num : nat) (ls : list str)
  : exec (result ssv ssv_parse_error) :=
  match ls with
  | [] => Ret (Ok v)
  | l :: t =>
      match row_parse l with
      | Err err => Ret (Err (SpeInvalidRow line_num err))
      | Ok r =>
          '(v', res) <- ssv_push v r;;
          match res with
          | Err (IncompatibleStages a b) => Ret (Err (SpeIncompatibleStages line_num a b))
          | Ok _ => ssv_parse_loop v' (S line_num) t
          end
      end
  end.

(* same_stage_vec.rs 100-130 *)
Definition ssv_parse (s : str) : exec (result ssv ssv_parse_error) :=
  match lines s with
  | [] => Panic
  | first :: t =>
      match row_parse first with
      | Err err => Ret (Err (SpeInvalidRow 1 err))
      | Ok r => v <- ssv_from_row_buf r;; ssv_parse_loop v 2 t
      end
  end.
