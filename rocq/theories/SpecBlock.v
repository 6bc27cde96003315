(** Specification vocabulary for blocks: what a list of annotated rows and a left-over row do. *)
From Verif Require Import Base Spec Stage Row SameStageVec SpecVec Block.
Local Open Scope list_scope.

(** The place of bell [b] in [r], and the row taking every bell to its place. *)
Definition place_in (r : list nat) (b : nat) : nat :=
  fst (hd (0, 0) (filter (fun ib => snd ib =? b) (combine (seq 0 (length r)) r))).
Definition row_inverse (r : list nat) : list nat := map (place_in r) (seq 0 (length r)).

Section SpecBlock.
Context {A : Type}.

(** Block [b] has stage [s], iterating over its annotated rows gives [ars], its left-over row is
    [lo], and all of these are valid rows of the stage. *)
Definition block_holds (b : block A) (s : nat) (ars : list (list nat * A)) (lo : list nat) : Prop :=
  0 < s /\ block_stage b = s /\
  Forall (fun ra => valid_row (fst ra) /\ length (fst ra) = s) ars /\
  valid_row lo /\ length lo = s /\
  block_annot_rows b = Ret ars /\ block_leftover_row b = Ret lo.

Definition all_rows_of (ars : list (list nat * A)) (lo : list nat) : list (list nat) :=
  map fst ars ++ [lo].

(** A block given as an argument: its rows including the left-over one, and the annotation of the
    row at each index. *)
Record block_arg := BlockArg { ba_stage : nat; ba_rows : list (list nat); ba_annot : nat -> A }.

Definition block_arg_valid (o : block_arg) : Prop :=
  0 < ba_stage o /\ ba_rows o <> [] /\
  Forall (fun r => valid_row r /\ length r = ba_stage o) (ba_rows o).

Definition arg_annot_rows (o : block_arg) : list (list nat * A) :=
  combine (removelast (ba_rows o)) (map (ba_annot o) (seq 0 (length (ba_rows o) - 1))).
Definition arg_leftover (o : block_arg) : list nat := last (ba_rows o) [].

Inductive block_op :=
| BPreMultiply (t : list nat)
| BExtend (other : block_arg)
| BExtendRange (other : block_arg) (lo hi : bound)
| BExtendFromWithin (lo hi : bound)
| BSetAnnot (i : nat) (x : A)
| BMapAnnots (f : nat -> A -> A)
| BSplitKeepLeft (i : nat)
| BSplitKeepRight (i : nat)
| BLen | BIsEmpty | BGetRow (i : nat) | BGetAnnot (i : nat) | BGetAnnotRow (i : nat)
| BFirstRow | BFirstAnnotRow | BLeftover | BRows | BAllRows | BAnnotRows.

Inductive block_out :=
| BDone
| BErr (lhs rhs : nat)
| BBool (b : bool)
| BNat (n : nat)
| BRow (r : option (list nat))
| BAnnot (a : option A)
| BAnnotRow (ra : option (list nat * A))
| BRowList (l : list (list nat))
| BAnnotRowList (l : list (list nat * A)).

(** Rows are valid, and [extend_range] is given the whole range (see C31 for what it does with others). *)
Definition block_op_args_valid (op : block_op) : Prop :=
  match op with
  | BPreMultiply t => valid_row t
  | BExtend o => block_arg_valid o
  | BExtendRange o lo hi =>
      block_arg_valid o /\ range_start lo = 0 /\ range_end hi (length (ba_rows o) - 1) = length (ba_rows o) - 1
  | _ => True
  end.

(** The row [r] moved by the transposition which takes [first] to [target]. *)
Definition moved (first target r : list nat) : list nat :=
  row_product target (row_product (row_inverse first) r).

(** What the operation does to a list of annotated rows and a left-over row; [None] (a panic) when a
    range passed to [extend_from_within] is not inside the block. *)
Definition block_step (s : nat) (st : list (list nat * A) * list nat) (op : block_op)
  : option ((list (list nat * A) * list nat) * block_out) :=
  let (ars, lo) := st in
  match op with
  | BPreMultiply t =>
      if length t =? s
      then Some ((map (fun ra => (row_product t (fst ra), snd ra)) ars, row_product t lo), BDone)
      else Some (st, BErr (length t) s)
  | BExtend o | BExtendRange o _ _ =>
      if ba_stage o =? s then
        let first := hd [] (ba_rows o) in
        Some ((ars ++ map (fun ra => (moved first lo (fst ra), snd ra)) (arg_annot_rows o),
               moved first lo (arg_leftover o)), BDone)
      else Some (st, BErr s (ba_stage o))
  | BExtendFromWithin lo_ hi_ =>
      let a := range_start lo_ in
      let b := range_end hi_ (length ars) in
      if (a <=? b) && (b <=? length ars) then
        let rows := all_rows_of ars lo in
        let first := nth a rows [] in
        Some ((ars ++ map (fun ra => (moved first lo (fst ra), snd ra)) (sublist a b ars),
               moved first lo (nth b rows [])), BDone)
      else None
  | BSetAnnot i x =>
      match nth_error ars i with
      | None => Some (st, BBool false)
      | Some (r, _) => Some ((replace_nth ars i (r, x), lo), BBool true)
      end
  | BMapAnnots f =>
      Some ((map (fun ira => (fst (snd ira), f (fst ira) (snd (snd ira))))
                 (combine (seq 0 (length ars)) ars), lo), BDone)
  | BSplitKeepLeft i =>
      if i <=? length ars then Some ((firstn i ars, nth i (all_rows_of ars lo) []), BBool true)
      else Some (st, BBool false)
  | BSplitKeepRight i =>
      if i <=? length ars then Some ((skipn i ars, lo), BBool true) else Some (st, BBool false)
  | BLen => Some (st, BNat (length ars))
  | BIsEmpty => Some (st, BBool (length ars =? 0))
  | BGetRow i => Some (st, BRow (nth_error (all_rows_of ars lo) i))
  | BGetAnnot i => Some (st, BAnnot (option_map snd (nth_error ars i)))
  | BGetAnnotRow i => Some (st, BAnnotRow (nth_error ars i))
  | BFirstRow => Some (st, BRow (nth_error (all_rows_of ars lo) 0))
  | BFirstAnnotRow => Some (st, BAnnotRow (nth_error ars 0))
  | BLeftover => Some (st, BRow (Some lo))
  | BRows => Some (st, BRowList (map fst ars))
  | BAllRows => Some (st, BRowList (all_rows_of ars lo))
  | BAnnotRows => Some (st, BAnnotRowList ars)
  end.

Fixpoint block_run (s : nat) (st : list (list nat * A) * list nat) (ops : list block_op)
  : option ((list (list nat * A) * list nat) * list block_out) :=
  match ops with
  | [] => Some (st, [])
  | op :: t =>
      match block_step s st op with
      | None => None
      | Some (st', o) =>
          match block_run s st' t with
          | None => None
          | Some (st'', os) => Some (st'', o :: os)
          end
      end
  end.

(** ** Driving the model *)

(** A block built through the API. *)
Definition block_build (o : block_arg) : exec (option (block A)) :=
  rows <- ssv_build (ba_stage o) (ba_rows o);; with_annots_from_indices rows (ba_annot o).

Definition block_res (b : block A) (r : result unit incompatible_stages) : block A * block_out :=
  match r with Ok _ => (b, BDone) | Err (IncompatibleStages x y) => (b, BErr x y) end.

Definition block_keep (b : block A) (r : option (block A)) : block A * block_out :=
  match r with None => (b, BBool false) | Some b' => (b', BBool true) end.

Definition block_call (b : block A) (op : block_op) : exec (block A * block_out) :=
  match op with
  | BPreMultiply t => '(b', res) <- block_pre_multiply b t;; Ret (block_res b' res)
  | BExtend o =>
      ob <- block_build o;; other <- unwrap ob;;
      '(b', res) <- block_extend b other;; Ret (block_res b' res)
  | BExtendRange o lo hi =>
      ob <- block_build o;; other <- unwrap ob;;
      '(b', res) <- block_extend_range b other lo hi;; Ret (block_res b' res)
  | BExtendFromWithin lo hi => b' <- block_extend_from_within b lo hi;; Ret (b', BDone)
  | BSetAnnot i x => Ret (block_keep b (block_set_annot b i x))
  | BMapAnnots f => Ret (block_map_annots_with_index b f, BDone)
  | BSplitKeepLeft i => r <- block_split b i;; Ret (block_keep b (option_map fst r))
  | BSplitKeepRight i => r <- block_split b i;; Ret (block_keep b (option_map snd r))
  | BLen => Ret (b, BNat (block_len b))
  | BIsEmpty => Ret (b, BBool (block_is_empty b))
  | BGetRow i => Ret (b, BRow (block_get_row b i))
  | BGetAnnot i => Ret (b, BAnnot (block_get_annot b i))
  | BGetAnnotRow i => Ret (b, BAnnotRow (block_get_annot_row b i))
  | BFirstRow => r <- block_first_row b;; Ret (b, BRow (Some r))
  | BFirstAnnotRow => Ret (b, BAnnotRow (block_first_annot_row b))
  | BLeftover => r <- block_leftover_row b;; Ret (b, BRow (Some r))
  | BRows => l <- block_rows b;; Ret (b, BRowList l)
  | BAllRows => l <- block_all_rows b;; Ret (b, BRowList l)
  | BAnnotRows => l <- block_annot_rows b;; Ret (b, BAnnotRowList l)
  end.

Fixpoint block_calls (b : block A) (ops : list block_op) : exec (block A * list block_out) :=
  match ops with
  | [] => Ret (b, [])
  | op :: t =>
      '(b', o) <- block_call b op;;
      '(b'', os) <- block_calls b' t;;
      Ret (b'', o :: os)
  end.

(** Steps of a [RepeatIter]: [None] calls [next], [Some out] calls [next_into] with that buffer
    (whose contents afterwards are the row yielded). *)
Fixpoint repeat_run (ri : repeat_iter A) (sched : list (option (list nat)))
  : exec (list (option (list nat * nat * A)) * repeat_iter A) :=
  match sched with
  | [] => Ret ([], ri)
  | None :: t =>
      '(o, ri') <- repeat_iter_next ri;;
      '(os, ri'') <- repeat_run ri' t;;
      Ret (o :: os, ri'')
  | Some out :: t =>
      '(o, out', ri') <- repeat_iter_next_into ri out;;
      '(os, ri'') <- repeat_run ri' t;;
      Ret (option_map (fun ia => (out', fst ia, snd ia)) o :: os, ri'')
  end.
End SpecBlock.
Arguments block_arg : clear implicits.
Arguments block_op : clear implicits.
Arguments block_out : clear implicits.
