(** Programs over the safe API.  A program is a list of calls; each call takes values which earlier
    calls made, and stores what it returns.  This file models no function of /repo: it fixes which
    functions a program may call, and a step of a program is a call of their models.

    - A value is named by its position in the store.  A call whose arguments do not have the right
      type would not compile; here it does nothing.
    - A panic ends the program here.  [Unwind.v] has the programs which catch panics and go on.
    - Values are never dropped.  What Rust would move out of a variable stays readable here, which
      only gives programs more to work with.
    - Calls that return [Err] or [None] store nothing (but updates made on the way are kept). *)
From Verif Require Import Base Bell Stage Row Utils SameStageVec Block PlaceNot Mask Class Method.
From Verif Require Call Library.
Local Open Scope list_scope.

(* no code in /repo: the values a caller may hold *)
Inductive value :=
| VRow (r : row)
| VAcc (a : accumulator)
| VVec (v : ssv)
| VIter (it : ssv_iter)
| VBlock (b : block (option str))
| VRepeat (ri : repeat_iter (option str))
| VPn (p : place_not)
| VPnBlock (ps : pn_block)
| VMask (m : mask)
| VMethod (m : method).

Notation store := (list value) (only parsing).

(** A mutable row: a row of its own, or one inside a buffer (same_stage_vec.rs 183-209). *)
Inductive place :=
| InRow (i : nat)
| InVec (i index : nat)
| InVecFirst (i : nat)
| InVecLast (i : nat).

(** What can be done to a [&mut Row] (borrowed.rs 144, 245, 345, 422; place_not.rs 296). *)
Inductive row_change :=
| Swap (a b : nat)
| Parity (fuel : nat)
| MulIntoRow (i j : nat)
| InvInto (i : nat)
| Permute (pn : nat).

(* no code in /repo: what a caller may do; the lines of the functions are given below *)
Inductive call :=
(* owned.rs 58-359 *)
| Rounds (n : nat) | Backrounds (n : nat) | Queens (n : nat)
| FromVec (bells : list bell) | Parse (t : str)
| FromVecWithStage (bells : list bell) (n : nat) | ParseWithStage (t : str) (n : nat)
(* owned.rs 388-398, borrowed.rs 548 *)
| ExtendToStage (i n : nat) | OverwriteFrom (i j : nat) | CopyInto (i j : nat)
(* borrowed.rs 275-518 *)
| Mul (i j : nat) | MulResult (i j : nat) | MulInto (i j out : nat)
| Inv (i : nat) | InvIntoBuf (i out : nat)
| PowU (i n : nat) | PowI (i : nat) (e : Z)
| SolveAX (i j : nat) | SolveXA (i j : nat)
(* borrowed.rs 597-792 *)
| Closure (fuel i : nat) | ClosureFromRounds (fuel i : nat)
| Cartesian (sets : list (list nat)) | LeastGroup (fuel : nat) (is : list nat) | IsGroup (is : list nat)
| ChangeRow (p : place) (c : row_change)
(* accumulator.rs *)
| AccNew (i : nat) | AccRounds (n : nat) | Accumulate (a i : nat) | PreAccumulate (a i : nat)
| AccSet (a i : nat) | AccMulAssign (a i : nat) | AccTotal (a : nat)
(* same_stage_vec.rs *)
| VecNew (n : nat) | VecFromRow (i : nat) | VecParse (t : str)
| VecGet (v i : nat) | VecFirst (v : nat) | VecLast (v : nat) | VecIndex (v i : nat) | VecRows (v : nat)
| VecPush (v i : nat) | VecPop (v : nat) | VecExtend (v : nat) (is : list nat)
| VecExtendFromBuf (v w : nat)
| VecExtendTransposed (v i w : nat) | VecExtendRangeTransposed (v i w : nat) (lo hi : bound)
| VecExtendFromWithin (v : nat) (lo hi : bound) (i : nat)
| VecPreMultiply (v i : nat) | VecPreMultiplied (v i : nat) | VecSplit (v n : nat)
| VecPathOf (v : nat) (b : bell)
| VecIter (v : nat) | IterNext (it : nat) | IterNextBack (it : nat)
(* block.rs *)
| BlockParse (t : str) | BlockEmpty (n : nat) | BlockWithDefault (v : nat)
| BlockFromIndices (v : nat) (f : nat -> option str)
| BlockGetRow (b i : nat) | BlockFirstRow (b : nat) | BlockLeftover (b : nat)
| BlockRows (b : nat) | BlockAllRows (b : nat) | BlockAnnotRows (b : nat) | BlockIter (b : nat)
| BlockPathOf (b : nat) (x : bell)
| BlockPreMultiply (b i : nat) | BlockExtend (b c : nat) | BlockExtendRange (b c : nat) (lo hi : bound)
| BlockExtendFromWithin (b : nat) (lo hi : bound) | BlockSplit (b n : nat)
| BlockMapAnnots (b : nat) (f : nat -> option str -> option str)
| BlockSetAnnot (b i : nat) (a : option str)
| RepeatNew (i b : nat) | RepeatNext (ri : nat) | RepeatNextInto (ri out : nat)
(* place_not.rs *)
| PnParse (t : str) (n : nat) | PnCross (n : nat) | PnBetween (i j : nat)
| PnPermuteNew (p i : nat) | PnTransposition (p : nat)
| PnBlockParse (t : str) (n : nat) | PnBlockFromVec (ps : list nat)
| PnBlockToRows (p i : nat) | PnBlockToBlock (p i : nat) | PnBlockToBlockFromRounds (p : nat)
(* mask.rs *)
| MaskParse (t : str) | MaskEmpty (n : nat) | MaskFullRow (i : nat)
| MaskFixBells (n : nat) (bells : list bell) | MaskFix (m : nat) (b : bell)
| MaskSetBell (m : nat) (b : bell) (p : nat) | MaskCombine (m n : nat)
| MaskMulRow (m i : nat) | RowMulMask (i m : nat)
| MaskAsRow (m : nat)
(* method/mod.rs *)
| MethodNew (title name : str) (c : full_class) (b : nat)
| MethodWithName (name : str) (b : nat) | MethodFromString (name : str) (n : nat) (t : str)
| MethodWithLeadEnd (name : str) (p : nat)
| MethodLead (m : nat) | MethodLeadHead (m : nat) | MethodRowInLead (m i : nat)
| MethodRowInCourse (m i : nat) | MethodPlainCourse (fuel m : nat)
| MethodSetLabel (m i : nat) (l : option str)
(* derived [Clone], for any value *)
| CloneValue (i : nat)
(* block.rs 371-378: [into_row_vec], [row_vec] *)
| BlockRowVec (b : nat)
(* call.rs 23-100: a call made from a block, or by [le_bob] or [le_single], and its transposition *)
| CallNew (notation : char) (location : str) (covers b : nat)
| CallLeBob (p : nat) | CallLeSingle (p : nat)
(* method_lib/mod.rs 26-57: the method with a title; any library (the program may have read it from
   any text) and any title (already in lower case) *)
| LibraryGet (lib : Library.method_lib) (lower_case_title : str).

(** ** Arguments *)
Section Args.
Context (st : store).
(* no code in /repo: the caller names a value which it holds *)
Definition with_row (i : nat) (f : row -> exec store) : exec store :=
  match nth_error st i with Some (VRow r) => f r | _ => Ret st end.
(* no code in /repo: the caller names a value which it holds *)
Definition with_acc (i : nat) (f : accumulator -> exec store) : exec store :=
  match nth_error st i with Some (VAcc a) => f a | _ => Ret st end.
(* no code in /repo: the caller names a value which it holds *)
Definition with_vec (i : nat) (f : ssv -> exec store) : exec store :=
  match nth_error st i with Some (VVec v) => f v | _ => Ret st end.
(* no code in /repo: the caller names a value which it holds *)
Definition with_iter (i : nat) (f : ssv_iter -> exec store) : exec store :=
  match nth_error st i with Some (VIter it) => f it | _ => Ret st end.
(* no code in /repo: the caller names a value which it holds *)
Definition with_block (i : nat) (f : block (option str) -> exec store) : exec store :=
  match nth_error st i with Some (VBlock b) => f b | _ => Ret st end.
(* no code in /repo: the caller names a value which it holds *)
Definition with_repeat (i : nat) (f : repeat_iter (option str) -> exec store) : exec store :=
  match nth_error st i with Some (VRepeat ri) => f ri | _ => Ret st end.
(* no code in /repo: the caller names a value which it holds *)
Definition with_pn (i : nat) (f : place_not -> exec store) : exec store :=
  match nth_error st i with Some (VPn p) => f p | _ => Ret st end.
(* no code in /repo: the caller names a value which it holds *)
Definition with_pn_block (i : nat) (f : pn_block -> exec store) : exec store :=
  match nth_error st i with Some (VPnBlock ps) => f ps | _ => Ret st end.
(* no code in /repo: the caller names a value which it holds *)
Definition with_mask (i : nat) (f : mask -> exec store) : exec store :=
  match nth_error st i with Some (VMask m) => f m | _ => Ret st end.
(* no code in /repo: the caller names a value which it holds *)
Definition with_method (i : nat) (f : method -> exec store) : exec store :=
  match nth_error st i with Some (VMethod m) => f m | _ => Ret st end.

(** The rows among the given values. *)
(* no code in /repo: the caller names values which it holds *)
Definition rows_at (is : list nat) : list row :=
  filter_map (fun i => match nth_error st i with Some (VRow r) => Some r | _ => None end) is.
(* no code in /repo: the caller names values which it holds *)
Definition pns_at (is : list nat) : list place_not :=
  filter_map (fun i => match nth_error st i with Some (VPn p) => Some p | _ => None end) is.

(** ** Results *)
(* no code in /repo: the caller keeps a result *)
Definition push (v : value) : exec store := Ret (st ++ [v]).
(* no code in /repo: the caller keeps a result *)
Definition push_all (vs : list value) : exec store := Ret (st ++ vs).
(* no code in /repo: the caller keeps a result *)
Definition put (i : nat) (v : value) : exec store := Ret (upd st i v).
(* no code in /repo: the caller keeps a result *)
Definition push_opt (v : option value) : exec store := match v with Some v => push v | None => Ret st end.
(* no code in /repo: the caller keeps a result *)
Definition push_res {E} (v : result value E) : exec store := match v with Ok v => push v | Err _ => Ret st end.

(** An update of a mutable row, as a function of the row. *)
(* no code of its own: one of the functions at borrowed.rs 144, 245, 345, 422 and place_not.rs 296 *)
Definition change_row (c : row_change) (r : row) : exec row :=
  match c with
  | Swap a b => row_swap r a b
  | Parity fuel => '(r', _) <- row_parity fuel r;; Ret r'
  | MulIntoRow i j =>
      match nth_error st i, nth_error st j with
      | Some (VRow a), Some (VRow b) => '(r', _) <- mul_into_row a b r;; Ret r'
      | _, _ => Ret r
      end
  | InvInto i =>
      match nth_error st i with
      | Some (VRow a) => '(r', _) <- inv_into a r;; Ret r'
      | _ => Ret r
      end
  | Permute p =>
      match nth_error st p with
      | Some (VPn pn) => '(r', _) <- pn_permute pn r;; Ret r'
      | _ => Ret r
      end
  end.
End Args.

(* no code in /repo: the caller keeps a result *)
Definition res_map {A B E} (f : A -> B) (r : result A E) : result B E :=
  match r with Ok a => Ok (f a) | Err e => Err e end.

Section Step.
Context (hash_order : list nat -> list nat).

(* no code of its own: one call of a function whose lines are at its model *)
Definition step (st : store) (c : call) : exec store :=
  match c with
  | Rounds n => s <- stage_new n;; push st (VRow (row_rounds s))
  | Backrounds n => s <- stage_new n;; push st (VRow (row_backrounds s))
  | Queens n => s <- stage_new n;; push st (VRow (row_queens s))
  | FromVec bells => push_res st (res_map VRow (from_vec bells))
  | Parse t => push_res st (res_map VRow (row_parse t))
  | FromVecWithStage bells n => s <- stage_new n;; r <- from_vec_with_stage bells s;; push_res st (res_map VRow r)
  | ParseWithStage t n => s <- stage_new n;; r <- row_parse_with_stage t s;; push_res st (res_map VRow r)
  | ExtendToStage i n => with_row st i (fun r => s <- stage_new n;; r' <- extend_to_stage r s;; put st i (VRow r'))
  | OverwriteFrom i j => with_row st i (fun r => with_row st j (fun q => put st i (VRow (overwrite_from r q))))
  | CopyInto i j => with_row st i (fun r => with_row st j (fun q => put st j (VRow (copy_into r q))))
  | Mul i j => with_row st i (fun a => with_row st j (fun b => r <- row_mul a b;; push st (VRow r)))
  | MulResult i j =>
      with_row st i (fun a => with_row st j (fun b => r <- mul_result a b;; push_res st (res_map VRow r)))
  | MulInto i j out =>
      with_row st i (fun a => with_row st j (fun b => with_row st out (fun o =>
        '(o', _) <- mul_into a b o;; put st out (VRow o'))))
  | Inv i => with_row st i (fun a => r <- row_inv a;; push st (VRow r))
  | InvIntoBuf i out =>
      with_row st i (fun a => with_row st out (fun o => o' <- inv_into_buf a o;; put st out (VRow o')))
  | PowU i n => with_row st i (fun a => r <- pow_u a n;; push st (VRow r))
  | PowI i e => with_row st i (fun a => r <- pow_i a e;; push st (VRow r))
  | SolveAX i j =>
      with_row st i (fun a => with_row st j (fun b => r <- solve_ax_equals_b a b;; push_res st (res_map VRow r)))
  | SolveXA i j =>
      with_row st i (fun a => with_row st j (fun b => r <- solve_xa_equals_b a b;; push_res st (res_map VRow r)))
  | Closure fuel i => with_row st i (fun a => rs <- closure fuel a;; push_all st (map VRow rs))
  | ClosureFromRounds fuel i =>
      with_row st i (fun a => rs <- closure_from_rounds fuel a;; push_all st (map VRow rs))
  | Cartesian sets =>
      r <- multi_cartesian_product (map (rows_at st) sets);;
      match r with Ok rs => push_all st (map VRow rs) | Err _ => Ret st end
  | LeastGroup fuel is =>
      r <- least_group_containing fuel (rows_at st is);;
      match r with Ok rs => push_all st (map VRow rs) | Err _ => Ret st end
  | IsGroup is => is_group_set (rows_at st is);;; Ret st
  | ChangeRow (InRow i) c => with_row st i (fun r => r' <- change_row st c r;; put st i (VRow r'))
  | ChangeRow (InVec i index) c =>
      with_vec st i (fun v => o <- ssv_edit v index (change_row st c);;
                              match o with Some v' => put st i (VVec v') | None => Ret st end)
  | ChangeRow (InVecFirst i) c =>
      with_vec st i (fun v => o <- ssv_edit_first v (change_row st c);;
                              match o with Some v' => put st i (VVec v') | None => Ret st end)
  | ChangeRow (InVecLast i) c =>
      with_vec st i (fun v => o <- ssv_edit_last v (change_row st c);;
                              match o with Some v' => put st i (VVec v') | None => Ret st end)
  | AccNew i => with_row st i (fun r => a <- acc_new r;; push st (VAcc a))
  | AccRounds n => s <- stage_new n;; a <- acc_rounds s;; push st (VAcc a)
  | Accumulate a i =>
      with_acc st a (fun x => with_row st i (fun r => '(x', _) <- acc_accumulate x r;; put st a (VAcc x')))
  | PreAccumulate a i =>
      with_acc st a (fun x => with_row st i (fun r => '(x', _) <- acc_pre_accumulate x r;; put st a (VAcc x')))
  | AccSet a i => with_acc st a (fun x => with_row st i (fun r => put st a (VAcc (acc_set x r))))
  | AccMulAssign a i =>
      with_acc st a (fun x => with_row st i (fun r => x' <- acc_mul_assign x r;; put st a (VAcc x')))
  | AccTotal a => with_acc st a (fun x => push st (VRow (acc_total x)))
  | VecNew n => s <- stage_new n;; push st (VVec (ssv_new s))
  | VecFromRow i => with_row st i (fun r => v <- ssv_from_row_buf r;; push st (VVec v))
  | VecParse t => r <- ssv_parse t;; push_res st (res_map VVec r)
  | VecGet v i => with_vec st v (fun v => push_opt st (option_map VRow (ssv_get v i)))
  | VecFirst v => with_vec st v (fun v => push_opt st (option_map VRow (ssv_first v)))
  | VecLast v => with_vec st v (fun v => r <- ssv_last v;; push_opt st (option_map VRow r))
  | VecIndex v i => with_vec st v (fun v => r <- ssv_index v i;; push st (VRow r))
  | VecRows v => with_vec st v (fun v => rs <- ssv_rows v;; push_all st (map VRow rs))
  | VecPush v i => with_vec st v (fun x => with_row st i (fun r => '(x', _) <- ssv_push x r;; put st v (VVec x')))
  | VecPop v =>
      with_vec st v (fun x => '(x', r) <- ssv_pop x;; st' <- put st v (VVec x');; push_opt st' (option_map VRow r))
  | VecExtend v is => with_vec st v (fun x => '(x', _) <- ssv_extend x (rows_at st is);; put st v (VVec x'))
  | VecExtendFromBuf v w =>
      with_vec st v (fun x => with_vec st w (fun y => put st v (VVec (fst (ssv_extend_from_buf x y)))))
  | VecExtendTransposed v i w =>
      with_vec st v (fun x => with_row st i (fun t => with_vec st w (fun y =>
        '(x', _) <- ssv_extend_transposed x t y;; put st v (VVec x'))))
  | VecExtendRangeTransposed v i w lo hi =>
      with_vec st v (fun x => with_row st i (fun t => with_vec st w (fun y =>
        '(x', _) <- ssv_extend_range_transposed x t y lo hi;; put st v (VVec x'))))
  | VecExtendFromWithin v lo hi i =>
      with_vec st v (fun x => with_row st i (fun t =>
        '(x', _) <- ssv_extend_transposed_from_within x lo hi t;; put st v (VVec x')))
  | VecPreMultiply v i =>
      with_vec st v (fun x => with_row st i (fun t => '(x', _) <- ssv_pre_multiply x t;; put st v (VVec x')))
  | VecPreMultiplied v i =>
      with_vec st v (fun x => with_row st i (fun t => r <- ssv_pre_multiplied x t;; push_res st (res_map VVec r)))
  | VecSplit v n =>
      with_vec st v (fun x => match ssv_split x n with
                              | Some (a, b) => push_all st [VVec a; VVec b]
                              | None => Ret st
                              end)
  | VecPathOf v b => with_vec st v (fun x => ssv_path_of x b;;; Ret st)
  | VecIter v => with_vec st v (fun x => push st (VIter (ssv_iterator x)))
  | IterNext it =>
      with_iter st it (fun x => '(r, x') <- it_next x;; st' <- put st it (VIter x');; push_opt st' (option_map VRow r))
  | IterNextBack it =>
      with_iter st it (fun x => '(r, x') <- it_next_back x;; st' <- put st it (VIter x');; push_opt st' (option_map VRow r))
  | BlockParse t => r <- block_parse None t;; push_res st (res_map VBlock r)
  | BlockEmpty n => s <- stage_new n;; b <- block_empty s;; push st (VBlock b)
  | BlockWithDefault v => with_vec st v (fun x => b <- with_default_annots None x;; push st (VBlock b))
  | BlockFromIndices v f => with_vec st v (fun x => b <- with_annots_from_indices x f;; push_opt st (option_map VBlock b))
  | BlockGetRow b i => with_block st b (fun x => push_opt st (option_map VRow (block_get_row x i)))
  | BlockFirstRow b => with_block st b (fun x => r <- block_first_row x;; push st (VRow r))
  | BlockLeftover b => with_block st b (fun x => r <- block_leftover_row x;; push st (VRow r))
  | BlockRows b => with_block st b (fun x => rs <- block_rows x;; push_all st (map VRow rs))
  | BlockAllRows b => with_block st b (fun x => rs <- block_all_rows x;; push_all st (map VRow rs))
  | BlockAnnotRows b => with_block st b (fun x => rs <- block_annot_rows x;; push_all st (map (fun p => VRow (fst p)) rs))
  | BlockIter b => with_block st b (fun x => it <- block_rows_iter x;; push st (VIter it))
  | BlockPathOf b p => with_block st b (fun x => block_path_of x p;;; Ret st)
  | BlockPreMultiply b i =>
      with_block st b (fun x => with_row st i (fun r => '(x', _) <- block_pre_multiply x r;; put st b (VBlock x')))
  | BlockExtend b c =>
      with_block st b (fun x => with_block st c (fun y => '(x', _) <- block_extend x y;; put st b (VBlock x')))
  | BlockExtendRange b c lo hi =>
      with_block st b (fun x => with_block st c (fun y => '(x', _) <- block_extend_range x y lo hi;; put st b (VBlock x')))
  | BlockExtendFromWithin b lo hi =>
      with_block st b (fun x => x' <- block_extend_from_within x lo hi;; put st b (VBlock x'))
  | BlockSplit b n =>
      with_block st b (fun x => o <- block_split x n;;
                                match o with Some (a, c) => push_all st [VBlock a; VBlock c] | None => Ret st end)
  | BlockMapAnnots b f => with_block st b (fun x => push st (VBlock (block_map_annots_with_index x f)))
  | BlockSetAnnot b i a =>
      with_block st b (fun x => match block_set_annot x i a with Some x' => put st b (VBlock x') | None => Ret st end)
  | RepeatNew i b =>
      with_row st i (fun r => with_block st b (fun x => ri <- repeat_iter_new r x;; push_res st (res_map VRepeat ri)))
  | RepeatNext ri =>
      with_repeat st ri (fun x => '(o, x') <- repeat_iter_next x;; st' <- put st ri (VRepeat x');;
                                  push_opt st' (option_map (fun p => VRow (fst (fst p))) o))
  | RepeatNextInto ri out =>
      with_repeat st ri (fun x => with_row st out (fun r =>
        '(o, r', x') <- repeat_iter_next_into x r;; st' <- put st ri (VRepeat x');; put st' out (VRow r')))
  | PnParse t n => s <- stage_new n;; p <- pn_parse t s;; push_res st (res_map VPn p)
  | PnCross n => s <- stage_new n;; push_opt st (option_map VPn (pn_cross s))
  | PnBetween i j => with_row st i (fun a => with_row st j (fun b => p <- pn_between a b;; push_opt st (option_map VPn p)))
  | PnPermuteNew p i =>
      with_pn st p (fun pn => with_row st i (fun r => r' <- pn_permute_new pn r;; push_res st (res_map VRow r')))
  | PnTransposition p => with_pn st p (fun pn => r <- pn_transposition pn;; push st (VRow r))
  | PnBlockParse t n => s <- stage_new n;; p <- pn_block_parse t s;; push_res st (res_map VPnBlock p)
  | PnBlockFromVec ps => push_res st (res_map VPnBlock (pn_block_from_vec (pns_at st ps)))
  | PnBlockToRows p i =>
      with_pn_block st p (fun pns => with_row st i (fun r => v <- pn_block_to_rows pns r;; push_res st (res_map VVec v)))
  | PnBlockToBlock p i =>
      with_pn_block st p (fun pns => with_row st i (fun r => b <- pn_block_to_block None pns r;; push_res st (res_map VBlock b)))
  | PnBlockToBlockFromRounds p =>
      with_pn_block st p (fun pns => b <- pn_block_to_block_from_rounds None pns;; push st (VBlock b))
  | MaskParse t => push st (VMask (mask_parse t))
  | MaskEmpty n => s <- stage_new n;; push st (VMask (mask_empty s))
  | MaskFullRow i => with_row st i (fun r => push st (VMask (mask_full_row r)))
  | MaskFixBells n bells => s <- stage_new n;; m <- mask_fix_bells s bells;; push st (VMask m)
  | MaskFix m b => with_mask st m (fun x => '(x', _) <- mask_fix x b;; put st m (VMask x'))
  | MaskSetBell m b p => with_mask st m (fun x => '(x', _) <- mask_set_bell x b p;; put st m (VMask x'))
  | MaskCombine m n => with_mask st m (fun x => with_mask st n (fun y => o <- mask_combine x y;; push_opt st (option_map VMask o)))
  | MaskMulRow m i => with_mask st m (fun x => with_row st i (fun r => y <- mask_mul_row x r;; push st (VMask y)))
  | RowMulMask i m => with_row st i (fun r => with_mask st m (fun x => y <- row_mul_mask r x;; push st (VMask y)))
  | MaskAsRow m => with_mask st m (fun x => o <- mask_as_row x;; push_opt st (option_map VRow o))
  | MethodNew title name c b => with_block st b (fun x => push st (VMethod (Method title name c x)))
  | MethodWithName name b => with_block st b (fun x => m <- with_name hash_order name x;; push st (VMethod m))
  | MethodFromString name n t =>
      s <- stage_new n;; m <- from_place_not_string hash_order name s t;; push_res st (res_map VMethod m)
  | MethodWithLeadEnd name p => with_pn_block st p (fun pns => m <- with_lead_end hash_order name pns;; push st (VMethod m))
  | MethodLead m => with_method st m (fun x => push st (VBlock (first_lead x)))
  | MethodLeadHead m => with_method st m (fun x => r <- lead_head x;; push st (VRow r))
  | MethodRowInLead m i => with_method st m (fun x => r <- row_in_plain_lead x i;; push st (VRow r))
  | MethodRowInCourse m i => with_method st m (fun x => r <- row_in_plain_course x i;; push st (VRow r))
  | MethodPlainCourse fuel m =>
      with_method st m (fun x => b <- plain_course fuel x;; push st (VBlock (block_map_annots b label)))
  | MethodSetLabel m i l => with_method st m (fun x => x' <- set_label x i l;; put st m (VMethod x'))
  | CloneValue i => push_opt st (nth_error st i)
  | BlockRowVec b => with_block st b (fun x => push st (VVec (blk_rows x)))
  | CallNew notation location covers b =>
      with_block st b (fun x =>
        r <- Call.call_transposition (Call.Call notation location covers (block_map_annots x (fun _ => tt)));;
        push st (VRow r))
  | CallLeBob p => with_pn_block st p (fun pns => c <- Call.le_bob pns;; r <- Call.call_transposition c;; push st (VRow r))
  | CallLeSingle p =>
      with_pn_block st p (fun pns => c <- Call.le_single pns;; r <- Call.call_transposition c;; push st (VRow r))
  | LibraryGet lib title =>
      o <- Library.get_by_title_option lib title;;
      match o with Some (Ok m) => push st (VMethod m) | _ => Ret st end
  end.

(** A program, run from an empty store. *)
(* no code in /repo: the caller *)
Definition run_from (st : store) (prog : list call) : exec store := foldM step prog st.
(* no code in /repo: the caller *)
Definition run (prog : list call) : exec store := run_from [] prog.
End Step.
