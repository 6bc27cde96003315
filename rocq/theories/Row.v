(** Model of /repo/src/row/owned.rs, /repo/src/row/borrowed.rs, /repo/src/row/accumulator.rs and
    /repo/src/row/errors.rs.

    [Row] (a transparent wrapper of [[Bell]], borrowed.rs 58-65) and [RowBuf] (of [Vec<Bell>],
    owned.rs 20-27) are both modelled by the list of bells.  Validity is NOT part of the type:
    that every row reachable through safe code is valid is a theorem.  Borrowing conversions
    (owned.rs 369-447, borrowed.rs 821-842, to_rc/to_arc) are identities on the list. *)
From Verif Require Import Base Bell Stage Parity.
Local Open Scope list_scope.

Notation row := (list nat) (only parsing).

(* row/errors.rs 13-26 *)
Inductive invalid_row_error :=
| NoBells
| DuplicateBell (b : bell)
| BellOutOfStage (b : bell) (s : stage)
| MissingBell (b : bell).

(* row/errors.rs 54-58 *)
Inductive mul_into_error :=
| RhsStage (e : incompatible_stages)
| IntoStage (e : incompatible_stages).

(** ** owned.rs *)

(* owned.rs 103-106 *)
Definition row_rounds (s : stage) : row := range 0 s.

(* owned.rs 117-122 *)
Definition row_backrounds (s : stage) : row := rev (range 0 s).

(** [iter.step_by(2)] *)
(* owned.rs 138-139 *)
Fixpoint step_by_2 {A} (l : list A) : list A :=
  match l with
  | [] => []
  | [x] => [x]
  | x :: _ :: t => x :: step_by_2 t
  end.

(* owned.rs 133-143 *)
Definition row_queens (s : stage) : row := step_by_2 (range 0 s) ++ step_by_2 (range 1 s).

(* owned.rs 185-196: the loop over [bells] with its [checklist] *)
Fixpoint check_bells (checklist : list bool) (s : stage) (bells : list bell)
  : result (list bool) invalid_row_error :=
  match bells with
  | [] => Ok checklist
  | b :: t =>
      match nth_error checklist b with
      | None => Err (BellOutOfStage b s)
      | Some true => Err (DuplicateBell b)
      | Some false => check_bells (upd checklist b true) s t
      end
  end.

(* owned.rs 176-199 *)
Definition from_vec (bells : list bell) : result row invalid_row_error :=
  match stage_try_from (length bells) with
  | Err _ => Err NoBells
  | Ok s =>
      match check_bells (repeat false (length bells)) s bells with
      | Err e => Err e
      | Ok _ => Ok bells
      end
  end.

(* owned.rs 274-276 (and Row::from_slice-style collects) *)
Definition from_bell_iter (bells : list bell) : result row invalid_row_error := from_vec bells.

(* owned.rs 58-60 *)
Definition row_parse (s : str) : result row invalid_row_error :=
  from_bell_iter (filter_map bell_from_name s).

(* owned.rs 317-330: the loop with [checklist] and [biggest_bell_found] *)
Fixpoint check_bells_max (checklist : list bool) (biggest : bell) (s : stage) (bells : list bell)
  : result (list bool * bell) invalid_row_error :=
  match bells with
  | [] => Ok (checklist, biggest)
  | b :: t =>
      match nth_error checklist b with
      | None => Err (BellOutOfStage b s)
      | Some true => Err (DuplicateBell b)
      | Some false => check_bells_max (upd checklist b true) (Nat.max b biggest) s t
      end
  end.

(* owned.rs 308-359 *)
Definition from_vec_with_stage (bells : list bell) (s : stage)
  : exec (result row invalid_row_error) :=
  match check_bells_max (repeat false s) TREBLE s bells with
  | Err e => Ret (Err e)
  | Ok (checklist, biggest) =>
      (* owned.rs 342-348 *)
      prefix <- slice checklist 0 biggest;;
      match position negb prefix with
      | Some i => Ret (Err (MissingBell i))
      | None =>
          (* owned.rs 352-358 *)
          assert_ (length bells <=? s);;;
          Ret (Ok (bells ++ range (length bells) s))
      end
  end.

(* owned.rs 90-92 *)
Definition row_parse_with_stage (t : str) (s : stage) : exec (result row invalid_row_error) :=
  from_vec_with_stage (filter_map bell_from_name t) s.

(** ** borrowed.rs *)

(* borrowed.rs 83-85 *)
Definition row_stage (r : row) : exec stage := stage_new (length r).

(* owned.rs 388-392 *)
Definition extend_to_stage (r : row) (s : stage) : exec row :=
  st <- row_stage r;;
  assert_ (st <=? s);;;
  Ret (r ++ range (length r) s).

(* owned.rs 395-398 *)
Definition overwrite_from (self r : row) : row := [] ++ r.

(* borrowed.rs 127-129 *)
Definition place_of (r : row) (b : bell) : option nat := position (fun x => x =? b) r.

(* borrowed.rs 245-247: slice::swap, panics when either index is out of range *)
Definition row_swap (r : row) (a b : nat) : exec row :=
  x <- idx r a;; y <- idx r b;;
  Ret (upd (upd r a y) b x).

(* borrowed.rs 148-158: the while loop.  Each iteration either advances or swaps; [fuel] bounds
   the number of iterations. *)
Fixpoint parity_loop (fuel : nat) (r : row) (first num_swaps : nat) : exec (row * nat) :=
  match fuel with
  | O => NoFuel
  | S fuel' =>
      s <- row_stage r;;
      if first <? s then
        cur <- idx r first;;
        if cur =? first then parity_loop fuel' r (S first) num_swaps
        else
          r' <- row_swap r first cur;;
          parity_loop fuel' r' first (S num_swaps)
      else Ret (r, num_swaps)
  end.

(* borrowed.rs 144-160; the receiver is [&mut self], so the final row is returned too *)
Definition row_parity (fuel : nat) (r : row) : exec (row * parity) :=
  '(r', n) <- parity_loop fuel r 0 0;;
  Ret (r', parity_from_number n).

(* borrowed.rs 175-177 *)
Definition is_rounds (r : row) : bool := forallb (fun '(i, b) => b =? i) (enumerate r).

(* borrowed.rs 192-197 *)
Definition is_backrounds (r : row) : bool := forallb (fun '(i, b) => b =? i) (enumerate (rev r)).

(* borrowed.rs 220-227: the loop over [enumerate().rev()] *)
Fixpoint effective_stage_loop (l : list (nat * bell)) : exec stage :=
  match l with
  | [] => Ret 1
  | (i, b) :: t => if b =? i then effective_stage_loop t else stage_new (i + 1)
  end.

(* borrowed.rs 217-228 *)
Definition effective_stage (r : row) : exec stage := effective_stage_loop (rev (enumerate r)).

(* borrowed.rs 312-317 *)
Definition mul_unchecked (a b : row) : exec row := mapM (fun x => idx a x) b.

(* borrowed.rs 275-280 *)
Definition mul_result (a b : row) : exec (result row incompatible_stages) :=
  sa <- row_stage a;; sb <- row_stage b;;
  match test_err sa sb with
  | Err e => Ret (Err e)
  | Ok _ => r <- mul_unchecked a b;; Ret (Ok r)
  end.

(* borrowed.rs 903-1024: the four [*] operators all reach this one *)
Definition row_mul (a b : row) : exec row := r <- mul_result a b;; unwrap_res r.

(* borrowed.rs 335-340: [out] is cleared, then filled *)
Definition mul_into_unchecked (a b out : row) : exec row :=
  r <- mapM (fun x => idx a x) b;; Ret ([] ++ r).

(* borrowed.rs 321-327: new contents of [out], and the result *)
Definition mul_into (a b out : row) : exec (row * result unit incompatible_stages) :=
  sa <- row_stage a;; sb <- row_stage b;;
  match test_err sa sb with
  | Err e => Ret (out, Err e)
  | Ok _ => out' <- mul_into_unchecked a b out;; Ret (out', Ok tt)
  end.

(* borrowed.rs 360-367: [zip_eq] panics when the lengths differ *)
Fixpoint mul_into_row_loop (a out b : row) : exec row :=
  match out, b with
  | [], [] => Ret []
  | _ :: out', y :: b' => x <- idx a y;; t <- mul_into_row_loop a out' b';; Ret (x :: t)
  | _, _ => Panic
  end.

(* borrowed.rs 345-352 *)
Definition mul_into_row (a b out : row) : exec (row * result unit mul_into_error) :=
  sa <- row_stage a;; sb <- row_stage b;;
  match test_err sa sb with
  | Err e => Ret (out, Err (RhsStage e))
  | Ok _ =>
      so <- row_stage out;;
      match test_err sa so with
      | Err e => Ret (out, Err (IntoStage e))
      | Ok _ => out' <- mul_into_row_loop a out b;; Ret (out', Ok tt)
      end
  end.

(* borrowed.rs 389-391, 425-429, 471-473: [for (i, b) in ..enumerate() { out[b] = i }] *)
Definition inv_loop (r out : row) : exec row :=
  foldM (fun o '(i, b) => set_idx o b i) (enumerate r) out.

(* borrowed.rs 387-395 *)
Definition row_inv (r : row) : exec row :=
  s <- row_stage r;; inv_loop r (repeat TREBLE s).

(* borrowed.rs 422-431 *)
Definition inv_into (r out : row) : exec (row * result unit incompatible_stages) :=
  s <- row_stage r;; so <- row_stage out;;
  match test_err s so with
  | Err e => Ret (out, Err e)
  | Ok _ => out' <- inv_loop r out;; Ret (out', Ok tt)
  end.

(* borrowed.rs 455-474 (including the debug assertion on line 469) *)
Definition inv_into_buf (r out : row) : exec row :=
  so <- row_stage out;; s <- row_stage r;;
  out1 <- (match Nat.compare so s with
           | Lt => Ret (out ++ repeat TREBLE (length r - length out))
           | Gt => slice out 0 (length r)
           | Eq => Ret out
           end);;
  so1 <- row_stage out1;;
  assert_ (so1 =? s);;;
  inv_loop r out1.

(* borrowed.rs 499-501 *)
Definition solve_ax_equals_b (a b : row) : exec (result row incompatible_stages) :=
  ai <- row_inv a;; mul_result ai b.

(* borrowed.rs 506-508, and the deprecated synonym 516-518 *)
Definition solve_xa_equals_b (a b : row) : exec (result row incompatible_stages) :=
  ai <- row_inv a;; mul_result b ai.

(* borrowed.rs 538-544 *)
Definition fixed_bells (r : row) : list bell :=
  map snd (filter (fun '(i, b) => i =? b) (enumerate r)).

(* borrowed.rs 548-551 *)
Definition copy_into (r other : row) : row := [] ++ r.

(* borrowed.rs 599-608: [last] is the last row pushed; returns the rows from [last] on *)
Fixpoint closure_loop (fuel : nat) (r last : row) : exec (list row) :=
  match fuel with
  | O => NoFuel
  | S fuel' =>
      if is_rounds last then Ret [last]
      else
        next <- mul_unchecked last r;;
        rest <- closure_loop fuel' r next;;
        Ret (last :: rest)
  end.

(* borrowed.rs 597-609 *)
Definition closure (fuel : nat) (r : row) : exec (list row) := closure_loop fuel r r.

(* borrowed.rs 638-646 *)
Fixpoint closure_from_rounds_loop (fuel : nat) (r last : row) : exec (list row) :=
  match fuel with
  | O => NoFuel
  | S fuel' =>
      next <- mul_unchecked last r;;
      if is_rounds next then Ret [last]
      else
        rest <- closure_from_rounds_loop fuel' r next;;
        Ret (last :: rest)
  end.

(* borrowed.rs 636-647 *)
Definition closure_from_rounds (fuel : nat) (r : row) : exec (list row) :=
  s <- row_stage r;;
  closure_from_rounds_loop fuel r (row_rounds s).

(* borrowed.rs 669-673: collecting the first set *)
Fixpoint mcp_first (st : option stage) (set : list row)
  : exec (result (option stage * list row) incompatible_stages) :=
  match set with
  | [] => Ret (Ok (st, []))
  | r :: t =>
      s <- row_stage r;;
      match test_err_opt st s with
      | (_, Err e) => Ret (Err e)
      | (st', Ok _) =>
          rest <- mcp_first st' t;;
          match rest with
          | Err e => Ret (Err e)
          | Ok (st'', rs) => Ret (Ok (st'', r :: rs))
          end
      end
  end.

(* borrowed.rs 688-694: one later set *)
Fixpoint mcp_step (s : stage) (from : list row) (set : list row)
  : exec (result (list row) incompatible_stages) :=
  match set with
  | [] => Ret (Ok [])
  | r2 :: t =>
      s2 <- row_stage r2;;
      match test_err s s2 with
      | Err e => Ret (Err e)
      | Ok _ =>
          here <- mapM (fun r1 => mul_unchecked r1 r2) from;;
          rest <- mcp_step s from t;;
          match rest with
          | Err e => Ret (Err e)
          | Ok rs => Ret (Ok (here ++ rs))
          end
      end
  end.

(* borrowed.rs 677-697: the loop over the remaining sets *)
Fixpoint mcp_loop (st : option stage) (from : list row) (sets : list (list row))
  : exec (result (list row) incompatible_stages) :=
  match sets with
  | [] => Ret (Ok from)
  | set :: t =>
      match from with
      | [] => Ret (Ok [])
      | _ :: _ =>
          s <- unwrap st;;
          to <- mcp_step s from set;;
          match to with
          | Err e => Ret (Err e)
          | Ok to' => mcp_loop st to' t
          end
      end
  end.

(* borrowed.rs 651-701 *)
Definition multi_cartesian_product (sets : list (list row))
  : exec (result (list row) incompatible_stages) :=
  match sets with
  | [] => Ret (Ok [])
  | set :: t =>
      first <- mcp_first None set;;
      match first with
      | Err e => Ret (Err e)
      | Ok (st, from) => mcp_loop st from t
      end
  end.

(** Membership in a [HashSet<RowBuf>], represented by a list of its elements. *)
(* borrowed.rs 714, 735, 754 *)
Definition row_mem (r : row) (set : list row) : bool := existsb (list_eqb r) set.

(* borrowed.rs 720-725: seeding [set] and [frontier] *)
Fixpoint lgc_seed (st : option stage) (set frontier : list row) (rows : list row)
  : exec (result (list row * list row) incompatible_stages) :=
  match rows with
  | [] => Ret (Ok (set, frontier))
  | r :: t =>
      s <- row_stage r;;
      match test_err_opt st s with
      | (_, Err e) => Ret (Err e)
      | (st', Ok _) =>
          if row_mem r set then lgc_seed st' set frontier t
          else lgc_seed st' (set ++ [r]) (frontier ++ [r]) t
      end
  end.

(* borrowed.rs 732-739: expanding one row by every input row *)
Fixpoint lgc_expand (r : row) (set frontier : list row) (rows : list row)
  : exec (list row * list row) :=
  match rows with
  | [] => Ret (set, frontier)
  | r2 :: t =>
      new <- mul_unchecked r r2;;
      if row_mem new set then lgc_expand r set frontier t
      else lgc_expand r (set ++ [new]) (frontier ++ [new]) t
  end.

(* borrowed.rs 731-740: the while loop over the frontier *)
Fixpoint lgc_loop (fuel : nat) (rows : list row) (set frontier : list row) : exec (list row) :=
  match fuel with
  | O => NoFuel
  | S fuel' =>
      match frontier with
      | [] => Ret set
      | r :: frontier' =>
          '(set', frontier'') <- lgc_expand r set frontier' rows;;
          lgc_loop fuel' rows set' frontier''
      end
  end.

(* borrowed.rs 706-742; the resulting HashSet is given as a list of its elements *)
Definition least_group_containing (fuel : nat) (rows : list row)
  : exec (result (list row) incompatible_stages) :=
  seeded <- lgc_seed None [] [] rows;;
  match seeded with
  | Err e => Ret (Err e)
  | Ok (set, frontier) => set' <- lgc_loop fuel rows set frontier;; Ret (Ok set')
  end.

(* borrowed.rs 761-768: stage check *)
Fixpoint is_group_stages (first : option stage) (set : list row)
  : exec (result unit incompatible_stages) :=
  match set with
  | [] => Ret (Ok tt)
  | r :: t =>
      s <- row_stage r;;
      match first with
      | Some fs =>
          match test_err fs s with
          | Err e => Ret (Err e)
          | Ok _ => is_group_stages first t
          end
      | None => is_group_stages (Some s) t
      end
  end.

(* borrowed.rs 780-788: the loop over [a] *)
Fixpoint is_group_inner (set : list row) (b_inv buf : row) (todo : list row)
  : exec (row * bool) :=
  match todo with
  | [] => Ret (buf, true)
  | a :: t =>
      buf' <- mul_into_unchecked a b_inv buf;;
      if row_mem buf' set then is_group_inner set b_inv buf' t else Ret (buf', false)
  end.

(* borrowed.rs 778-789: the loop over [b], reusing the two buffers *)
Fixpoint is_group_outer (set : list row) (b_inv buf : row) (todo : list row) : exec bool :=
  match todo with
  | [] => Ret true
  | b :: t =>
      b_inv' <- inv_into_buf b b_inv;;
      '(buf', ok) <- is_group_inner set b_inv' buf set;;
      if ok then is_group_outer set b_inv' buf' t else Ret false
  end.

(* borrowed.rs 747-792, from line 757 on.  [set] is the HashSet collected on line 754, in the
   order in which it is iterated; theorems quantify over every order. *)
Definition is_group_set (set : list row) : exec (result bool incompatible_stages) :=
  match set with
  | [] => Ret (Ok false)
  | _ :: _ =>
      st <- is_group_stages None set;;
      match st with
      | Err e => Ret (Err e)
      | Ok _ => ok <- is_group_outer set (row_rounds 1) (row_rounds 1) set;; Ret (Ok ok)
      end
  end.

(** [usize] arithmetic on a [w]-bit machine in a build with overflow checks. *)
(* borrowed.rs 807-810 *)
Definition fits (w n : N) : bool := (n <? 2 ^ w)%N.
(* borrowed.rs 807-810, the [+] *)
Definition add_checked (w a b : N) : exec N := if fits w (a + b) then Ret (a + b)%N else Panic.
(* borrowed.rs 807-810, the [*] *)
Definition mul_checked (w a b : N) : exec N := if fits w (a * b) then Ret (a * b)%N else Panic.

(* borrowed.rs 807-810 with overflow checks (debug builds) *)
Fixpoint fast_hash_checked_loop (w stage_ : N) (r : row) (accum multiplier : N) : exec N :=
  match r with
  | [] => Ret accum
  | b :: t =>
      p <- mul_checked w (N.of_nat b) multiplier;;
      accum' <- add_checked w accum p;;
      multiplier' <- mul_checked w multiplier stage_;;
      fast_hash_checked_loop w stage_ t accum' multiplier'
  end.

(* borrowed.rs 804-812, debug build on a [w]-bit machine *)
Definition fast_hash_checked (w : N) (r : row) : exec N :=
  s <- row_stage r;; fast_hash_checked_loop w (N.of_nat s) r 0 1.

(* borrowed.rs 807-810 with wrapping arithmetic (release builds) *)
Fixpoint fast_hash_wrapping_loop (w stage_ : N) (r : row) (accum multiplier : N) : N :=
  match r with
  | [] => accum
  | b :: t =>
      fast_hash_wrapping_loop w stage_ t
        ((accum + (N.of_nat b * multiplier) mod 2 ^ w) mod 2 ^ w)%N
        ((multiplier * stage_) mod 2 ^ w)%N
  end.

(* borrowed.rs 804-812, release build on a [w]-bit machine *)
Definition fast_hash_wrapping (w : N) (r : row) : exec N :=
  s <- row_stage r;; Ret (fast_hash_wrapping_loop w (N.of_nat s) r 0 1).

(* borrowed.rs 1045-1052, owned.rs 467-472 *)
Definition row_display (r : row) : str := concat (map bell_name r).

(** ** accumulator.rs *)

(* accumulator.rs 8-11 *)
Record accumulator := Accumulator { acc_total : row; acc_temp : row }.

(* accumulator.rs 22-27 *)
Definition acc_new (total : row) : exec accumulator :=
  s <- row_stage total;; Ret (Accumulator total (row_rounds s)).

(* accumulator.rs 16-18 *)
Definition acc_rounds (s : stage) : exec accumulator := acc_new (row_rounds s).

(* accumulator.rs 31-35 *)
Definition acc_accumulate (a : accumulator) (r : row)
  : exec (accumulator * result unit incompatible_stages) :=
  '(temp, res) <- mul_into (acc_total a) r (acc_temp a);;
  match res with
  | Err e => Ret (Accumulator (acc_total a) temp, Err e)
  | Ok _ => Ret (Accumulator temp (acc_total a), Ok tt)
  end.

(* accumulator.rs 39-43 *)
Definition acc_pre_accumulate (a : accumulator) (r : row)
  : exec (accumulator * result unit incompatible_stages) :=
  '(temp, res) <- mul_into r (acc_total a) (acc_temp a);;
  match res with
  | Err e => Ret (Accumulator (acc_total a) temp, Err e)
  | Ok _ => Ret (Accumulator temp (acc_total a), Ok tt)
  end.

(* accumulator.rs 47-49 *)
Definition acc_set (a : accumulator) (r : row) : accumulator :=
  Accumulator (copy_into r (acc_total a)) (acc_temp a).

(* accumulator.rs 64-76 *)
Definition acc_mul_assign (a : accumulator) (r : row) : exec accumulator :=
  '(a', res) <- acc_accumulate a r;; unwrap_res res;;; Ret a'.

(* borrowed.rs 489-492: the loop of pow_u *)
Fixpoint pow_loop (a : accumulator) (r : row) (n : nat) : exec accumulator :=
  match n with
  | O => Ret a
  | S n' => '(a', res) <- acc_accumulate a r;; unwrap_res res;;; pow_loop a' r n'
  end.

(* borrowed.rs 486-494 *)
Definition pow_u (r : row) (n : nat) : exec row :=
  s <- row_stage r;; a <- acc_rounds s;; a' <- pow_loop a r n;; Ret (acc_total a').

(* borrowed.rs 477-483 (the exponent is an unbounded integer; negating [isize::MIN] is in
   [Machine]) *)
Definition pow_i (r : row) (e : Z) : exec row :=
  if (e <? 0)%Z then ri <- row_inv r;; pow_u ri (Z.to_nat (- e)) else pow_u r (Z.to_nat e).
