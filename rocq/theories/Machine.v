(** The arithmetic of /repo on machine words.  The other model files compute with unbounded naturals;
    this file repeats, on [usize] values of any width, those functions in which a value chosen by the
    caller is added to, multiplied or negated, because there the two kinds of build differ: a build
    with overflow checks (the default profile for debugging) panics, and one without (the default
    profile for releases) wraps around.

    Simplifications: the other arithmetic of /repo (lengths of vectors in memory, stages, places below
    a stage) cannot overflow, and keeps its model; the elements of a vector are read and written as in
    [SameStageVec] and [Block]. *)
From Verif Require Import Base Bell Stage Row Utils SameStageVec Block PlaceNot Mask Class Method Program Music.
Local Open Scope list_scope.

(** A build: the width of [usize] in bits, and whether overflow is checked. *)
(* no code of its own: what Cargo is asked for *)
Record build := Build { width : N; checked : bool }.

Section Machine.
Context (bd : build).

(** What Rust makes of an exact result of [+] or [*] on [usize]. *)
(* [+], [*] and [-] on [usize], e.g. bell.rs 201, same_stage_vec.rs 390-393, music.rs 329-335 *)
Definition word (n : N) : exec N :=
  if (n <? 2 ^ width bd)%N then Ret n
  else if checked bd then Panic
  else Ret (n mod 2 ^ width bd)%N.

(** [usize - usize] *)
(* [+], [*] and [-] on [usize], e.g. bell.rs 201, same_stage_vec.rs 390-393, music.rs 329-335 *)
Definition word_sub (a b : N) : exec N :=
  if (b <=? a)%N then Ret (a - b)%N
  else if checked bd then Panic
  else Ret (a + 2 ^ width bd - b)%N.

(** An exact result of an operation on [isize]. *)
(* [-] and [abs] on [isize], utils.rs 15; [-] at borrowed.rs 479 *)
Definition iword (z : Z) : exec Z :=
  let half := (2 ^ (Z.of_N (width bd) - 1))%Z in
  if ((- half <=? z) && (z <? half))%Z then Ret z
  else if checked bd then Panic
  else Ret ((z + half) mod (2 * half) - half)%Z.

(** [usize as isize] never panics. *)
(* utils.rs 15 *)
Definition as_isize (n : N) : Z :=
  let half := (2 ^ (Z.of_N (width bd) - 1))%Z in ((Z.of_N n + half) mod (2 * half) - half)%Z.

(** [isize as usize] never panics. *)
(* borrowed.rs 479 *)
Definition as_usize (z : Z) : N := Z.to_N (z mod 2 ^ Z.of_N (width bd)).

(** [slice.get(a..b)] *)
(* same_stage_vec.rs 175, 185 *)
Definition slice_get {A} (l : list A) (a b : N) : option (list A) :=
  if ((a <=? b) && (b <=? N.of_nat (length l)))%N
  then Some (firstn (N.to_nat (b - a)) (skipn (N.to_nat a) l)) else None.

(** ** bell.rs *)

(* bell.rs 201-203 *)
Definition m_bell_number (b : N) : exec N := word (b + 1).
(* bell.rs 249-257 *)
Definition m_bell_add (b n : N) : exec N := word (b + n).
(* bell.rs 265-273 *)
Definition m_bell_sub (b n : N) : exec N := word_sub b n.

(** ** utils.rs *)

(** [(i1 as isize - i2 as isize).abs()] *)
(* utils.rs 15 *)
Definition m_distance (i1 i2 : N) : exec Z :=
  d <- iword (as_isize i1 - as_isize i2);; iword (Z.abs d).

(* utils.rs 11-18 *)
Fixpoint m_run_windows (l : list N) : exec N :=
  match l with
  | i1 :: ((i2 :: _) as t) =>
      d <- m_distance i1 i2;;
      if (d =? 1)%Z then n <- m_run_windows t;; word (n + 1) else Ret 0%N
  | _ => Ret 0%N
  end.
(* utils.rs 11-18 *)
Definition m_run_len (l : list N) : exec N := n <- m_run_windows l;; word (n + 1).

(** [std::ops::Bound<usize>] *)
Inductive m_bound := MIncluded (n : N) | MExcluded (n : N) | MUnbounded.

(* utils.rs 22-35 *)
Definition m_clamp_range (lo hi : m_bound) (length_ : N) : exec (N * N) :=
  min <- match lo with MIncluded v => Ret v | MExcluded v => word (v + 1) | MUnbounded => Ret 0%N end;;
  max <- match hi with MIncluded v => word (v + 1) | MExcluded v => Ret v | MUnbounded => Ret length_ end;;
  Ret (min, max).

(** ** same_stage_vec.rs *)

Notation stage_of v := (N.of_nat (ssv_stage v)).

(* same_stage_vec.rs 156-161; the debug assertion goes with the overflow checks *)
Definition m_ssv_len (v : ssv) : exec N :=
  if ssv_stage v =? 0 then Panic
  else (if checked bd then assert_ (length (ssv_bells v) mod ssv_stage v =? 0) else Ret tt);;;
       Ret (N.of_nat (length (ssv_bells v) / ssv_stage v)).

(* same_stage_vec.rs 390-393 *)
Definition m_range_of_row (v : ssv) (index : N) : exec (N * N) :=
  a <- word (index * stage_of v);;
  next <- word (index + 1);;
  b <- word (next * stage_of v);;
  Ret (a, b).

(* same_stage_vec.rs 174-179 *)
Definition m_ssv_get (v : ssv) (index : N) : exec (option row) :=
  '(a, b) <- m_range_of_row v index;; Ret (slice_get (ssv_bells v) a b).

(* same_stage_vec.rs 183-189, for a caller which then changes the row in place by [f] *)
Definition m_ssv_edit (v : ssv) (index : N) (f : row -> exec row) : exec (option ssv) :=
  '(a, b) <- m_range_of_row v index;;
  match slice_get (ssv_bells v) a b with
  | None => Ret None
  | Some r =>
      r' <- f r;;
      Ret (Some (Ssv (firstn (N.to_nat a) (ssv_bells v) ++ r' ++ skipn (N.to_nat b) (ssv_bells v)) (ssv_stage v)))
  end.

(* same_stage_vec.rs 399-403 *)
Definition m_ssv_index (v : ssv) (index : N) : exec row :=
  '(a, b) <- m_range_of_row v index;; unwrap (slice_get (ssv_bells v) a b).

(* same_stage_vec.rs 364-373 *)
Definition m_ssv_split (v : ssv) (index : N) : exec (option (ssv * ssv)) :=
  n <- word (index * stage_of v);;
  Ret (if (N.of_nat (length (ssv_bells v)) <? n)%N then None
       else Some (Ssv (firstn (N.to_nat n) (ssv_bells v)) (ssv_stage v),
                  Ssv (skipn (N.to_nat n) (ssv_bells v)) (ssv_stage v))).

(* same_stage_vec.rs 382-387 *)
Definition m_to_bell_range (v : ssv) (lo hi : m_bound) : exec (N * N) :=
  n <- m_ssv_len v;;
  '(start, end_) <- m_clamp_range lo hi n;;
  a <- word (start * stage_of v);;
  b <- word (end_ * stage_of v);;
  Ret (a, b).

(* same_stage_vec.rs 299-313 *)
Definition m_ssv_extend_range_transposed (v : ssv) (transposition : row) (other : ssv) (lo hi : m_bound)
  : exec (ssv * result unit incompatible_stages) :=
  ts <- row_stage transposition;;
  match test_err (ssv_stage v) ts with
  | Err e => Ret (v, Err e)
  | Ok _ =>
      '(a, b) <- m_to_bell_range other lo hi;;
      src <- unwrap (slice_get (ssv_bells other) a b);;
      new <- mapM (fun x => idx transposition x) src;;
      Ret (Ssv (ssv_bells v ++ new) (ssv_stage v), Ok tt)
  end.

(* same_stage_vec.rs 317-330 *)
Definition m_ssv_extend_transposed_from_within (v : ssv) (lo hi : m_bound) (transposition : row)
  : exec (ssv * result unit incompatible_stages) :=
  ts <- row_stage transposition;;
  match test_err (ssv_stage v) ts with
  | Err e => Ret (v, Err e)
  | Ok _ =>
      '(a, b) <- m_to_bell_range v lo hi;;
      bells <- foldM (fun bells i => x <- idx bells i;; y <- idx transposition x;; Ret (bells ++ [y]))
                     (range (N.to_nat a) (N.to_nat b)) (ssv_bells v);;
      Ret (Ssv bells (ssv_stage v), Ok tt)
  end.

(** ** block.rs *)
Section Block.
Context {A : Type}.

(* block.rs 172-174 *)
Definition m_block_get_row (b : block A) (i : N) : exec (option row) := m_ssv_get (blk_rows b) i.

(* block.rs 313-338 *)
Definition m_block_extend_range (b other : block A) (lo hi : m_bound)
  : exec (block A * result unit incompatible_stages) :=
  '(start, end_) <- m_clamp_range lo hi (N.of_nat (block_len other));;
  o <- m_block_get_row other start;;
  first <- unwrap o;;
  leftover <- block_leftover_row b;;
  t <- solve_xa_equals_b first leftover;;
  match t with
  | Err e => Ret (b, Err e)
  | Ok transposition =>
      '(rows, _) <- ssv_pop (blk_rows b);;
      end_1 <- word (end_ + 1);;
      '(rows', res) <- m_ssv_extend_range_transposed rows transposition (blk_rows other)
                         (MIncluded start) (MExcluded end_1);;
      unwrap_res res;;;
      Ret (Block rows' (blk_annots b ++ blk_annots other), Ok tt)
  end.

(* block.rs 341-363 *)
Definition m_block_extend_from_within (b : block A) (lo hi : m_bound) : exec (block A) :=
  '(start, end_) <- m_clamp_range lo hi (N.of_nat (block_len b));;
  o <- m_block_get_row b start;;
  first <- unwrap o;;
  leftover <- block_leftover_row b;;
  t <- solve_xa_equals_b first leftover;;
  transposition <- unwrap_res t;;
  start_1 <- word (start + 1);;
  end_1 <- word (end_ + 1);;
  '(rows, res) <- m_ssv_extend_transposed_from_within (blk_rows b) (MIncluded start_1) (MExcluded end_1) transposition;;
  unwrap_res res;;;
  new <- unwrap (slice_get (blk_annots b) start end_);;
  Ret (Block rows (blk_annots b ++ new)).
End Block.

(** ** method/mod.rs and borrowed.rs *)

(* method/mod.rs 135-137 *)
Definition m_row_in_plain_lead (m : method) (i : N) : exec row := m_ssv_index (blk_rows (first_lead m)) i.

(* borrowed.rs 477-483; [e] is an [isize] *)
Definition m_pow_i (r : row) (e : Z) : exec row :=
  if (e <? 0)%Z then ri <- row_inv r;; n <- iword (- e);; pow_u ri (N.to_nat (as_usize n))
  else pow_u r (N.to_nat (as_usize e)).

(** ** music.rs *)

(* utils.rs 73-77 *)
Fixpoint m_choice_loop (n k : N) (i : N) (todo : nat) (numerator denominator : N) : exec (option (N * N)) :=
  match todo with
  | O => Ret (Some (numerator, denominator))
  | S todo' =>
      d <- word_sub n k;;
      f <- word (d + i);;
      let numerator' := (numerator * f)%N in
      if (numerator' <? 2 ^ width bd)%N then
        denominator' <- word (denominator * i);;
        m_choice_loop n k (i + 1) todo' numerator' denominator'
      else Ret None
  end.

(* utils.rs 50-79; division by zero panics in every build *)
Definition m_choice (n k : N) : exec (option N) :=
  d <- word_sub n k;;
  let k' := N.min k d in
  r <- m_choice_loop n k' 1 (N.to_nat k') 1 1;;
  match r with
  | None => Ret None
  | Some (numerator, denominator) =>
      if (denominator =? 0)%N then Panic else Ret (Some (numerator / denominator)%N)
  end.

(* music.rs 318-324 *)
Fixpoint m_count_elems (es : regex) (num_unfixed num_wildcards num_globs : N) : exec (N * N * N) :=
  match es with
  | [] => Ret (num_unfixed, num_wildcards, num_globs)
  | RBell _ :: t => n <- word_sub num_unfixed 1;; m_count_elems t n num_wildcards num_globs
  | RAny :: t => n <- word (num_wildcards + 1);; m_count_elems t num_unfixed n num_globs
  | RGlob :: t => n <- word (num_globs + 1);; m_count_elems t num_unfixed num_wildcards n
  end.

(** [checked_factorial] (external, see [Music]).  As [n!] is at least [2^(n - 1)], only small [n] need be
    computed. *)
(* called at music.rs 331-332 *)
Definition m_checked_factorial (n : N) : option N :=
  if (width bd + 1 <? n)%N then None else checked_factorial (width bd) (N.to_nat n).

(* music.rs 281-336 *)
Definition m_num_matching_rows (es : regex) (s : N) : exec (option N) :=
  '(num_unfixed, num_wildcards, num_globs) <- m_count_elems es s 0 0;;
  c <- m_choice num_unfixed num_wildcards;;
  match c with
  | None => Ret None
  | Some ways_to_fill_wildcards =>
      num_bells_in_globs <- word_sub num_unfixed num_wildcards;;
      n <- word (num_bells_in_globs + (num_wildcards - 1));;
      match m_checked_factorial n with
      | None => Ret None
      | Some numerator =>
          match m_checked_factorial (num_globs - 1) with
          | None => Ret None
          | Some denominator =>
              res <- word (ways_to_fill_wildcards * (numerator / denominator));; Ret (Some res)
          end
      end
  end.

(** ** Programs *)

(* no code of its own: the same range on machine words *)
Definition to_bound (b : bound) : m_bound :=
  match b with
  | Included n => MIncluded (N.of_nat n)
  | Excluded n => MExcluded (N.of_nat n)
  | Unbounded => MUnbounded
  end.

(** A step of a program, as [step] in [Program], on a machine. *)
(* no code in /repo: the caller, as in [Program] *)
Definition m_step (hash_order : list nat -> list nat) (st : store) (c : call) : exec store :=
  match c with
  | PowI i e => with_row st i (fun a => r <- m_pow_i a e;; push st (VRow r))
  | ChangeRow (InVec i index) c =>
      with_vec st i (fun v => o <- m_ssv_edit v (N.of_nat index) (change_row st c);;
                              match o with Some v' => put st i (VVec v') | None => Ret st end)
  | VecGet v i => with_vec st v (fun v => o <- m_ssv_get v (N.of_nat i);; push_opt st (option_map VRow o))
  | VecIndex v i => with_vec st v (fun v => r <- m_ssv_index v (N.of_nat i);; push st (VRow r))
  | VecExtendRangeTransposed v i w lo hi =>
      with_vec st v (fun x => with_row st i (fun t => with_vec st w (fun y =>
        '(x', _) <- m_ssv_extend_range_transposed x t y (to_bound lo) (to_bound hi);; put st v (VVec x'))))
  | VecExtendFromWithin v lo hi i =>
      with_vec st v (fun x => with_row st i (fun t =>
        '(x', _) <- m_ssv_extend_transposed_from_within x (to_bound lo) (to_bound hi) t;; put st v (VVec x')))
  | VecSplit v n =>
      with_vec st v (fun x => o <- m_ssv_split x (N.of_nat n);;
                              match o with
                              | Some (a, b) => push_all st [VVec a; VVec b]
                              | None => Ret st
                              end)
  | BlockGetRow b i => with_block st b (fun x => o <- m_block_get_row x (N.of_nat i);; push_opt st (option_map VRow o))
  | BlockExtendRange b c lo hi =>
      with_block st b (fun x => with_block st c (fun y =>
        '(x', _) <- m_block_extend_range x y (to_bound lo) (to_bound hi);; put st b (VBlock x')))
  | BlockExtendFromWithin b lo hi =>
      with_block st b (fun x => x' <- m_block_extend_from_within x (to_bound lo) (to_bound hi);; put st b (VBlock x'))
  | MethodRowInLead m i => with_method st m (fun x => r <- m_row_in_plain_lead x (N.of_nat i);; push st (VRow r))
  | _ => step hash_order st c
  end.

(* no code in /repo: the caller, as in [Program] *)
Definition m_run_from (hash_order : list nat -> list nat) (st : store) (prog : list call) : exec store :=
  foldM (m_step hash_order) prog st.
(* no code in /repo: the caller, as in [Program] *)
Definition m_run (hash_order : list nat -> list nat) (prog : list call) : exec store :=
  m_run_from hash_order [] prog.
End Machine.
