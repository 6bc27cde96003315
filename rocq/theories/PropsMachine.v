(** Properties C78 and C79: arithmetic on machine words, with and without overflow checks. *)

(* Generated from tools/props/Machine.src; the proofs are in MachineThms.v. *)
From Verif Require Import SpecMask MaskFacts MusicFacts MusicFacts2 MachineFacts2.
From Verif Require Import Base Spec Bell Stage Row Utils SameStageVec Block PlaceNot Mask Class Method Program Music Machine
  SpecVec SpecBlock SpecProg SpecMachine ListFacts BellFacts RowFacts MulFacts SsvFacts BlockFacts SafeFacts SafeFacts2 MachineFacts.
Local Open Scope list_scope.
From Verif Require Import MachineThms.

(** C78 (false as claimed, see the [_refuted] theorem; this is the part which is true): in a build with
    overflow checks, with words of any width, a program does what it would do with unbounded integers,
    or it panics.  (An exponent is an [isize].) *)
Theorem C78_checked_builds_partial :
  forall w hash_order prog,
    (forall i e, In (PowI i e) prog -> - 2 ^ (Z.of_N w - 1) <= e < 2 ^ (Z.of_N w - 1))%Z ->
    m_run (Build w true) hash_order prog = Panic \/
    m_run (Build w true) hash_order prog = run hash_order prog.
Proof. exact pf_C78_checked_builds_partial. Qed.
Print Assumptions C78_checked_builds_partial.

(** C78: so what C68 says about programs over the safe API is true of builds with overflow checks. *)
Theorem C78_checked_builds_rows_partial :
  forall w hash_order prog,
    (forall i e, In (PowI i e) prog -> - 2 ^ (Z.of_N w - 1) <= e < 2 ^ (Z.of_N w - 1))%Z ->
    Forall (fun c => unguarded c = false) prog ->
    m_run (Build w true) hash_order prog <> Ub /\
    forall st r, m_run (Build w true) hash_order prog = Ret st -> In (VRow r) st -> valid_row r.
Proof. exact pf_C78_checked_builds_rows_partial. Qed.
Print Assumptions C78_checked_builds_rows_partial.

(** C78: in every build, a program whose values fit into memory and whose row numbers are below
    [2^w / stage - 2] does exactly what it would do with unbounded integers. *)
Theorem C78_small_row_numbers_partial :
  forall bd hash_order prog,
    careful hash_order [] prog -> fits_program (width bd) hash_order [] prog ->
    m_run bd hash_order prog = run hash_order prog.
Proof. exact pf_C78_small_row_numbers_partial. Qed.
Print Assumptions C78_small_row_numbers_partial.

(** C78 is false of builds without overflow checks: this program reads two rows, gets row number
    6148914691236517206 of them on a 64-bit machine, and is given a row, 323, which is not one. *)
Theorem C78_exact_integers_refuted :
  exists prog, Forall (fun c => unguarded c = false) prog /\
    forall hash_order, exists st r,
      m_run (Build 64 false) hash_order prog = Ret st /\ In (VRow r) st /\ ~ valid_row r.
Proof. exact pf_C78_exact_integers_refuted. Qed.
Print Assumptions C78_exact_integers_refuted.

(** The programs of the first three theorems: one with a range which overflows, and one with small
    numbers.  On eight-bit words the first panics, as 90 times the stage is too large; the second does not. *)
Example C78_example :
  let start := [VecParse (s2l "1234" ++ [10%N] ++ s2l "2143"); Parse (s2l "4321")] in
  let far := start ++ [VecGet 0 90; VecGet 0 1] in
  let near := start ++ [VecGet 0 61; VecGet 0 1; VecExtendFromWithin 0 (Included 1) (Included 1) 1; PowI 1 (-127)] in
  let ho := fun l : list nat => l in
  m_run (Build 8 true) ho far = Panic /\
  m_run (Build 8 false) ho far <> Panic /\
  (m_run (Build 8 true) ho near = run ho near /\ m_run (Build 8 false) ho near = run ho near /\
   run ho near = Ret [VVec (Ssv [0; 1; 2; 3; 1; 0; 3; 2; 2; 3; 0; 1] 4); VRow [3; 2; 1; 0]; VRow [1; 0; 3; 2]; VRow [3; 2; 1; 0]]) /\
  careful ho [] near /\ fits_program 8 ho [] near.
Proof.
  cbv zeta. split; [vm_compute; reflexivity|]. split; [vm_compute; discriminate|]. split; [splits; vm_compute; reflexivity|].
  split.
  - apply unguarded_careful. repeat constructor.
  - cbn [fits_program app].
    repeat match goal with
      | |- True => exact I
      | |- fits _ _ _ /\ _ => split
      | |- forall st', step _ _ _ = Ret st' -> _ => let st := fresh "st" in let E := fresh in
          intros st E; vm_compute in E; injection E as <-
      | |- fits _ _ _ => split; [|split; [|split]]
      | |- forall v x, buffer_of _ v = Some x -> _ => intros v x; destruct v as [|[|[|[|v]]]]; cbn; intros E; try discriminate;
          try (destruct v; discriminate); injection E as <-; cbn; reflexivity
      | |- forall v b, nth_error _ v = Some (VBlock b) -> _ => intros v b; destruct v as [|[|[|[|v]]]]; cbn; intros E; try discriminate;
          destruct v; discriminate
      | |- forall v i x, In _ _ -> _ => cbn; intros v i x H; repeat (destruct H as [H|H]; [injection H as <- <-; cbn; intros [= <-]; cbn; reflexivity|]); contradiction
      | |- forall i e, _ = PowI i e -> _ => intros i e [= <- <-]; cbn; lia
      | |- forall i e, _ = PowI i e -> _ => discriminate
    end.
Qed.

(** C79: with overflow checks, [get] with any row number gives that row or nothing, or it panics; and it
    panics exactly when the number after it, times the stage, is not a machine word. *)
Theorem C79_get_checked :
  forall w v s rs i, holds v s rs ->
    m_ssv_get (Build w true) v i =
    if ((i + 1) * N.of_nat s <? 2 ^ w)%N then Ret (nth_error rs (N.to_nat i)) else Panic.
Proof. exact pf_C79_get_checked. Qed.
Print Assumptions C79_get_checked.

(** C79: without overflow checks, [get] gives those bells of the buffer, as many as the stage, which
    start at the row number times the stage after wrapping around, if there are so many. *)
Theorem C79_get_unchecked :
  forall w v s rs i, holds v s rs -> (N.of_nat s < 2 ^ w)%N -> (N.of_nat (length rs * s) < 2 ^ w)%N ->
    let a := N.to_nat ((i * N.of_nat s) mod 2 ^ w) in
    m_ssv_get (Build w false) v i =
    Ret (if a + s <=? length rs * s then Some (sublist a (a + s) (concat rs)) else None).
Proof. exact pf_C79_get_unchecked. Qed.
Print Assumptions C79_get_unchecked.

(** C79: so for every stage which is a power of two, [get] without overflow checks still gives only rows
    of the buffer (though for numbers past the end too). *)
Theorem C79_get_unchecked_powers_of_two :
  forall w v s rs i, holds v s rs -> (2 ^ w mod N.of_nat s = 0)%N -> (N.of_nat s < 2 ^ w)%N ->
    (N.of_nat (length rs * s) < 2 ^ w)%N ->
    m_ssv_get (Build w false) v i = Ret (nth_error rs (N.to_nat (i mod (2 ^ w / N.of_nat s)))).
Proof. exact pf_C79_get_unchecked_powers_of_two. Qed.
Print Assumptions C79_get_unchecked_powers_of_two.

(** C79: for every other stage and any buffer of two rows or more, some row number makes [get] without
    overflow checks give the end of the first row followed by the start of the second. *)
Theorem C79_get_unchecked_other_stages_refuted :
  forall w v s rs, holds v s rs -> (2 ^ w mod N.of_nat s <> 0)%N -> (N.of_nat s < 2 ^ w)%N ->
    (N.of_nat (length rs * s) < 2 ^ w)%N -> 2 <= length rs ->
    exists i a, (i < 2 ^ w)%N /\ 0 < a < s /\
      m_ssv_get (Build w false) v i = Ret (Some (sublist a (a + s) (concat rs))).
Proof. exact pf_C79_get_unchecked_other_stages_refuted. Qed.
Print Assumptions C79_get_unchecked_other_stages_refuted.

(** C79: the largest row number always gives nothing without overflow checks, and panics with them. *)
Theorem C79_get_largest :
  forall w v s rs, holds v s rs -> (N.of_nat s < 2 ^ w)%N -> (N.of_nat (length rs * s) < 2 ^ w)%N ->
    m_ssv_get (Build w false) v (2 ^ w - 1) = Ret None /\ m_ssv_get (Build w true) v (2 ^ w - 1) = Panic.
Proof. exact pf_C79_get_largest. Qed.
Print Assumptions C79_get_largest.

(** C79: [split] at any row number.  With overflow checks it is as for a list of rows, or panics; without,
    it may cut a row in two. *)
Theorem C79_split :
  forall w v s rs i, holds v s rs -> (N.of_nat (length rs * s) < 2 ^ w)%N ->
    ((i * N.of_nat s < 2 ^ w)%N -> (N.to_nat i <= length rs)%nat -> forall ck, exists a b,
       m_ssv_split (Build w ck) v i = Ret (Some (a, b)) /\ holds a s (firstn (N.to_nat i) rs) /\ holds b s (skipn (N.to_nat i) rs)) /\
    ((i * N.of_nat s < 2 ^ w)%N -> (length rs < N.to_nat i)%nat -> forall ck, m_ssv_split (Build w ck) v i = Ret None) /\
    ((2 ^ w <= i * N.of_nat s)%N ->
       m_ssv_split (Build w true) v i = Panic /\
       m_ssv_split (Build w false) v i =
       Ret (let a := N.to_nat ((i * N.of_nat s) mod 2 ^ w) in
            if length rs * s <? a then None
            else Some (Ssv (firstn a (concat rs)) s, Ssv (skipn a (concat rs)) s))).
Proof. exact pf_C79_split. Qed.
Print Assumptions C79_split.

(** C79: copying the rows up to and including the largest number ([..=usize::MAX]) panics with overflow
    checks; without, it copies nothing and reports success. *)
Theorem C79_range_to_largest :
  forall w v s rs other rs' t, holds v s rs -> holds other s rs' -> valid_row t -> length t = s -> (1 <= w)%N ->
    m_ssv_extend_range_transposed (Build w true) v t other MUnbounded (MIncluded (2 ^ w - 1)) = Panic /\
    m_ssv_extend_range_transposed (Build w false) v t other MUnbounded (MIncluded (2 ^ w - 1)) = Ret (v, Ok tt).
Proof. exact pf_C79_range_to_largest. Qed.
Print Assumptions C79_range_to_largest.

(** C79: extending a block by the range [0..usize::MAX] of another panics with overflow checks; without,
    it takes the left-over row away, adds none, and keeps all the other block's annotations. *)
Theorem C79_block_range_to_largest :
  forall w A (b other : block A) s ars lo ars' lo',
    block_holds b s ars lo -> block_holds other s ars' lo' -> (N.of_nat s < 2 ^ w)%N -> (N.of_nat ((length ars' + 1) * s) < 2 ^ w)%N ->
    m_block_extend_range (Build w true) b other MUnbounded (MExcluded (2 ^ w - 1)) = Panic /\
    exists b', m_block_extend_range (Build w false) b other MUnbounded (MExcluded (2 ^ w - 1)) = Ret (b', Ok tt) /\
      block_all_rows b' = Ret (map fst ars) /\ block_len b' = length ars + length ars'.
Proof. exact pf_C79_block_range_to_largest. Qed.
Print Assumptions C79_block_range_to_largest.

(** C79: the bell number and bell arithmetic: exact whenever the result is a machine word; otherwise a panic
    with overflow checks, and the result modulo [2^w] without. *)
Theorem C79_bell_arithmetic :
  forall w b n, (b < 2 ^ w)%N -> (n < 2 ^ w)%N ->
    (forall ck, (b + n < 2 ^ w)%N -> m_bell_add (Build w ck) b n = Ret (b + n)%N) /\
    ((2 ^ w <= b + n)%N -> m_bell_add (Build w true) b n = Panic /\ m_bell_add (Build w false) b n = Ret (b + n - 2 ^ w)%N) /\
    (forall ck, (n <= b)%N -> m_bell_sub (Build w ck) b n = Ret (b - n)%N) /\
    ((b < n)%N -> m_bell_sub (Build w true) b n = Panic /\ m_bell_sub (Build w false) b n = Ret (2 ^ w - (n - b))%N) /\
    (forall ck, (b + 1 < 2 ^ w)%N -> m_bell_number (Build w ck) b = Ret (b + 1)%N) /\
    ((b + 1 = 2 ^ w)%N -> m_bell_number (Build w true) b = Panic /\ m_bell_number (Build w false) b = Ret 0%N).
Proof. exact pf_C79_bell_arithmetic. Qed.
Print Assumptions C79_bell_arithmetic.

(** C79: [pow_i] with any [isize] is the exact power in both builds, but that the least [isize] panics
    with overflow checks. *)
Theorem C79_pow_i :
  forall w r e, valid_row r -> (- 2 ^ (Z.of_N w - 1) <= e < 2 ^ (Z.of_N w - 1))%Z ->
    m_pow_i (Build w false) r e = pow_i r e /\
    (e <> - 2 ^ (Z.of_N w - 1) -> m_pow_i (Build w true) r e = pow_i r e)%Z /\
    (e = - 2 ^ (Z.of_N w - 1) -> m_pow_i (Build w true) r e = Panic)%Z.
Proof. exact pf_C79_pow_i. Qed.
Print Assumptions C79_pow_i.

(** C79: runs are counted exactly in both builds, as long as the bells and their number are below half of the
    largest word (the bells of a row always are: a row is a vector of words in memory). *)
Theorem C79_run_len :
  forall bd l, (1 <= width bd)%N -> Forall (fun b => N.of_nat b < 2 ^ (width bd - 1))%N l -> (N.of_nat (length l) < 2 ^ (width bd - 1))%N ->
    m_run_len bd (map N.of_nat l) = Ret (N.of_nat (run_len l)).
Proof. exact pf_C79_run_len. Qed.
Print Assumptions C79_run_len.

(** C79: [num_matching_rows] of any regex on any stage: with overflow checks it answers as C56 says.
    Without, it answers the same whenever the other build does not panic; where that build panics
    because the last product is too large, it answers that product modulo [2^w]; and for a regex with
    more bells than the stage it answers [None]. *)
Theorem C79_num_matching_rows :
  forall w es s, (4 <= w)%N -> (N.of_nat s < 2 ^ w)%N -> (N.of_nat (length es) < 2 ^ (w - 1))%N ->
    m_num_matching_rows (Build w true) es (N.of_nat s) = num_matching_rows w es s /\
    (forall o, num_matching_rows w es s = Ret o -> m_num_matching_rows (Build w false) es (N.of_nat s) = Ret o) /\
    (forall u x g p, num_matching_rows w es s = Panic -> x = count_any es -> g = count_glob es ->
       length (bells_written es) + u = s -> x <= u -> p = binomial u x * (fact (u - x + (x - 1)) / fact (g - 1)) ->
       m_num_matching_rows (Build w false) es (N.of_nat s) = Ret (Some (N.of_nat p mod 2 ^ w)%N)) /\
    (s < length (bells_written es) -> m_num_matching_rows (Build w false) es (N.of_nat s) = Ret None).
Proof. exact pf_C79_num_matching_rows. Qed.
Print Assumptions C79_num_matching_rows.

(** C79: so without overflow checks [x*] on 21 bells, which has 21! rows, is answered with another number
    than [None], and too many bells with [None] though no row matches. *)
Theorem C79_num_matching_rows_unchecked_refuted :
  m_num_matching_rows (Build 64 false) [RAny; RGlob] 21 = Ret (Some 14197454024290336768%N) /\
  m_num_matching_rows (Build 64 false) [RBell 0; RBell 1; RBell 2] 2 = Ret None /\
  m_num_matching_rows (Build 64 false) [RAny; RAny; RAny] 2 = Ret (Some 0%N).
Proof. exact pf_C79_num_matching_rows_unchecked_refuted. Qed.
Print Assumptions C79_num_matching_rows_unchecked_refuted.

(** The smallest such cases on a 64-bit machine.  Row 2^63 of a buffer of stage 2 is its first row; row
    6148914691236517206 of a buffer of stage 3 is no row; splitting there cuts a row in two; the bell
    before the treble is the one of the largest index, and the cast to [isize] makes the two neighbours in
    a run. *)
Example C79_example :
  let v2 := Ssv [0; 1; 1; 0] 2 in
  let v3 := Ssv [0; 1; 2; 1; 2; 0] 3 in
  holds v2 2 [[0; 1]; [1; 0]] /\ holds v3 3 [[0; 1; 2]; [1; 2; 0]] /\
  m_ssv_get (Build 64 false) v2 (2 ^ 63) = Ret (Some [0; 1]) /\
  m_ssv_get (Build 64 true) v2 (2 ^ 63) = Panic /\
  m_ssv_get (Build 64 true) v2 (2 ^ 62) = Ret None /\
  m_ssv_get (Build 64 false) v3 6148914691236517206 = Ret (Some [2; 1; 2]) /\
  m_ssv_split (Build 64 false) v3 6148914691236517206 = Ret (Some (Ssv [0; 1] 3, Ssv [2; 1; 2; 0] 3)) /\
  m_bell_sub (Build 64 false) 0 1 = Ret (2 ^ 64 - 1)%N /\
  m_run_len (Build 64 true) [0; 2 ^ 64 - 1]%N = Ret 2%N.
Proof.
  cbv zeta. assert (H2 : holds (Ssv [0; 1; 1; 0] 2) 2 [[0; 1]; [1; 0]]).
  { split; [lia|]. split; [reflexivity|]. split; [|reflexivity]. repeat apply Forall_cons; try apply Forall_nil; (split; [vr|reflexivity]). }
  assert (H3 : holds (Ssv [0; 1; 2; 1; 2; 0] 3) 3 [[0; 1; 2]; [1; 2; 0]]).
  { split; [lia|]. split; [reflexivity|]. split; [|reflexivity]. repeat apply Forall_cons; try apply Forall_nil; (split; [vr|reflexivity]). }
  splits; auto; vm_compute; reflexivity.
Qed.
