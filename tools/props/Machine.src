(** Properties C78 and C79: arithmetic on machine words, with and without overflow checks. *)
(*IMPORTS*)
From Verif Require Import SpecMask MaskFacts MusicFacts MusicFacts2 MachineFacts2.
From Verif Require Import Base Spec Bell Stage Row Utils SameStageVec Block PlaceNot Mask Class Method Program Music Machine
  SpecVec SpecBlock SpecProg SpecMachine ListFacts BellFacts RowFacts MulFacts SsvFacts BlockFacts SafeFacts SafeFacts2 MachineFacts.
Local Open Scope list_scope.
(*BODY*)
(** C78 (false as claimed, see the [_refuted] theorem; this is the part which is true): in a build with
    overflow checks, with words of any width, a program does what it would do with unbounded integers,
    or it panics.  (An exponent is an [isize].) *)
Theorem C78_checked_builds_partial :
  forall w hash_order prog,
    (forall i e, In (PowI i e) prog -> - 2 ^ (Z.of_N w - 1) <= e < 2 ^ (Z.of_N w - 1))%Z ->
    m_run (Build w true) hash_order prog = Panic \/
    m_run (Build w true) hash_order prog = run hash_order prog.
Proof.
  intros w ho prog T. exact (run_checked (Build w true) ho prog eq_refl T []).
Qed.

(** C78: so what C68 says about programs over the safe API is true of builds with overflow checks. *)
Theorem C78_checked_builds_rows_partial :
  forall w hash_order prog,
    (forall i e, In (PowI i e) prog -> - 2 ^ (Z.of_N w - 1) <= e < 2 ^ (Z.of_N w - 1))%Z ->
    Forall (fun c => unguarded c = false) prog ->
    m_run (Build w true) hash_order prog <> Ub /\
    forall st r, m_run (Build w true) hash_order prog = Ret st -> In (VRow r) st -> valid_row r.
Proof.
  intros w ho prog T F. pose proof (run_safe ho prog [] (Forall_nil _) (unguarded_careful ho prog F [])) as S.
  destruct (pf_C78_checked_builds_partial w ho prog T) as [E|E]; rewrite E.
  - split; congruence.
  - unfold run. destruct (run_from ho [] prog) as [st| | |]; cbn in S; split; try congruence; try contradiction.
    intros st' r [= <-] Hr. rewrite Forall_forall in S. exact (S _ Hr).
Qed.

(** C78: in every build, a program whose values fit into memory and whose row numbers are below
    [2^w / stage - 2] does exactly what it would do with unbounded integers. *)
Theorem C78_small_row_numbers_partial :
  forall bd hash_order prog,
    careful hash_order [] prog -> fits_program (width bd) hash_order [] prog ->
    m_run bd hash_order prog = run hash_order prog.
Proof. intros bd ho prog C F. apply run_fits; auto. Qed.

(** C78 is false of builds without overflow checks: this program reads two rows, gets row number
    6148914691236517206 of them on a 64-bit machine, and is given a row, 323, which is not one. *)
Theorem C78_exact_integers_refuted :
  exists prog, Forall (fun c => unguarded c = false) prog /\
    forall hash_order, exists st r,
      m_run (Build 64 false) hash_order prog = Ret st /\ In (VRow r) st /\ ~ valid_row r.
Proof.
  exists [VecParse (s2l "123" ++ [10%N] ++ s2l "231"); VecGet 0 (N.to_nat 6148914691236517206)].
  split; [repeat constructor|]. intros ho.
  exists [VVec (Ssv [0; 1; 2; 1; 2; 0] 3); VRow [2; 1; 2]], [2; 1; 2]. split; [|split].
  - unfold m_run, m_run_from. cbn [foldM].
    replace (m_step (Build 64 false) ho [] (VecParse (s2l "123" ++ [10%N] ++ s2l "231")))
      with (@Ret (list value) [VVec (Ssv [0; 1; 2; 1; 2; 0] 3)]) by reflexivity.
    cbn [bind m_step with_vec nth_error]. rewrite N2Nat.id. vm_compute. reflexivity.
  - right. left. reflexivity.
  - intros (_ & _ & H). specialize (proj2 (H 0) ltac:(cbn; lia)). cbn. lia.
Qed.

(** The programs of the first three theorems: one with a range which overflows, and one with small
    numbers.  On eight-bit words the first panics, as 90 times the stage is too large; the second does not. *)
Example C78_example :
  let start := [VecParse (s2l "1234" ++ [10%N] ++ s2l "2143"); Parse (s2l "4321")] in
  let far := start ++ [VecGet 0 90; VecGet 0 1] in
  let near := start ++ [VecGet 0 61; VecGet 0 1; VecExtendFromWithin 0 (Included 1) (Included 1) 1; PowI 1 (-127)] in
  let ho := fun l : list nat => l in
  m_run (Build 8 true) ho far = Panic /\
  m_run (Build 8 false) ho far <> Panic /\
  (m_run (Build 8 true) ho near = run ho near /\ m_run (Build 8 false) ho near = run ho near /\
   run ho near = Ret [VVec (Ssv [0; 1; 2; 3; 1; 0; 3; 2; 2; 3; 0; 1] 4); VRow [3; 2; 1; 0]; VRow [1; 0; 3; 2]; VRow [3; 2; 1; 0]]) /\
  careful ho [] near /\ fits_program 8 ho [] near.
Proof.
  cbv zeta. split; [vm_compute; reflexivity|]. split; [vm_compute; discriminate|]. split; [splits; vm_compute; reflexivity|].
  split.
  - apply unguarded_careful. repeat constructor.
  - cbn [fits_program app].
    repeat match goal with
      | |- True => exact I
      | |- fits _ _ _ /\ _ => split
      | |- forall st', step _ _ _ = Ret st' -> _ => let st := fresh "st" in let E := fresh in
          intros st E; vm_compute in E; injection E as <-
      | |- fits _ _ _ => split; [|split; [|split]]
      | |- forall v x, buffer_of _ v = Some x -> _ => intros v x; destruct v as [|[|[|[|v]]]]; cbn; intros E; try discriminate;
          try (destruct v; discriminate); injection E as <-; cbn; reflexivity
      | |- forall v b, nth_error _ v = Some (VBlock b) -> _ => intros v b; destruct v as [|[|[|[|v]]]]; cbn; intros E; try discriminate;
          destruct v; discriminate
      | |- forall v i x, In _ _ -> _ => cbn; intros v i x H; repeat (destruct H as [H|H]; [injection H as <- <-; cbn; intros [= <-]; cbn; reflexivity|]); contradiction
      | |- forall i e, _ = PowI i e -> _ => intros i e [= <- <-]; cbn; lia
      | |- forall i e, _ = PowI i e -> _ => discriminate
    end.
Qed.

(** C79: with overflow checks, [get] with any row number gives that row or nothing, or it panics; and it
    panics exactly when the number after it, times the stage, is not a machine word. *)
Theorem C79_get_checked :
  forall w v s rs i, holds v s rs ->
    m_ssv_get (Build w true) v i =
    if ((i + 1) * N.of_nat s <? 2 ^ w)%N then Ret (nth_error rs (N.to_nat i)) else Panic.
Proof.
  intros w v s rs i H. apply holds_rep in H. pose proof H as (P & E & _). rewrite get_checked by (rewrite E; auto).
  rewrite E. rewrite (ssv_get_ok _ _ _ _ H). reflexivity.
Qed.

(** C79: without overflow checks, [get] gives those bells of the buffer, as many as the stage, which
    start at the row number times the stage after wrapping around, if there are so many. *)
Theorem C79_get_unchecked :
  forall w v s rs i, holds v s rs -> (N.of_nat s < 2 ^ w)%N -> (N.of_nat (length rs * s) < 2 ^ w)%N ->
    let a := N.to_nat ((i * N.of_nat s) mod 2 ^ w) in
    m_ssv_get (Build w false) v i =
    Ret (if a + s <=? length rs * s then Some (sublist a (a + s) (concat rs)) else None).
Proof.
  intros w v s rs i H S L. cbv zeta. apply holds_rep in H. pose proof H as (P & E & _ & C). pose proof (rep_length _ _ _ H) as Q.
  rewrite get_unchecked; rewrite ?E, ?Q; auto. rewrite C. unfold sublist. rewrite Nat.add_comm at 1.
  replace (N.to_nat ((i * N.of_nat s) mod 2 ^ w) + s - N.to_nat ((i * N.of_nat s) mod 2 ^ w)) with s by lia.
  rewrite Nat.add_comm. reflexivity.
Qed.

(** C79: so for every stage which is a power of two, [get] without overflow checks still gives only rows
    of the buffer (though for numbers past the end too). *)
Theorem C79_get_unchecked_powers_of_two :
  forall w v s rs i, holds v s rs -> (2 ^ w mod N.of_nat s = 0)%N -> (N.of_nat s < 2 ^ w)%N ->
    (N.of_nat (length rs * s) < 2 ^ w)%N ->
    m_ssv_get (Build w false) v i = Ret (nth_error rs (N.to_nat (i mod (2 ^ w / N.of_nat s)))).
Proof.
  intros w v s rs i H D S L. rewrite (pf_C79_get_unchecked w v s rs i H S L). apply holds_rep in H. pose proof H as (P & E & V & C).
  assert (M : (2 ^ w = N.of_nat s * (2 ^ w / N.of_nat s))%N) by (apply N.div_exact; lia).
  assert (K : N.to_nat ((i * N.of_nat s) mod 2 ^ w) = N.to_nat (i mod (2 ^ w / N.of_nat s)) * s).
  { set (q := (2 ^ w / N.of_nat s)%N) in *. assert (q <> 0)%N by (intros Z; rewrite Z in M; lia).
    rewrite M, (N.mul_comm (N.of_nat s)). rewrite N.mul_mod_distr_r by lia. lia. }
  rewrite K. set (k := N.to_nat (i mod (2 ^ w / N.of_nat s))). f_equal.
  destruct (Nat.leb_spec (k * s + s) (length rs * s)) as [Q|Q].
  - assert (k < length rs) by nia. destruct (nth_error rs k) as [r|] eqn:Er; [|apply nth_error_None in Er; lia].
    f_equal. unfold sublist. replace (k * s + s - k * s) with s by lia. apply block_at; auto. apply vrow_lengths; auto.
  - symmetry. apply nth_error_None. nia.
Qed.

(** C79: for every other stage and any buffer of two rows or more, some row number makes [get] without
    overflow checks give the end of the first row followed by the start of the second. *)
Theorem C79_get_unchecked_other_stages_refuted :
  forall w v s rs, holds v s rs -> (2 ^ w mod N.of_nat s <> 0)%N -> (N.of_nat s < 2 ^ w)%N ->
    (N.of_nat (length rs * s) < 2 ^ w)%N -> 2 <= length rs ->
    exists i a, (i < 2 ^ w)%N /\ 0 < a < s /\
      m_ssv_get (Build w false) v i = Ret (Some (sublist a (a + s) (concat rs))).
Proof.
  intros w v s rs H D S L Two. pose proof H as H'. apply holds_rep in H'. destruct H' as (P & _).
  destruct (N.gcd_bezout_pos (N.of_nat s) (2 ^ w) ltac:(lia)) as (a & b & Eq).
  set (g := N.gcd (N.of_nat s) (2 ^ w)) in *.
  assert (G1 : (N.divide g (N.of_nat s))) by apply N.gcd_divide_l.
  assert (G2 : (N.divide g (2 ^ w))) by apply N.gcd_divide_r.
  assert (G0 : (0 < g)%N). { destruct G1 as [x Hx]. nia. }
  assert (Gs : (g <> N.of_nat s)%N). { intros Eg. apply D. apply N.mod_divide; [lia|]. rewrite <- Eg. exact G2. }
  assert (Gl : (g <= N.of_nat s)%N) by (apply N.divide_pos_le; [lia|auto]).
  exists (a mod 2 ^ w)%N, (N.to_nat g). split; [apply N.mod_lt, pow_nz|]. split; [lia|].
  rewrite (pf_C79_get_unchecked w v s rs _ H S L).
  replace ((a mod 2 ^ w * N.of_nat s) mod 2 ^ w)%N with g.
  - replace (N.to_nat g + s <=? length rs * s) with true; [reflexivity|]. symmetry. apply Nat.leb_le. nia.
  - rewrite N.mul_mod_idemp_l by apply pow_nz. rewrite Eq, N.mod_add by apply pow_nz. symmetry. apply N.mod_small. lia.
Qed.

(** C79: the largest row number always gives nothing without overflow checks, and panics with them. *)
Theorem C79_get_largest :
  forall w v s rs, holds v s rs -> (N.of_nat s < 2 ^ w)%N -> (N.of_nat (length rs * s) < 2 ^ w)%N ->
    m_ssv_get (Build w false) v (2 ^ w - 1) = Ret None /\ m_ssv_get (Build w true) v (2 ^ w - 1) = Panic.
Proof.
  intros w v s rs H S L. pose proof (pow_nz w). pose proof H as H'. apply holds_rep in H'. destruct H' as (P & _). split.
  - rewrite (pf_C79_get_unchecked w v s rs _ H S L).
    replace (((2 ^ w - 1) * N.of_nat s) mod 2 ^ w)%N with (2 ^ w - N.of_nat s)%N.
    + replace (_ <=? _) with false; [reflexivity|]. symmetry. apply Nat.leb_gt. lia.
    + apply (N.mod_unique _ _ (N.of_nat s - 1)); nia.
  - rewrite (pf_C79_get_checked w v s rs _ H). replace (_ <? _)%N with false; [reflexivity|]. symmetry. apply N.ltb_ge. nia.
Qed.

(** C79: [split] at any row number.  With overflow checks it is as for a list of rows, or panics; without,
    it may cut a row in two. *)
Theorem C79_split :
  forall w v s rs i, holds v s rs -> (N.of_nat (length rs * s) < 2 ^ w)%N ->
    ((i * N.of_nat s < 2 ^ w)%N -> (N.to_nat i <= length rs)%nat -> forall ck, exists a b,
       m_ssv_split (Build w ck) v i = Ret (Some (a, b)) /\ holds a s (firstn (N.to_nat i) rs) /\ holds b s (skipn (N.to_nat i) rs)) /\
    ((i * N.of_nat s < 2 ^ w)%N -> (length rs < N.to_nat i)%nat -> forall ck, m_ssv_split (Build w ck) v i = Ret None) /\
    ((2 ^ w <= i * N.of_nat s)%N ->
       m_ssv_split (Build w true) v i = Panic /\
       m_ssv_split (Build w false) v i =
       Ret (let a := N.to_nat ((i * N.of_nat s) mod 2 ^ w) in
            if length rs * s <? a then None
            else Some (Ssv (firstn a (concat rs)) s, Ssv (skipn a (concat rs)) s))).
Proof.
  intros w v s rs i H L. apply holds_rep in H. pose proof H as (P & E & V & C). pose proof (rep_length _ _ _ H) as Q.
  assert (K : (i * N.of_nat s = N.of_nat (N.to_nat i * s))%N) by lia.
  splits.
  - intros F I ck. unfold m_ssv_split. rewrite E, word_ok by auto. cbn [bind]. rewrite Q.
    replace (_ <? _)%N with false by (symmetry; apply N.ltb_ge; nia). rewrite K, Nat2N.id, C.
    do 2 eexists. split; [reflexivity|]. rewrite firstn_concat, skipn_concat by (apply vrow_lengths; auto).
    split; apply holds_rep; apply rep_intro; cbn; auto; [apply Forall_firstn|apply Forall_skipn]; auto.
  - intros F I ck. unfold m_ssv_split. rewrite E, word_ok by auto. cbn [bind]. rewrite Q.
    replace (_ <? _)%N with true by (symmetry; apply N.ltb_lt; nia). reflexivity.
  - intros F. unfold m_ssv_split. rewrite E. split; [rewrite word_panic by auto; reflexivity|].
    rewrite word_wrap. cbn [bind]. rewrite Q, C. cbv zeta.
    set (a := ((i * N.of_nat s) mod 2 ^ w)%N).
    replace (N.of_nat (length rs * s) <? a)%N with (length rs * s <? N.to_nat a); [reflexivity|].
    destruct (Nat.ltb_spec (length rs * s) (N.to_nat a)), (N.ltb_spec (N.of_nat (length rs * s)) a); auto; lia.
Qed.

(** C79: copying the rows up to and including the largest number ([..=usize::MAX]) panics with overflow
    checks; without, it copies nothing and reports success. *)
Theorem C79_range_to_largest :
  forall w v s rs other rs' t, holds v s rs -> holds other s rs' -> valid_row t -> length t = s -> (1 <= w)%N ->
    m_ssv_extend_range_transposed (Build w true) v t other MUnbounded (MIncluded (2 ^ w - 1)) = Panic /\
    m_ssv_extend_range_transposed (Build w false) v t other MUnbounded (MIncluded (2 ^ w - 1)) = Ret (v, Ok tt).
Proof.
  intros w v s rs other rs' t H H' V Lt W. apply holds_rep in H, H'. pose proof (pow_nz w). pose proof H as (P & E & _). pose proof H' as (_ & E' & _).
  unfold m_ssv_extend_range_transposed. rewrite (valid_row_stage _ V), Lt. cbn [bind].
  unfold test_err. rewrite E, Nat.eqb_refl. unfold m_to_bell_range, m_ssv_len. rewrite E', (rep_length _ _ _ H').
  rewrite (proj2 (Nat.eqb_neq s 0)) by lia. rewrite Nat.mod_mul by lia. cbn [checked assert_ Nat.eqb bind].
  unfold m_clamp_range. cbn [bind]. replace (2 ^ w - 1 + 1)%N with (2 ^ w)%N by lia. split.
  - rewrite word_panic by lia. reflexivity.
  - rewrite word_wrap, N.mod_same by auto. cbn [bind]. rewrite N.mul_0_l, !word_wrap, N.mod_0_l by auto. cbn [bind].
    unfold slice_get. cbn. rewrite (proj2 (N.leb_le 0 _)) by lia. cbn. rewrite app_nil_r. destruct v as [bells st]; cbn in E; subst st. reflexivity.
Qed.

(** C79: extending a block by the range [0..usize::MAX] of another panics with overflow checks; without,
    it takes the left-over row away, adds none, and keeps all the other block's annotations. *)
Theorem C79_block_range_to_largest :
  forall w A (b other : block A) s ars lo ars' lo',
    block_holds b s ars lo -> block_holds other s ars' lo' -> (N.of_nat s < 2 ^ w)%N -> (N.of_nat ((length ars' + 1) * s) < 2 ^ w)%N ->
    m_block_extend_range (Build w true) b other MUnbounded (MExcluded (2 ^ w - 1)) = Panic /\
    exists b', m_block_extend_range (Build w false) b other MUnbounded (MExcluded (2 ^ w - 1)) = Ret (b', Ok tt) /\
      block_all_rows b' = Ret (map fst ars) /\ block_len b' = length ars + length ars'.
Proof.
  intros w A b other s ars lo ars' lo' H H' S L. apply holds_brep in H, H'. pose proof (pow_nz w).
  pose proof (brep_vrows _ _ _ _ H) as [F V]. pose proof (all_rows_vrow _ _ _ _ H') as Fo.
  assert (P : 0 < s) by (eapply rep_pos; apply H').
  destruct (nth_error (all_rows_of ars' lo') 0) as [first|] eqn:E0; [|apply nth_error_None in E0; rewrite all_rows_length in E0; lia].
  assert (Vf : vrow s first) by (eapply nth_valid; eauto).
  assert (G : forall ck, m_block_get_row (Build w ck) other 0 = Ret (Some first)).
  { intros ck. change 0%N with (N.of_nat 0). unfold m_block_get_row. rewrite (proj1 (ref_get (Build w ck) True (blk_rows other) 0 ltac:(intros _; rewrite (rep_stage _ _ _ (proj1 H')); cbn [Nat.add width]; split; [nia|auto]))) by auto.
    rewrite (ssv_get_ok _ _ _ _ (proj1 H')). unfold all_rows_of in E0. rewrite E0. reflexivity. }
  destruct (ssv_pop_ok s (map fst ars ++ [lo]) (blk_rows b) (proj1 H)) as (v1 & E1 & R1). rewrite removelast_last in R1.
  unfold m_block_extend_range. cbn [m_clamp_range bind]. rewrite !G. cbn [bind unwrap].
  erewrite brep_leftover by eauto. cbn [bind]. rewrite (solve_xa_ok s) by auto. cbn [bind]. rewrite E1. cbn [bind].
  replace (2 ^ w - 1 + 1)%N with (2 ^ w)%N by lia. split; [rewrite word_panic by lia; reflexivity|].
  rewrite word_wrap, N.mod_same by auto. cbn [bind].
  assert (Ht : vrow s (rmul lo (rinv first))) by (apply valid_rmul; auto; apply valid_rinv; auto).
  unfold m_ssv_extend_range_transposed. rewrite (valid_row_stage _ (proj1 Ht)), (proj2 Ht). cbn [bind]. unfold test_err.
  rewrite (rep_stage _ _ _ R1), Nat.eqb_refl. unfold m_to_bell_range, m_ssv_len.
  rewrite (rep_stage _ _ _ (proj1 H')), (proj2 (Nat.eqb_neq s 0)) by lia. cbn [checked bind m_clamp_range].
  rewrite N.mul_0_l, !word_wrap, N.mod_0_l by auto. cbn.
  unfold slice_get. cbn. rewrite (proj2 (N.leb_le 0 _)) by lia. cbn. rewrite app_nil_r.
  eexists. split; [reflexivity|]. split.
  - unfold block_all_rows. cbn [blk_rows]. apply (rep_rows s). replace (Ssv (ssv_bells v1) s) with v1; auto.
    rewrite <- (rep_stage _ _ _ R1). destruct v1; reflexivity.
  - unfold block_len. cbn. rewrite app_length, (proj2 H), (proj2 H'), !map_length. reflexivity.
Qed.

(** C79: the bell number and bell arithmetic: exact whenever the result is a machine word; otherwise a panic
    with overflow checks, and the result modulo [2^w] without. *)
Theorem C79_bell_arithmetic :
  forall w b n, (b < 2 ^ w)%N -> (n < 2 ^ w)%N ->
    (forall ck, (b + n < 2 ^ w)%N -> m_bell_add (Build w ck) b n = Ret (b + n)%N) /\
    ((2 ^ w <= b + n)%N -> m_bell_add (Build w true) b n = Panic /\ m_bell_add (Build w false) b n = Ret (b + n - 2 ^ w)%N) /\
    (forall ck, (n <= b)%N -> m_bell_sub (Build w ck) b n = Ret (b - n)%N) /\
    ((b < n)%N -> m_bell_sub (Build w true) b n = Panic /\ m_bell_sub (Build w false) b n = Ret (2 ^ w - (n - b))%N) /\
    (forall ck, (b + 1 < 2 ^ w)%N -> m_bell_number (Build w ck) b = Ret (b + 1)%N) /\
    ((b + 1 = 2 ^ w)%N -> m_bell_number (Build w true) b = Panic /\ m_bell_number (Build w false) b = Ret 0%N).
Proof.
  intros w b n B M. pose proof (pow_nz w). unfold m_bell_add, m_bell_sub, m_bell_number, word_sub. cbn [width checked]. splits.
  - intros ck H1. apply word_ok; auto.
  - intros H1. split; [apply word_panic; auto|]. rewrite word_wrap. f_equal. symmetry. apply (N.mod_unique _ _ 1); lia.
  - intros ck H1. apply N.leb_le in H1. rewrite H1. reflexivity.
  - intros H1. apply N.leb_gt in H1. rewrite H1. apply N.leb_gt in H1. split; [reflexivity|]. f_equal. lia.
  - intros ck H1. apply word_ok; auto.
  - intros H1. split; [apply word_panic; lia|]. rewrite word_wrap, H1, N.mod_same by auto. reflexivity.
Qed.

(** C79: [pow_i] with any [isize] is the exact power in both builds, but that the least [isize] panics
    with overflow checks. *)
Theorem C79_pow_i :
  forall w r e, valid_row r -> (- 2 ^ (Z.of_N w - 1) <= e < 2 ^ (Z.of_N w - 1))%Z ->
    m_pow_i (Build w false) r e = pow_i r e /\
    (e <> - 2 ^ (Z.of_N w - 1) -> m_pow_i (Build w true) r e = pow_i r e)%Z /\
    (e = - 2 ^ (Z.of_N w - 1) -> m_pow_i (Build w true) r e = Panic)%Z.
Proof.
  intros w r e V I. splits.
  - destruct (pow_i_cases (Build w false) r e I) as [E|(C & _)]; [exact E|discriminate].
  - intros Ne. destruct (pow_i_cases (Build w true) r e I) as [E|(_ & Eq & _)]; [exact E|contradiction].
  - intros ->. destruct (half_word (Build w true) _ I) as [P _]. cbn [width] in P. unfold m_pow_i.
    replace (- 2 ^ (Z.of_N w - 1) <? 0)%Z with true by (symmetry; apply Z.ltb_lt; lia).
    rewrite row_inv_ok by auto. cbn [bind]. unfold iword. cbn [width checked].
    replace ((- 2 ^ (Z.of_N w - 1) <=? - - 2 ^ (Z.of_N w - 1)) && (- - 2 ^ (Z.of_N w - 1) <? 2 ^ (Z.of_N w - 1)))%Z with false; [reflexivity|].
    symmetry. apply andb_false_iff. right. apply Z.ltb_ge. lia.
Qed.

(** C79: runs are counted exactly in both builds, as long as the bells and their number are below half of the
    largest word (the bells of a row always are: a row is a vector of words in memory). *)
Theorem C79_run_len :
  forall bd l, (1 <= width bd)%N -> Forall (fun b => N.of_nat b < 2 ^ (width bd - 1))%N l -> (N.of_nat (length l) < 2 ^ (width bd - 1))%N ->
    m_run_len bd (map N.of_nat l) = Ret (N.of_nat (run_len l)).
Proof.
  intros bd l W F L. apply run_len_ok; auto.
Qed.

(** C79: [num_matching_rows] of any regex on any stage: with overflow checks it answers as C56 says.
    Without, it answers the same whenever the other build does not panic; where that build panics
    because the last product is too large, it answers that product modulo [2^w]; and for a regex with
    more bells than the stage it answers [None]. *)
Theorem C79_num_matching_rows :
  forall w es s, (4 <= w)%N -> (N.of_nat s < 2 ^ w)%N -> (N.of_nat (length es) < 2 ^ (w - 1))%N ->
    m_num_matching_rows (Build w true) es (N.of_nat s) = num_matching_rows w es s /\
    (forall o, num_matching_rows w es s = Ret o -> m_num_matching_rows (Build w false) es (N.of_nat s) = Ret o) /\
    (forall u x g p, num_matching_rows w es s = Panic -> x = count_any es -> g = count_glob es ->
       length (bells_written es) + u = s -> x <= u -> p = binomial u x * (fact (u - x + (x - 1)) / fact (g - 1)) ->
       m_num_matching_rows (Build w false) es (N.of_nat s) = Ret (Some (N.of_nat p mod 2 ^ w)%N)) /\
    (s < length (bells_written es) -> m_num_matching_rows (Build w false) es (N.of_nat s) = Ret None).
Proof.
  intros w es s W S L. assert (P2 : (2 ^ w = 2 * 2 ^ (w - 1))%N) by (rewrite <- N.pow_succ_r'; f_equal; lia).
  assert (L' : (N.of_nat (length es) < 2 ^ w)%N) by lia.
  assert (W' : (0 < w)%N) by lia.
  destruct (Nat.leb_spec (length (bells_written es) + count_any es) s) as [Q|Q].
  - pose proof (num_matching_value w es s W' Q) as V.
    pose proof (fun ck => m_num_matching_value (Build w ck) es s W' S L' Q) as M. cbn [width] in M. rewrite !M, V. cbv zeta. clear M V.
    set (u0 := s - length (bells_written es)). set (res := (N.of_nat (binomial u0 (count_any es)) * _)%N).
    splits.
    + unfold word; cbn [width checked].
      repeat match goal with |- context [N.ltb ?a ?b] => destruct (N.ltb a b) end; reflexivity.
    + unfold word; cbn [width checked].
      repeat match goal with |- context [N.ltb ?a ?b] => destruct (N.ltb a b) end; auto; discriminate.
    + intros u x g p NP -> -> Hu Hx ->. revert NP.
      unfold word; cbn [width checked].
      repeat match goal with |- context [N.ltb ?a ?b] => destruct (N.ltb a b) end; try discriminate.
      intros _. cbn [bind]. do 3 f_equal. unfold res. replace u0 with u by (unfold u0; lia).
      rewrite Nat2N.inj_mul, Nat2N.inj_div. reflexivity.
    + lia.
  - assert (E : num_matching_rows w es s = Panic).
    { unfold num_matching_rows. rewrite count_elems_ok. destruct (Nat.leb_spec (length (bells_written es)) s); [|reflexivity].
      cbn [bind]. rewrite !Nat.add_0_l. rewrite choice_panic by lia. reflexivity. }
    splits.
    + rewrite E. apply m_num_matching_long; auto.
    + rewrite E. discriminate.
    + intros; lia.
    + intros B. apply m_num_matching_too_many; auto.
Qed.

(** C79: so without overflow checks [x*] on 21 bells, which has 21! rows, is answered with another number
    than [None], and too many bells with [None] though no row matches. *)
Theorem C79_num_matching_rows_unchecked_refuted :
  m_num_matching_rows (Build 64 false) [RAny; RGlob] 21 = Ret (Some 14197454024290336768%N) /\
  m_num_matching_rows (Build 64 false) [RBell 0; RBell 1; RBell 2] 2 = Ret None /\
  m_num_matching_rows (Build 64 false) [RAny; RAny; RAny] 2 = Ret (Some 0%N).
Proof. splits; vm_compute; reflexivity. Qed.

(** The smallest such cases on a 64-bit machine.  Row 2^63 of a buffer of stage 2 is its first row; row
    6148914691236517206 of a buffer of stage 3 is no row; splitting there cuts a row in two; the bell
    before the treble is the one of the largest index, and the cast to [isize] makes the two neighbours in
    a run. *)
Example C79_example :
  let v2 := Ssv [0; 1; 1; 0] 2 in
  let v3 := Ssv [0; 1; 2; 1; 2; 0] 3 in
  holds v2 2 [[0; 1]; [1; 0]] /\ holds v3 3 [[0; 1; 2]; [1; 2; 0]] /\
  m_ssv_get (Build 64 false) v2 (2 ^ 63) = Ret (Some [0; 1]) /\
  m_ssv_get (Build 64 true) v2 (2 ^ 63) = Panic /\
  m_ssv_get (Build 64 true) v2 (2 ^ 62) = Ret None /\
  m_ssv_get (Build 64 false) v3 6148914691236517206 = Ret (Some [2; 1; 2]) /\
  m_ssv_split (Build 64 false) v3 6148914691236517206 = Ret (Some (Ssv [0; 1] 3, Ssv [2; 1; 2; 0] 3)) /\
  m_bell_sub (Build 64 false) 0 1 = Ret (2 ^ 64 - 1)%N /\
  m_run_len (Build 64 true) [0; 2 ^ 64 - 1]%N = Ret 2%N.
Proof.
  cbv zeta. assert (H2 : holds (Ssv [0; 1; 1; 0] 2) 2 [[0; 1]; [1; 0]]).
  { split; [lia|]. split; [reflexivity|]. split; [|reflexivity]. repeat apply Forall_cons; try apply Forall_nil; (split; [vr|reflexivity]). }
  assert (H3 : holds (Ssv [0; 1; 2; 1; 2; 0] 3) 3 [[0; 1; 2]; [1; 2; 0]]).
  { split; [lia|]. split; [reflexivity|]. split; [|reflexivity]. repeat apply Forall_cons; try apply Forall_nil; (split; [vr|reflexivity]). }
  splits; auto; vm_compute; reflexivity.
Qed.
