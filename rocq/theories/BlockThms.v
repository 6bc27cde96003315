(** Property theorems C30 to C35 (blocks of rows), and the block part of C26 and C29. *)

(* Generated from tools/props/Block.src: the proofs behind PropsBlock.v. *)
From Verif Require Import Base Bell Stage Row Utils SameStageVec Block Spec SpecVec SpecBlock ListFacts
  BellFacts RowFacts MulFacts GroupFacts SsvFacts SsvThms BlockFacts.
Local Open Scope list_scope.

Lemma pf_C30_block_is_a_list_of_annotated_rows :
  forall A (start : block_arg A) ops st outs,
    block_arg_valid start -> Forall block_op_args_valid ops ->
    block_run (ba_stage start) (arg_annot_rows start, arg_leftover start) ops = Some (st, outs) ->
    exists b0 b, block_build start = Ret (Some b0) /\
      block_holds b0 (ba_stage start) (arg_annot_rows start) (arg_leftover start) /\
      block_calls b0 ops = Ret (b, outs) /\ block_holds b (ba_stage start) (fst st) (snd st).
Proof.
  intros A start ops st outs V Vo E. destruct (block_build_ok start V) as (b0 & E0 & R0).
  destruct (brep_calls (ba_stage start) ops (arg_annot_rows start, arg_leftover start) b0 st outs R0 Vo E) as (b & E1 & R1).
  exists b0, b. splits; auto; apply brep_holds; auto.
Qed.

Lemma pf_C30_histories_from_any_block :
  forall A (b0 : block A) s ars lo ops st outs,
    block_holds b0 s ars lo -> Forall block_op_args_valid ops ->
    block_run s (ars, lo) ops = Some (st, outs) ->
    exists b, block_calls b0 ops = Ret (b, outs) /\ block_holds b s (fst st) (snd st).
Proof.
  intros A b0 s ars lo ops st outs H Vo E. apply holds_brep in H.
  destruct (brep_calls s ops (ars, lo) b0 st outs H Vo E) as (b & E1 & R1). exists b. split; auto. apply brep_holds; auto.
Qed.

Lemma pf_C30_panics_exactly_when :
  forall A (b0 : block A) s ars lo ops,
    block_holds b0 s ars lo -> Forall block_op_args_valid ops ->
    (block_calls b0 ops = Panic <-> block_run s (ars, lo) ops = None).
Proof.
  intros A b0 s ars lo ops H Vo. apply holds_brep in H. split.
  - intros P. destruct (block_run s (ars, lo) ops) as [[st outs]|] eqn:E; auto.
    destruct (brep_calls s ops (ars, lo) b0 st outs H Vo E) as (b & E1 & _). congruence.
  - intros E. apply (brep_calls_panic s ops (ars, lo) b0); auto.
Qed.

Lemma pf_C30_getters_agree :
  forall A (b : block A) s ars lo, block_holds b s ars lo ->
    block_all_rows b = Ret (map fst ars ++ [lo]) /\ block_rows b = Ret (map fst ars) /\
    block_len b = length ars /\ block_stage b = s /\
    (block_is_empty b = true <-> ars = []) /\
    (forall i, block_get_row b i = nth_error (map fst ars ++ [lo]) i) /\
    (forall i, block_get_annot b i = option_map snd (nth_error ars i)) /\
    (forall i, block_get_annot_row b i = nth_error ars i) /\
    block_first_annot_row b = hd_error ars /\
    block_first_row b = Ret (hd lo (map fst ars)).
Proof.
  intros A b s ars lo H0. pose proof (holds_brep _ _ _ _ H0) as H. splits.
  - eapply brep_all_rows; eauto.
  - eapply brep_rows; eauto.
  - eapply brep_len; eauto.
  - apply H0.
  - unfold block_is_empty. rewrite (proj2 H). destruct ars; cbn; split; congruence.
  - intros i. eapply brep_get_row; eauto.
  - intros i. eapply brep_get_annot; eauto.
  - intros i. eapply brep_get_annot_row; eauto.
  - unfold block_first_annot_row. erewrite brep_get_annot_row by eauto. destruct ars; reflexivity.
  - destruct (brep_first_row _ _ _ _ H) as (r & E & N). rewrite E. unfold all_rows_of in N. destruct (map fst ars); cbn in *; congruence.
Qed.

Lemma pf_C30_constructors :
  forall A (default : A) (f : nat -> A) v s rs, holds v s rs ->
    (rs = [] -> with_default_annots default v = Panic /\ with_annots_from_indices v f = Ret None) /\
    (forall rows lo, rs = rows ++ [lo] ->
       (exists b, with_default_annots default v = Ret b /\
          block_holds b s (map (fun r => (r, default)) rows) lo) /\
       (exists b, with_annots_from_indices v f = Ret (Some b) /\
          block_holds b s (combine rows (map f (seq 0 (length rows)))) lo)).
Proof.
  intros A d f v s rs H. apply holds_rep in H. split.
  - intros ->. unfold with_default_annots, with_annots_from_indices.
    erewrite ssv_is_empty_ok, ssv_len_ok by eauto. split; reflexivity.
  - intros rows lo ->. assert (N : rows ++ [lo] <> []) by (destruct rows; discriminate). split.
    + destruct (with_default_ok s _ v d H N) as (b & E & R). rewrite removelast_last, last_last in R.
      exists b. split; auto. apply brep_holds; auto.
    + destruct (from_indices_ok s _ v f H N) as (b & E & R). rewrite removelast_last, last_last, app_length in R.
      cbn [length] in R. replace (length rows + 1 - 1) with (length rows) in R by lia.
      exists b. split; auto. apply brep_holds; auto.
Qed.

Lemma pf_C30_empty_block :
  forall A s, 0 < s -> exists b, @block_empty A s = Ret b /\ block_holds b s [] (seq 0 s).
Proof.
  intros A s Hs. destruct (@block_empty_ok A s Hs) as (b & E & R). exists b. split; auto. rewrite <- rounds_seq. apply brep_holds. exact R.
Qed.

Lemma pf_C31_extend :
  forall A (b other : block A) s ars lo ars' lo' first,
    block_holds b s ars lo -> block_holds other s ars' lo' ->
    hd_error (map fst ars' ++ [lo']) = Some first ->
    exists t, valid_row t /\ length t = s /\ composition t first lo /\
      (forall t', length t' = s -> composition t' first lo -> t' = t) /\
      exists b', block_extend b other = Ret (b', Ok tt) /\
        block_holds b' s (ars ++ map (fun ra => (row_product t (fst ra), snd ra)) ars') (row_product t lo').
Proof.
  intros A b o s ars lo ars' lo' first H Ho Hf. apply holds_brep in H. apply holds_brep in Ho.
  pose proof (brep_vrows _ _ _ _ H) as [F V]. pose proof (brep_vrows _ _ _ _ Ho) as [F' V'].
  pose proof (all_rows_vrow _ _ _ _ Ho) as Fo. unfold all_rows_of in Fo.
  assert (Vf : vrow s first). { rewrite Forall_forall in Fo. apply Fo. destruct (map fst ars' ++ [lo']); cbn in Hf; [discriminate|]. left; congruence. }
  set (t := rmul lo (rinv first)).
  assert (Vi : vrow s (rinv first)) by (apply valid_rinv; auto).
  assert (Vt : vrow s t) by (apply valid_rmul; auto).
  assert (C : rmul t first = lo).
  { unfold t. rewrite (rmul_assoc_vrow s) by auto. rewrite (rmul_rinv_l s) by auto. apply rmul_rounds_r, V. }
  assert (Ct : composition t first lo). { rewrite <- C. apply (composition_vrow s); auto. }
  exists t. splits; auto; try apply Vt.
  - intros t' Lt C'. apply composition_fun in C'. unfold t. rewrite C'.
    assert (E : rmul (rmul t' first) (rinv first) = t').
    { rewrite (rmul_assoc_vrow s) by auto. rewrite (rmul_rinv_r s) by auto. rewrite <- Lt. apply rmul_rounds_r; auto. }
    auto.
  - destruct (brep_extend s ars lo b ars' lo' o H Ho) as (b' & E & R).
    assert (Ef : nth 0 (all_rows_of ars' lo') [] = first).
    { unfold all_rows_of. destruct (map fst ars' ++ [lo']); cbn in *; congruence. }
    rewrite Ef in R. exists b'. split; auto. apply brep_holds.
    rewrite (moved_unique s t first lo lo') in R by auto.
    rewrite (map_ext_in _ (fun ra => (row_product t (fst ra), snd ra))) in R; auto.
    intros [r a] Hin. cbn [fst snd]. f_equal. apply (moved_unique s); auto.
    rewrite Forall_forall in F'. apply F'. apply in_map_iff. exists (r, a). auto.
Qed.

Lemma pf_C31_extend_incompatible :
  forall A (b other : block A) s ars lo s' ars' lo',
    block_holds b s ars lo -> block_holds other s' ars' lo' -> s <> s' ->
    block_extend b other = Ret (b, Err (IncompatibleStages s s')).
Proof.
  intros A b o s ars lo s' ars' lo' H Ho N. apply holds_brep in H. apply holds_brep in Ho.
  eapply brep_extend_err; eauto.
Qed.

Lemma pf_C31_extend_range_rows_partial :
  forall A (b other : block A) s ars lo ars' lo' lo_ hi_ first,
    block_holds b s ars lo -> block_holds other s ars' lo' ->
    let a := range_start lo_ in let e := range_end hi_ (length ars') in
    a <= e -> e <= length ars' ->
    nth_error (map fst ars' ++ [lo']) a = Some first ->
    exists b' t, block_extend_range b other lo_ hi_ = Ret (b', Ok tt) /\
      valid_row t /\ length t = s /\ composition t first lo /\
      block_all_rows b' =
        Ret (map fst ars ++ map (row_product t) (sublist a (e + 1) (map fst ars' ++ [lo']))).
Proof.
  intros A b o s ars lo ars' lo' lo_ hi_ first H Ho a e Hae He Hf. apply holds_brep in H. apply holds_brep in Ho.
  pose proof (brep_vrows _ _ _ _ H) as [F V]. pose proof (brep_vrows _ _ _ _ Ho) as [F' V'].
  pose proof (all_rows_vrow _ _ _ _ Ho) as Fo.
  assert (Vf : vrow s first). { rewrite Forall_forall in Fo. apply Fo. eapply nth_error_In; eauto. }
  destruct (brep_extend_range_rows s ars lo b ars' lo' o lo_ hi_ H Ho Hae He) as (v & E & R). fold a e in R.
  rewrite <- sublist_all_rows in R by auto. unfold all_rows_of in R at 2.
  assert (Ef : nth a (all_rows_of ars' lo') [] = first) by (apply nth_error_nth; auto). rewrite Ef in R.
  assert (Vt : vrow s (rmul lo (rinv first))) by (apply valid_rmul; auto; apply valid_rinv; auto).
  assert (C : composition (rmul lo (rinv first)) first lo).
  { assert (K : rmul (rmul lo (rinv first)) first = lo).
    { rewrite (rmul_assoc_vrow s) by (auto; apply valid_rinv; auto). rewrite (rmul_rinv_l s) by auto. apply rmul_rounds_r, V. }
    rewrite <- K at 2. apply (composition_vrow s); auto. }
  exists (Block v (map snd ars ++ map snd ars')), (rmul lo (rinv first)). splits; auto; try apply Vt.
  unfold block_all_rows. cbn [blk_rows]. erewrite rep_rows by eauto. do 2 f_equal.
  apply map_ext_in. intros r Hr. apply (moved_unique s); auto.
  unfold all_rows_of in Fo. rewrite Forall_forall in Fo. apply Fo.
  unfold sublist in Hr. apply In_firstn in Hr. eapply In_skipn; eauto.
Qed.

Lemma pf_C31_extend_range_full :
  forall A (b other : block A) s ars lo ars' lo' lo_ hi_,
    block_holds b s ars lo -> block_holds other s ars' lo' ->
    range_start lo_ = 0 -> range_end hi_ (length ars') = length ars' ->
    block_extend_range b other lo_ hi_ = block_extend b other.
Proof.
  intros A b o s ars lo ars' lo' lo_ hi_ H Ho E1 E2. apply holds_brep in H. apply holds_brep in Ho.
  unfold block_extend, block_extend_range, clamp_range. erewrite brep_len by eauto.
  unfold range_start in E1. unfold range_end in E2.
  destruct lo_ as [x|x|], hi_ as [y|y|]; cbn [Nat.add] in *; rewrite ?E1, ?E2; auto; lia.
Qed.

Lemma pf_C31_extend_range_sub_range_refuted :
  forall A (b other : block A) s ars lo ars' lo' lo_ hi_,
    block_holds b s ars lo -> block_holds other s ars' lo' ->
    range_start lo_ <= range_end hi_ (length ars') -> range_end hi_ (length ars') <= length ars' ->
    range_end hi_ (length ars') - range_start lo_ < length ars' ->
    exists b', block_extend_range b other lo_ hi_ = Ret (b', Ok tt) /\ block_annot_rows b' = Panic.
Proof.
  intros A b o s ars lo ars' lo' lo_ hi_ H Ho. apply holds_brep in H. apply holds_brep in Ho.
  apply (brep_extend_range_subrange s ars lo b ars' lo' o lo_ hi_ H Ho).
Qed.

Lemma pf_C31_extend_range_panics :
  forall A (b other : block A) s ars lo ars' lo' lo_ hi_,
    block_holds b s ars lo -> block_holds other s ars' lo' ->
    range_end hi_ (length ars') + 1 < range_start lo_ \/ length ars' < range_end hi_ (length ars') ->
    block_extend_range b other lo_ hi_ = Panic.
Proof.
  intros A b o s ars lo ars' lo' lo_ hi_ H Ho N. apply holds_brep in H. apply holds_brep in Ho.
  eapply brep_extend_range_panic; eauto. lia.
Qed.

Lemma pf_C31_extend_range_inverted_refuted :
  forall A (b other : block A) s ars lo ars' lo' lo_ hi_,
    block_holds b s ars lo -> block_holds other s ars' lo' ->
    range_start lo_ = range_end hi_ (length ars') + 1 -> range_start lo_ <= length ars' ->
    exists b', block_extend_range b other lo_ hi_ = Ret (b', Ok tt) /\ block_all_rows b' = Ret (map fst ars) /\
      (ars = [] -> block_leftover_row b' = Panic).
Proof.
  intros A b o s ars lo ars' lo' lo_ hi_ H Ho E L. apply holds_brep in H. apply holds_brep in Ho.
  destruct (brep_extend_range_inverted s ars lo b ars' lo' o lo_ hi_ H Ho E L) as (v & Ev & R).
  eexists. split; [exact Ev|]. split; [eapply rep_rows; exact R|].
  intros ->. cbn [map] in R. unfold block_leftover_row. cbn [blk_rows]. erewrite ssv_last_ok by eauto. reflexivity.
Qed.

Lemma pf_C31_extend_range_incompatible :
  forall A (b other : block A) s ars lo s' ars' lo' lo_ hi_,
    block_holds b s ars lo -> block_holds other s' ars' lo' -> s <> s' ->
    (range_start lo_ <= length ars' -> block_extend_range b other lo_ hi_ = Ret (b, Err (IncompatibleStages s s'))) /\
    (length ars' < range_start lo_ -> block_extend_range b other lo_ hi_ = Panic).
Proof.
  intros A b o s ars lo s' ars' lo' lo_ hi_ H Ho N. apply holds_brep in H. apply holds_brep in Ho.
  eapply brep_extend_range_err; eauto.
Qed.

Lemma pf_C32_extend_from_within :
  forall A (b : block A) s ars lo lo_ hi_ first,
    block_holds b s ars lo ->
    let a := range_start lo_ in let e := range_end hi_ (length ars) in
    a <= e -> e <= length ars ->
    nth_error (map fst ars ++ [lo]) a = Some first ->
    exists t b', valid_row t /\ length t = s /\ composition t first lo /\
      block_extend_from_within b lo_ hi_ = Ret b' /\
      block_holds b' s (ars ++ map (fun ra => (row_product t (fst ra), snd ra)) (sublist a e ars))
        (row_product t (nth e (map fst ars ++ [lo]) [])).
Proof.
  intros A b s ars lo lo_ hi_ first H a e Hae He Hf. apply holds_brep in H.
  pose proof (brep_vrows _ _ _ _ H) as [F V]. pose proof (all_rows_vrow _ _ _ _ H) as Fo.
  pose proof (all_rows_length ars lo) as Lr.
  assert (Vf : vrow s first). { rewrite Forall_forall in Fo. apply Fo. eapply nth_error_In; eauto. }
  destruct (brep_from_within s ars lo b lo_ hi_ H Hae He) as (b' & E & R). fold a e in R.
  assert (Ef : nth a (all_rows_of ars lo) [] = first) by (apply nth_error_nth; auto). rewrite Ef in R.
  assert (Vt : vrow s (rmul lo (rinv first))) by (apply valid_rmul; auto; apply valid_rinv; auto).
  assert (C : composition (rmul lo (rinv first)) first lo).
  { assert (K : rmul (rmul lo (rinv first)) first = lo).
    { rewrite (rmul_assoc_vrow s) by (auto; apply valid_rinv; auto). rewrite (rmul_rinv_l s) by auto. apply rmul_rounds_r, V. }
    rewrite <- K at 2. apply (composition_vrow s); auto. }
  exists (rmul lo (rinv first)), b'. splits; auto; try apply Vt. apply brep_holds.
  rewrite (moved_unique s (rmul lo (rinv first)) first lo (nth e _ _)) in R; auto; [|apply nth_Forall; auto; lia].
  rewrite (map_ext_in _ (fun ra => (row_product (rmul lo (rinv first)) (fst ra), snd ra))) in R; auto.
  intros [r x] Hin. cbn [fst snd]. f_equal. apply (moved_unique s); auto.
  unfold sublist in Hin. apply In_firstn, In_skipn in Hin. rewrite Forall_forall in F. apply F. apply in_map_iff. exists (r, x). auto.
Qed.

Lemma pf_C32_outside_the_block_panics :
  forall A (b : block A) s ars lo lo_ hi_, block_holds b s ars lo ->
    ~ (range_start lo_ <= range_end hi_ (length ars) /\ range_end hi_ (length ars) <= length ars) ->
    block_extend_from_within b lo_ hi_ = Panic.
Proof. intros A b s ars lo lo_ hi_ H N. apply holds_brep in H. eapply brep_from_within_panic; eauto. Qed.

Lemma pf_C33_split :
  forall A (b : block A) s ars lo i, block_holds b s ars lo ->
    (length ars < i -> block_split b i = Ret None) /\
    (i <= length ars ->
     exists b1 b2 mid, block_split b i = Ret (Some (b1, b2)) /\
       nth_error (map fst ars ++ [lo]) i = Some mid /\
       block_holds b1 s (firstn i ars) mid /\ block_holds b2 s (skipn i ars) lo /\
       block_len b1 = i /\ block_len b2 = block_len b - i /\
       block_first_row b2 = Ret mid /\
       block_extend b1 b2 = Ret (b, Ok tt)).
Proof.
  intros A b s ars lo i H0. pose proof (holds_brep _ _ _ _ H0) as H. split.
  - intros Hi. eapply brep_split_none; eauto.
  - intros Hi. destruct (brep_split s ars lo b i H Hi) as (b1 & b2 & E & R1 & R2).
    pose proof (all_rows_length ars lo) as Lr.
    exists b1, b2, (nth i (map fst ars ++ [lo]) []). unfold all_rows_of in *. splits; auto.
    + apply nth_error_nth'. lia.
    + apply brep_holds; auto.
    + apply brep_holds; auto.
    + erewrite brep_len by eauto. apply firstn_length_le; auto.
    + erewrite (brep_len _ _ _ b2), (brep_len _ _ _ b) by eauto. apply skipn_length.
    + destruct (brep_first_row _ _ _ _ R2) as (r & Er & Nr). rewrite Er. f_equal.
      unfold all_rows_of in Nr. rewrite <- skipn_map in Nr.
      assert (Sk : skipn i (map fst ars ++ [lo]) = skipn i (map fst ars) ++ [lo]).
      { rewrite skipn_app, map_length. replace (i - length ars) with 0 by lia. reflexivity. }
      rewrite <- Sk, nth_error_skipn, Nat.add_0_r in Nr. symmetry. apply nth_error_nth; auto.
    + eapply brep_split_extend; eauto.
Qed.

Lemma pf_C34_repeat_iter_items :
  forall A (b : block A) s ars lo start sched,
    block_holds b s ars lo -> ars <> [] -> valid_row start -> length start = s ->
    exists ri outs ri', repeat_iter_new start b = Ret (Ok ri) /\
      repeat_run ri sched = Ret (outs, ri') /\ length outs = length sched /\
      forall k, k < length sched ->
        exists r a p head item,
          nth_error ars (k mod length ars) = Some (r, a) /\
          power lo (k / length ars) p /\ composition start p head /\ composition head r item /\
          nth_error outs k = Some (Some (item, k mod length ars, a)).
Proof.
  intros A b s ars lo start sched H N V L. apply holds_brep in H.
  assert (Vs : vrow s start) by (split; auto). pose proof (brep_vrows _ _ _ _ H) as [F Vl].
  destruct (repeat_new_ok s ars lo b start H Vs) as (ri & E & R).
  destruct (repeat_run_ok s ars lo sched N ri start 0 R) as (outs & ri' & E2 & O).
  exists ri, outs, ri'. splits; auto.
  - rewrite O, map_length, seq_length. reflexivity.
  - intros k Hk. assert (La : length ars <> 0) by (destruct ars; [congruence|cbn; lia]).
    pose proof (Nat.mod_upper_bound k (length ars) La) as Hm.
    destruct (nth_error ars (k mod length ars)) as [[r a]|] eqn:Na; [|apply nth_error_None in Na; lia].
    assert (Vr : vrow s r). { rewrite Forall_forall in F. apply F. apply in_map_iff. exists (r, a). split; auto. eapply nth_error_In; eauto. }
    pose proof (vrow_rpow s lo (k / length ars) Vl) as Vp.
    assert (Vh : vrow s (rmul start (rpow lo (k / length ars)))) by (apply valid_rmul; auto).
    exists r, a, (rpow lo (k / length ars)), (rmul start (rpow lo (k / length ars))),
      (rmul (rmul start (rpow lo (k / length ars))) r). splits; auto.
    + apply (power_rpow s); auto.
    + apply (composition_vrow s); auto.
    + apply (composition_vrow s); auto.
    + rewrite O. rewrite nth_error_map, nth_error_seq. rewrite (proj2 (Nat.ltb_lt _ _)) by auto. cbn [option_map Nat.add].
      unfold item. rewrite Na. reflexivity.
Qed.

Lemma pf_C34_repeat_iter_empty_block :
  forall A (b : block A) s lo start sched out,
    block_holds b s [] lo -> valid_row start -> length start = s ->
    exists ri ri' ri'', repeat_iter_new start b = Ret (Ok ri) /\
      repeat_run ri sched = Ret (repeat None (length sched), ri') /\
      repeat_iter_next_into ri' out = Ret (None, out, ri'').
Proof.
  intros A b s lo start sched out H V L. apply holds_brep in H.
  destruct (repeat_new_ok s [] lo b start H) as (ri & E & R); [split; auto|].
  assert (K : forall (sc : list (option row)) (ri0 : repeat_iter A) h, ri_state s [] lo ri0 h 0 ->
    exists ri' h', repeat_run ri0 sc = Ret (repeat None (length sc), ri') /\ ri_state s [] lo ri' h' 0).
  { induction sc as [|c sc IH]; intros ri0 h H0; cbn [repeat_run length repeat]; eauto.
    destruct (next_untransposed_empty s lo ri0 h H0) as (ri1 & E1 & H1).
    destruct (IH ri1 _ H1) as (ri2 & h2 & E2 & H2). exists ri2, h2. split; [|exact H2].
    destruct c; [unfold repeat_iter_next_into|unfold repeat_iter_next]; rewrite E1; cbn [bind]; rewrite E2; reflexivity. }
  destruct (K sched ri start R) as (ri' & h' & E' & R').
  destruct (next_untransposed_empty s lo ri' h' R') as (ri2 & E2 & _).
  exists ri, ri', ri2. split; [exact E|split; [exact E'|]]. unfold repeat_iter_next_into. rewrite E2. reflexivity.
Qed.

Lemma pf_C34_repeat_iter_incompatible :
  forall A (b : block A) s ars lo start,
    block_holds b s ars lo -> valid_row start -> length start <> s ->
    repeat_iter_new start b = Ret (Err (IncompatibleStages (length start) s)).
Proof.
  intros A b s ars lo start H V N. apply holds_brep in H. eapply repeat_new_err; eauto.
Qed.

Lemma pf_C35_effective_stage :
  forall A (b : block A) s ars lo, block_holds b s ars lo ->
    let fixes n := forall r i x, In r (map fst ars ++ [lo]) -> n <= i -> nth_error r i = Some x -> x = i in
    exists e, block_effective_stage b = Ret e /\ 1 <= e /\ e <= s /\ fixes e /\
      (forall n, 1 <= n -> fixes n -> e <= n) /\
      (exists r, In r (map fst ars ++ [lo]) /\ effective_stage r = Ret e) /\
      (forall r er, In r (map fst ars ++ [lo]) -> effective_stage r = Ret er -> er <= e).
Proof.
  intros A b s ars lo H fixes. apply holds_brep in H.
  pose proof (all_rows_vrow _ _ _ _ H) as Fo. unfold all_rows_of in Fo. rewrite Forall_forall in Fo.
  destruct (brep_effective_stage s ars lo b H) as (e & E & (r & Hr & Er) & M). unfold all_rows_of in *.
  exists e. destruct (effective_stage_spec r) as (e' & Ee & G1 & G2 & G3 & G4).
  assert (e' = e) by congruence. subst e'. splits; auto.
  - destruct (Fo r Hr) as [Vr Lr]. rewrite <- Lr. apply G2. apply Vr.
  - intros r' i x Hr' Hi Hx. destruct (M r' Hr') as (e2 & E2 & Le).
    destruct (effective_stage_spec r') as (e3 & E3 & _ & _ & K3 & _). assert (e3 = e2) by congruence. subst e3.
    apply K3; auto. lia.
  - intros n Hn Hf. apply G4; auto. intros i x Hi Hx. apply (Hf r i x); auto.
  - eauto.
  - intros r' er Hr' Er'. destruct (M r' Hr') as (e2 & E2 & Le). congruence.
Qed.

Lemma pf_C26_block_paths :
  forall A (b : block A) s ars lo x, block_holds b s ars lo ->
    (x < s -> exists p l, block_path_of b x = Ret (Some (p, l)) /\
       block_full_path_of b x = Ret (Some (p ++ [l])) /\
       Forall2 (fun r i => forall j, nth_error r j = Some x <-> j = i) (map fst ars) p /\
       (forall j, nth_error lo j = Some x <-> j = l)) /\
    (s <= x -> block_path_of b x = Ret None /\ block_full_path_of b x = Ret None).
Proof.
  intros A b s ars lo x H. apply holds_brep in H. split.
  - intros Hx. destruct (brep_path s ars lo b x H Hx) as (p & l & E1 & E2 & F & N). exists p, l.
    apply brep_vrows in H as [Fr V]. splits; auto.
    + clear E1 E2. induction F as [|r i rs p Hr F IH]; constructor.
      * inversion Fr as [|? ? [Vr _] _]; subst. intros j. split; [|intros ->; auto].
        intros Hj. eapply NoDup_nth_error_inj; eauto. apply valid_row_NoDup, Vr.
      * inversion Fr; auto.
    + intros j. split; [|intros ->; auto]. intros Hj. eapply NoDup_nth_error_inj; eauto. apply valid_row_NoDup, V.
  - intros Hx. unfold block_path_of, block_full_path_of. erewrite ssv_path_none by (eauto; apply H). split; reflexivity.
Qed.

Lemma pf_C29_block_parse_rows :
  forall A (default : A) ended unfinished rs lo s,
    Forall no_line_feed ended -> no_line_feed unfinished ->
    Forall2 (fun l r => row_parse l = Ok r) (text_lines ended unfinished) (rs ++ [lo]) ->
    Forall (fun r => length r = s) (rs ++ [lo]) ->
    exists b, block_parse default (text_of ended unfinished) = Ret (Ok b) /\
      block_holds b s (map (fun r => (r, default)) rs) lo.
Proof.
  intros A d ended unf rs lo s He Hu F L.
  assert (N : text_lines ended unf <> []). { intros E. rewrite E in F. inversion F. destruct rs; discriminate. }
  destruct (pf_C29_parse_rows ended unf (rs ++ [lo]) s He Hu N F L) as (v & E & H).
  unfold block_parse. rewrite E. cbn [bind].
  assert (R : rep s (rs ++ [lo]) v) by (apply holds_rep; auto).
  erewrite ssv_is_empty_ok by eauto. rewrite app_length. cbn [length]. rewrite (proj2 (Nat.eqb_neq _ _)) by lia.
  destruct (with_default_ok s (rs ++ [lo]) v d R) as (b & Eb & Rb); [destruct rs; discriminate|].
  rewrite Eb. cbn [bind]. rewrite removelast_last, last_last in Rb. exists b. split; auto. apply brep_holds; auto.
Qed.

Lemma pf_C29_block_parse_errors :
  forall A (default : A) text,
    (forall e, ssv_parse text = Ret (Err e) -> block_parse default text = Ret (Err (BlockOther e))) /\
    block_parse default text <> Ret (Err ZeroLengthBlock) /\
    (text <> [] -> exists res, block_parse default text = Ret res).
Proof.
  intros A d text.
  assert (K : text <> [] -> (exists e, ssv_parse text = Ret (Err e)) \/
            exists v s rs, ssv_parse text = Ret (Ok v) /\ rep s rs v /\ rs <> []).
  { intros Nt. destruct (text_decompose text) as (e & u & -> & He & Hu).
    pose proof (lines_text e u He Hu) as E.
    assert (M : map strip_cr (text_lines e u) <> []).
    { unfold text_lines. destruct e; [|discriminate]. destruct u; [|discriminate]. exfalso; apply Nt; reflexivity. }
    destruct (ssv_parse_cases _ _ E M) as [(s' & rs' & v & Hs & F' & Fv & P & R)|(pre & l & post & rs' & e' & s' & El & Fp & P & C)].
    - right. exists v, s', rs'. splits; auto. intros ->. inversion F'. congruence.
    - left. eauto. }
  assert (C : text = [] \/ text <> []) by (destruct text; [auto|right; discriminate]).
  splits.
  - intros e E. unfold block_parse. rewrite E. reflexivity.
  - destruct C as [->|C]; [discriminate|]. unfold block_parse.
    destruct (K C) as [(e & ->)|(v & s & rs & -> & R & N)]; [cbn; discriminate|]. cbn [bind].
    erewrite ssv_is_empty_ok by eauto. destruct rs; [congruence|]. cbn [length Nat.eqb].
    destruct (with_default_ok s _ v d R N) as (b & -> & _). cbn. discriminate.
  - intros Nt. unfold block_parse.
    destruct (K Nt) as [(e & ->)|(v & s & rs & -> & R & N)]; [cbn; eauto|]. cbn [bind].
    erewrite ssv_is_empty_ok by eauto. destruct rs; [congruence|]. cbn [length Nat.eqb].
    destruct (with_default_ok s _ v d R N) as (b & -> & _). cbn. eauto.
Qed.

Lemma pf_C29_block_parse_empty_string_panics_refuted :
  forall A (default : A), block_parse default [] = Panic.
Proof. intros; reflexivity. Qed.
