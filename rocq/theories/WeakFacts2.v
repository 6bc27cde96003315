(** Whatever a program does, and in every build, its rows hold no bell beyond their stage: buffers,
    blocks, place notation, methods, programs. *)
From Verif Require Import Base Bell Stage Parity Row Utils SameStageVec Block PlaceNot Mask Class Method Program Machine
  Release Spec SpecVec SpecProg SpecRelease ListFacts BellFacts RowFacts MulFacts GroupFacts ParityFacts SsvFacts BlockFacts
  SafeFacts SafeFacts2 WeakFacts.
Local Open Scope list_scope.

(** ** Buffers *)

Definition wv (v : ssv) : Prop := lts (ssv_stage v) (ssv_bells v).

Section Buffers.
Context (bd : build).
Notation W := (2 ^ width bd)%N.
Definition small (v : ssv) : Prop := (N.of_nat (ssv_stage v) < W)%N.

Lemma W_pos : (0 < W)%N. Proof. apply N.neq_0_lt_0, N.pow_nonzero. discriminate. Qed.

Lemma safe_word n : safe (fun m => m = (n mod W)%N) (word bd n).
Proof.
  unfold word. destruct (N.ltb_spec n W); [cbn; rewrite N.mod_small; auto|]. destruct (checked bd); cbn; auto.
Qed.
Lemma safe_word_any n : safe any (word bd n).
Proof. eapply any_any, safe_word. Qed.
Lemma safe_word_sub a b : safe any (word_sub bd a b).
Proof. unfold word_sub. sgo. Qed.
Lemma safe_m_len v : safe any (m_ssv_len bd v).
Proof. unfold m_ssv_len. sgo. Qed.
Lemma safe_last_index v : safe any (r_last_index bd v).
Proof. unfold r_last_index. sstep; [apply safe_m_len|]. exact I. Qed.
Lemma safe_clamp lo hi n : safe any (m_clamp_range bd lo hi n).
Proof. unfold m_clamp_range. sstep; [destruct lo; try exact I; apply safe_word_any|]. sstep; [destruct hi; try exact I; apply safe_word_any|]. exact I. Qed.
Lemma safe_bell_range v lo hi : safe any (m_to_bell_range bd v lo hi).
Proof.
  unfold m_to_bell_range. sstep; [apply safe_m_len|]. sstep; [apply safe_clamp|]. destruct a0.
  sstep; [apply safe_word_any|]. sstep; [apply safe_word_any|]. exact I.
Qed.

Lemma slice_get_lts {l a b r} n : lts n l -> slice_get l a b = Some r -> lts n r.
Proof.
  intros F. unfold slice_get. destruct (_ && _)%bool; [|discriminate]. intros [= <-]. apply lts_firstn, lts_skipn; auto.
Qed.
Lemma slice_get_length {A} (l : list A) a b r : slice_get l a b = Some r ->
  length r = N.to_nat (b - a) /\ (a <= b)%N /\ (b <= N.of_nat (length l))%N.
Proof.
  unfold slice_get. destruct (N.leb_spec a b); [|discriminate]. destruct (N.leb_spec b (N.of_nat (length l))); [|discriminate].
  cbn. intros [= <-]. rewrite firstn_length, skipn_length. split; [lia|auto].
Qed.

Lemma w_range v i : small v ->
  safe (fun p => forall (l r : row), slice_get l (fst p) (snd p) = Some r ->
          length r = ssv_stage v /\ N.to_nat (snd p) = N.to_nat (fst p) + ssv_stage v) (m_range_of_row bd v i).
Proof.
  unfold small, m_range_of_row. intros Hs. pose proof W_pos as WP. set (s := N.of_nat (ssv_stage v)) in *.
  eapply safe_bind; [apply safe_word|]. intros a ->. eapply safe_bind; [apply safe_word|]. intros n ->.
  eapply safe_bind; [apply safe_word|]. intros b ->. cbn [safe fst snd]. intros l r E.
  assert (EB : (((i + 1) mod W * s) mod W = ((i * s) mod W + s) mod W)%N).
  { rewrite N.mul_mod_idemp_l by lia. rewrite N.add_mod_idemp_l by lia. f_equal. lia. }
  rewrite EB in *. set (a := ((i * s) mod W)%N) in *.
  assert (Ha : (a < W)%N) by (apply N.mod_lt; lia).
  apply slice_get_length in E as (L & Le & _).
  destruct (N.lt_ge_cases (a + s) W) as [C|C].
  - rewrite (N.mod_small (a + s)) in * by auto. subst s. split; lia.
  - exfalso. assert (E2 : ((a + s) mod W = a + s - W)%N).
    { replace (a + s)%N with (a + s - W + 1 * W)%N at 1 by lia. rewrite N.mod_add by lia. apply N.mod_small. lia. }
    rewrite E2 in Le. lia.
Qed.

Lemma w_m_get v i : small v -> wv v -> safe (okopt (wr (ssv_stage v))) (m_ssv_get bd v i).
Proof.
  intros Hs Hv. unfold m_ssv_get. eapply safe_bind; [apply w_range; auto|]. intros [a b] H. cbn [fst snd] in H. cbn.
  destruct (slice_get _ a b) as [r|] eqn:E; cbn; auto. split; [apply (H _ _ E)|]. eapply slice_get_lts; eauto.
Qed.

Lemma w_m_index v i : small v -> wv v -> safe (wr (ssv_stage v)) (m_ssv_index bd v i).
Proof.
  intros Hs Hv. unfold m_ssv_index. eapply safe_bind; [apply w_range; auto|]. intros [a b] H. cbn [fst snd] in H.
  apply safe_unwrap. destruct (slice_get _ a b) as [r|] eqn:E; cbn; auto. split; [apply (H _ _ E)|]. eapply slice_get_lts; eauto.
Qed.

Lemma w_m_edit v i f : small v -> wv v -> (forall r, wr (ssv_stage v) r -> safe (wr (length r)) (f r)) ->
  safe (okopt wv) (m_ssv_edit bd v i f).
Proof.
  intros Hs Hv Hf. unfold m_ssv_edit. eapply safe_bind; [apply w_range; auto|]. intros [a b] H. cbn [fst snd] in H.
  destruct (slice_get _ a b) as [r|] eqn:E; [|exact I].
  assert (Wr : wr (ssv_stage v) r) by (split; [apply (H _ _ E)|eapply slice_get_lts; eauto]).
  eapply safe_bind; [apply Hf; auto|]. intros r' [_ Fr']. cbn. unfold wv; cbn. rewrite (proj1 Wr) in Fr'.
  apply lts_app. split; [apply lts_firstn; auto|]. apply lts_app. split; auto. apply lts_skipn; auto.
Qed.

Lemma w_last v : small v -> wv v -> safe (okopt (wr (ssv_stage v))) (r_ssv_last bd v).
Proof. intros Hs Hv. unfold r_ssv_last. sstep; [apply safe_last_index|]. destruct a; [apply w_m_get; auto|exact I]. Qed.

Lemma w_edit_last v f : small v -> wv v -> (forall r, wr (ssv_stage v) r -> safe (wr (length r)) (f r)) ->
  safe (okopt wv) (r_ssv_edit_last bd v f).
Proof. intros Hs Hv Hf. unfold r_ssv_edit_last. sstep; [apply safe_last_index|]. destruct a; [apply w_m_edit; auto|exact I]. Qed.

Lemma safe_debug_assert b : safe any (debug_assert bd b).
Proof. unfold debug_assert. sgo. Qed.

Lemma w_pop v : wv v ->
  safe (fun p => wv (fst p) /\ ssv_stage (fst p) = ssv_stage v /\ okopt (wr (ssv_stage v)) (snd p)) (r_ssv_pop bd v).
Proof.
  intros Hv. unfold r_ssv_pop. destruct (Nat.ltb_spec (length (ssv_bells v)) (ssv_stage v)); [cbn; auto|].
  cbv zeta. sstep; [apply safe_debug_assert|]. cbn. unfold wv; cbn. splits; auto.
  - apply lts_firstn; auto.
  - split; [rewrite skipn_length; lia|apply lts_skipn; auto].
Qed.

Lemma w_split v i : wv v ->
  safe (okopt (fun p => wv (fst p) /\ wv (snd p) /\ ssv_stage (fst p) = ssv_stage v /\ ssv_stage (snd p) = ssv_stage v)) (m_ssv_split bd v i).
Proof.
  intros Hv. unfold m_ssv_split. sstep; [apply safe_word_any|]. cbn. destruct (_ <? _)%N; cbn; auto. unfold wv; cbn.
  splits; auto; [apply lts_firstn|apply lts_skipn]; auto.
Qed.

Lemma w_extend_range_transposed v t w lo hi : wv v -> wrow t ->
  safe (fun p => wv (fst p) /\ ssv_stage (fst p) = ssv_stage v) (m_ssv_extend_range_transposed bd v t w lo hi).
Proof.
  intros Hv Wt. unfold m_ssv_extend_range_transposed. eapply safe_bind; [apply safe_row_stage|]. intros ts [_ ->].
  destruct (test_err _ _) eqn:E; [|cbn; auto]. apply test_err_ok in E. eapply safe_bind; [apply safe_bell_range|]. intros [p q] _.
  sstep; [sgo|]. eapply safe_bind; [apply (w_mapM_idx (length t)); exact Wt|]. intros r [Fr _]. cbn. split; auto.
  unfold wv; cbn. apply lts_app. split; auto. rewrite E. exact Fr.
Qed.

Lemma w_from_within v t lo hi : wv v -> wrow t ->
  safe (okfst wv) (m_ssv_extend_transposed_from_within bd v lo hi t).
Proof.
  intros Hv Wt. unfold m_ssv_extend_transposed_from_within. eapply safe_bind; [apply safe_row_stage|]. intros ts [_ ->].
  destruct (test_err _ _) eqn:E; [|cbn; auto]. apply test_err_ok in E. eapply safe_bind; [apply safe_bell_range|]. intros [p q] _.
  eapply safe_bind with (P := lts (ssv_stage v)); [|intros bells F; exact F].
  apply (safe_foldM (lts (ssv_stage v))); [|exact Hv]. intros bells i F.
  sstep; [sgo|]. eapply safe_bind; [apply safe_idx|]. intros y Hy. cbn. apply lts_app. split; auto.
  constructor; [|constructor]. rewrite E. exact (lts_nth _ _ _ _ Wt Hy).
Qed.
End Buffers.

Lemma w_from_row_buf r : wrow r -> safe (fun v => wv v) (ssv_from_row_buf r).
Proof. intros V. unfold ssv_from_row_buf. eapply safe_bind; [apply safe_row_stage|]. intros s [_ ->]. exact V. Qed.

Lemma w_get0 v : wv v -> okopt (wr (ssv_stage v)) (ssv_get v 0).
Proof.
  intros Hv. unfold ssv_get, get_range_of_row. cbn [Nat.mul Nat.add]. rewrite Nat.add_0_r. cbn [skipn].
  destruct (Nat.leb_spec (ssv_stage v) (length (ssv_bells v))); cbn; auto. rewrite Nat.sub_0_r. split.
  - rewrite firstn_length. lia.
  - apply lts_firstn; auto.
Qed.

Lemma w_edit0 v f : wv v -> (forall r, wr (ssv_stage v) r -> safe (wr (length r)) (f r)) ->
  safe (okopt wv) (ssv_edit v 0 f).
Proof.
  intros Hv Hf. unfold ssv_edit. pose proof (w_get0 v Hv) as G. destruct (ssv_get v 0) as [r|]; [|exact I]. cbn in G.
  unfold get_range_of_row. eapply safe_bind; [apply Hf; auto|]. intros r' [_ Fr']. rewrite (proj1 G) in Fr'. cbn. unfold wv; cbn.
  apply lts_app. split; auto. apply lts_skipn; auto.
Qed.

Lemma w_push v r : wv v -> wrow r -> safe (okfst wv) (ssv_push v r).
Proof.
  intros Hv Wr. unfold ssv_push. eapply safe_bind; [apply safe_row_stage|]. intros s [_ ->].
  destruct (test_err _ _) eqn:E; [|exact Hv]. apply test_err_ok in E. cbn. unfold okfst, wv; cbn. apply lts_app. split; auto.
  rewrite E. exact Wr.
Qed.

Lemma w_extend_loop s rows : Forall wrow rows -> forall before bells, lts s bells ->
  safe (fun p => lts s (fst p)) (ssv_extend_loop s before bells rows).
Proof.
  induction 1 as [|r t Wr F IH]; intros before bells H; cbn [ssv_extend_loop]; [exact H|].
  eapply safe_bind; [apply safe_row_stage|]. intros rs [_ ->]. destruct (test_err _ _) eqn:E; [|cbn; apply lts_firstn; auto].
  apply test_err_ok in E. apply IH. apply lts_app. split; auto. rewrite E. exact Wr.
Qed.

Lemma w_extend v rows : wv v -> Forall wrow rows -> safe (okfst wv) (ssv_extend v rows).
Proof.
  intros Hv F. unfold ssv_extend. eapply safe_bind; [apply w_extend_loop; eauto|]. intros [bells res] H. exact H.
Qed.

Lemma wv_extend_from_buf v w : wv v -> wv w -> wv (fst (ssv_extend_from_buf v w)).
Proof.
  intros Hv Hw. unfold ssv_extend_from_buf. destruct (test_err _ _) eqn:E; [|exact Hv]. apply test_err_ok in E.
  cbn. unfold wv; cbn. apply lts_app. split; auto. rewrite E. exact Hw.
Qed.

Lemma w_pre_multiply v t : wv v -> wrow t -> safe (okfst wv) (ssv_pre_multiply v t).
Proof.
  intros Hv Wt. unfold ssv_pre_multiply. eapply safe_bind; [apply safe_row_stage|]. intros s [_ ->].
  destruct (test_err _ _) eqn:E; [|exact Hv]. apply test_err_ok in E.
  eapply safe_bind with (P := lts (ssv_stage v)); [|intros bells F; exact F].
  eapply (safe_mapM _ (fun b => b < ssv_stage v)); [|exact Hv]. intros b Hb. unfold idx_unchecked.
  destruct (nth_error t b) as [x|] eqn:N; cbn.
  - rewrite <- E. exact (lts_nth _ _ _ _ Wt N).
  - apply nth_error_None in N. lia.
Qed.

Lemma w_pre_multiplied bd v t : wrow t -> safe (okres wv) (r_ssv_pre_multiplied bd v t).
Proof.
  intros Wt. unfold r_ssv_pre_multiplied, r_ssv_extend_transposed.
  eapply safe_bind; [apply w_extend_range_transposed; auto; constructor|]. intros [n res] [Hn _]. destruct res; cbn; auto.
Qed.

Lemma w_ssv_parse s : safe (okres wv) (ssv_parse s).
Proof.
  eapply safe_imp; [apply safe_ssv_parse|]. intros [v|e]; cbn; auto. intros [rs H]. destruct H as (_ & _ & F & E).
  unfold wv. rewrite E. unfold lts. apply Forall_concat. eapply Forall_impl; [|exact F]. intros r Hr. apply vrow_wr in Hr. apply Hr.
Qed.

(** ** Iterators *)

Definition wi (it : ssv_iter) : Prop := lts (it_stage it) (it_left it).
Definition wrow_iter (s : nat) (p : option row * ssv_iter) : Prop :=
  okopt (wr s) (fst p) /\ wi (snd p) /\ it_stage (snd p) = s.

Lemma w_it_next it : wi it -> safe (wrow_iter (it_stage it)) (it_next it).
Proof.
  unfold wi. intros H. unfold it_next. destruct (it_left it) as [|x l] eqn:E.
  - cbn. unfold wrow_iter, wi; cbn. rewrite E. splits; auto.
  - rewrite <- E. rewrite <- E in H. unfold split_at. destruct (Nat.leb_spec (it_stage it) (length (it_left it))); [|exact I].
    cbn. unfold wrow_iter, wi; cbn. splits; auto; [split; [rewrite firstn_length; lia|apply lts_firstn; auto]|apply lts_skipn; auto].
Qed.

Lemma w_it_next_back it : wi it -> safe (wrow_iter (it_stage it)) (it_next_back it).
Proof.
  unfold wi. intros H. unfold it_next_back. destruct (it_left it) as [|x l] eqn:E.
  - cbn. unfold wrow_iter, wi; cbn. rewrite E. splits; auto.
  - rewrite <- E. rewrite <- E in H. unfold split_at, assert_. destruct (Nat.leb_spec (it_stage it) (length (it_left it))); [|exact I].
    cbn [bind]. destruct (_ <=? _); [|exact I]. cbn. unfold wrow_iter, wi; cbn.
    splits; auto; [split; [rewrite skipn_length; lia|apply lts_skipn; auto]|apply lts_firstn; auto].
Qed.

Lemma w_collect fuel : forall it, wi it -> safe (Forall (wr (it_stage it))) (it_collect fuel it).
Proof.
  induction fuel as [|fuel IH]; intros it H; cbn [it_collect]; [exact I|].
  eapply safe_bind; [apply w_it_next; auto|]. intros [o it'] (Ho & H' & E). cbn in *.
  destruct o as [r|]; [|cbn; auto]. eapply safe_bind; [apply IH; auto|]. intros rs F. cbn. rewrite E in F. auto.
Qed.

Lemma w_rows v : wv v -> safe (Forall (wr (ssv_stage v))) (ssv_rows v).
Proof. intros H. apply (w_collect _ (ssv_iterator v)). exact H. Qed.

Lemma w_path v b : wv v -> safe any (ssv_path_of v b).
Proof. intros H. unfold ssv_path_of. destruct (b <? _); [|exact I]. sstep; [eapply any_any, w_rows; auto|]. sgo. Qed.

(** ** Blocks *)

Section Blocks.
Context {A : Type} (bd : build) (limit : N).
Implicit Types (b : block A).

Definition wb (b : block A) : Prop := wv (blk_rows b).
Definition smallb (b : block A) : Prop := small bd (blk_rows b).

Lemma safe_with_capacity (l : list A) : safe any (with_capacity limit l).
Proof. unfold with_capacity. sgo. Qed.

Lemma w_with_default (d : A) v : wv v -> safe wb (r_with_default_annots bd limit d v).
Proof.
  intros H. unfold r_with_default_annots. sstep; [sgo|]. sstep; [apply safe_m_len|]. sstep; [apply safe_word_sub|].
  destruct (_ <=? _)%N; [exact H|exact I].
Qed.

Lemma w_from_indices v (f : nat -> A) : wv v -> safe (okopt wb) (r_with_annots_from_indices bd limit v f).
Proof.
  intros H. unfold r_with_annots_from_indices. sstep; [apply safe_last_index|]. destruct a; [|exact I].
  sstep; [apply safe_with_capacity|]. exact H.
Qed.

Lemma wb_of_ok b : okb b -> wb b.
Proof.
  intros [rs H]. destruct H as (_ & _ & F & E). unfold wb, wv. rewrite E. unfold lts. apply Forall_concat.
  eapply Forall_impl; [|exact F]. intros r Hr. apply vrow_wr in Hr. apply Hr.
Qed.

Lemma w_leftover b : smallb b -> wb b -> safe (wr (block_stage b)) (r_block_leftover_row bd b).
Proof.
  intros Hs H. unfold r_block_leftover_row. eapply safe_bind; [apply w_last; auto|]. intros o Ho. apply safe_unwrap; auto.
Qed.

Lemma w_rows_iter b : wb b -> safe (fun it => wi it /\ it_stage it = block_stage b) (block_rows_iter b).
Proof.
  intros H. unfold block_rows_iter. eapply safe_bind; [apply (w_it_next_back (ssv_iterator (blk_rows b))); exact H|].
  intros [o it] (_ & Hi & E). cbn in *. auto.
Qed.

Lemma w_block_rows b : wb b -> safe (Forall (wr (block_stage b))) (block_rows b).
Proof.
  intros H. unfold block_rows. eapply safe_bind; [apply w_rows_iter; auto|]. intros it [Hi E]. rewrite <- E.
  apply w_collect; auto.
Qed.

Lemma w_annot_rows b : wb b -> safe (fun l => Forall wrow (map fst l)) (block_annot_rows b).
Proof.
  intros H. unfold block_annot_rows. eapply safe_bind; [apply w_block_rows; auto|]. intros rs F.
  eapply safe_imp; [apply safe_zip_eq|]. intros r E. rewrite <- E. eauto using Forall_wrow.
Qed.

Lemma w_block_path b x : wb b -> safe any (block_path_of b x).
Proof. intros H. unfold block_path_of, block_full_path_of. sstep; [apply w_path; auto|]. sgo. Qed.

Lemma w_block_pre_multiply b t : wb b -> wrow t -> safe (okfst wb) (block_pre_multiply b t).
Proof.
  intros H V. unfold block_pre_multiply. eapply safe_bind; [apply w_pre_multiply; auto|]. intros [v r] Hv. exact Hv.
Qed.

Lemma w_block_extend_range b o lo hi : smallb b -> smallb o -> wb b -> wb o ->
  safe (okfst wb) (r_block_extend_range bd limit b o lo hi).
Proof.
  intros Sb So Hb Ho. unfold r_block_extend_range. eapply safe_bind; [apply safe_clamp|]. intros [start end_] _.
  eapply safe_bind; [apply w_m_get; auto|]. intros x Hx. eapply safe_bind; [apply safe_unwrap, Hx|]. intros first Vf.
  eapply safe_bind; [apply w_leftover; auto|]. intros lft Vl.
  eapply safe_bind; [apply w_solve_xa; eapply wr_wrow, Vl|]. intros [t|e] Ht; [|exact Hb].
  eapply safe_bind; [apply w_pop; auto|]. intros [rows y] (Hr & Es & _). cbn in *.
  sstep; [apply safe_word_any|].
  eapply safe_bind; [apply w_extend_range_transposed; auto; eapply wr_wrow, Ht|].
  intros [rows' res] [Hr' _]. sstep; [sgo|]. sstep; [apply safe_with_capacity|]. exact Hr'.
Qed.

Lemma w_block_extend_from_within b lo hi : smallb b -> wb b -> safe (fun c => wb c /\ block_stage c = block_stage b)
  (r_block_extend_from_within bd limit b lo hi).
Proof.
  intros Sb Hb. unfold r_block_extend_from_within. eapply safe_bind; [apply safe_clamp|]. intros [start end_] _.
  eapply safe_bind; [apply w_m_get; auto|]. intros x Hx. eapply safe_bind; [apply safe_unwrap, Hx|]. intros first Vf.
  eapply safe_bind; [apply w_leftover; auto|]. intros lft Vl.
  eapply safe_bind; [apply w_solve_xa; eapply wr_wrow, Vl|]. intros t Ht.
  eapply safe_bind; [apply safe_unwrap_res, Ht|]. intros t' Vt.
  sstep; [apply safe_word_any|]. sstep; [apply safe_word_any|].
  eapply safe_bind with (P := fun p => wv (fst p) /\ ssv_stage (fst p) = ssv_stage (blk_rows b)).
  - pose proof (w_from_within bd (blk_rows b) t' (MIncluded a) (MExcluded a0) Hb (wr_wrow _ _ Vt)) as S.
    unfold m_ssv_extend_transposed_from_within in *. destruct (row_stage t'); cbn [bind] in *; auto.
    destruct (test_err _ _); cbn [bind safe] in *; auto.
    destruct (m_to_bell_range _ _ _ _) as [[u w]| | |]; cbn [bind safe] in *; auto.
    destruct (foldM _ _ _); cbn [bind safe] in *; auto.
  - intros [rows res] [Hr Es]. sstep; [sgo|]. sstep; [sgo|]. sstep; [apply safe_with_capacity|]. cbn. split; auto.
Qed.

Lemma w_block_split b i : smallb b -> wb b -> safe (okopt (fun p => wb (fst p) /\ wb (snd p))) (r_block_split bd b i).
Proof.
  intros Sb Hb. unfold r_block_split. destruct (_ <? _)%N; [exact I|]. cbv zeta.
  eapply safe_bind; [apply w_split; exact Hb|]. intros [[v1 v2]|] S; [|exact I].
  destruct S as (H1 & H2 & E1 & E2). cbn in H1, H2, E1, E2.
  eapply safe_bind; [apply w_m_get; [unfold small; rewrite E2; exact Sb|exact H2]|]. intros o Ho.
  eapply safe_bind; [apply safe_unwrap, Ho|]. intros r Vr.
  eapply safe_bind; [apply w_push; [auto|eapply wr_wrow, Vr]|]. intros [v1' res] H1'. sstep; [sgo|]. cbn. auto.
Qed.

Lemma wb_set_annot b i x : wb b -> okopt wb (block_set_annot b i x).
Proof. intros H. unfold block_set_annot. destruct (nth_error _ i); cbn; auto. Qed.

(** ** [RepeatIter] *)

Definition wri (ri : repeat_iter A) : Prop :=
  wrow (ri_head ri) /\ wi (ii_rows (ri_iter ri)) /\ wb (ri_block ri).

Lemma w_get_iter b : wb b -> safe (fun it => wi (ii_rows it)) (get_iter b).
Proof. intros H. unfold get_iter. eapply safe_bind; [apply w_rows_iter; auto|]. intros it [Hi _]. exact Hi. Qed.

Lemma w_repeat_new r b : wrow r -> wb b -> safe (okres wri) (repeat_iter_new r b).
Proof.
  intros V H. unfold repeat_iter_new. sstep; [sgo|]. destruct (test_err _ _); [|exact I].
  eapply safe_bind; [apply w_get_iter; auto|]. intros it Hi. cbn. unfold wri; cbn; auto.
Qed.

Definition witem (p : option (nat * (row * A)) * inner_iter A) : Prop :=
  okopt (fun x => wrow (fst (snd x))) (fst p) /\ wi (ii_rows (snd p)).

Lemma w_ii_next (it : inner_iter A) : wi (ii_rows it) -> safe witem (ii_next it).
Proof.
  intros H. unfold ii_next. eapply safe_bind; [apply w_it_next; auto|]. intros [o rows'] (Ho & Hr & _). cbn in Ho, Hr.
  destruct o as [r|]; destruct (ii_annots it); try exact I; cbn; unfold witem; cbn; auto.
  split; auto. eapply wr_wrow, Ho.
Qed.

Lemma w_next_untransposed ri : smallb (ri_block ri) -> wri ri ->
  safe (fun p => okopt (fun x => wrow (fst (snd x))) (fst p) /\ wri (snd p)) (r_next_untransposed_row bd ri).
Proof.
  intros Sb (Vh & Hi & Hb). unfold r_next_untransposed_row. eapply safe_bind; [apply w_ii_next; auto|].
  intros [o it] [Ho Hit]. cbn in Ho, Hit. destruct o as [x|].
  - cbn. unfold wri; cbn. auto.
  - eapply safe_bind; [apply w_leftover; auto|]. intros l Vl.
    eapply safe_bind; [apply w_row_mul; auto|]. intros h Vh'.
    eapply safe_bind; [apply w_get_iter; auto|]. intros it' Hit'.
    eapply safe_bind; [apply w_ii_next; auto|]. intros [o' it''] [Ho' Hit'']. cbn. unfold wri; cbn.
    splits; auto. eapply wr_wrow, Vh'.
Qed.

Lemma w_repeat_next ri : smallb (ri_block ri) -> wri ri ->
  safe (fun p => okopt (fun x => wrow (fst (fst x))) (fst p) /\ wri (snd p)) (r_repeat_iter_next bd ri).
Proof.
  intros Sb H. unfold r_repeat_iter_next. eapply safe_bind; [apply w_next_untransposed; auto|].
  intros [o ri'] [Ho Hri]. cbn in Ho, Hri. destruct o as [[i [r a]]|]; [|cbn; auto]. cbn in Ho.
  eapply safe_bind; [apply w_row_mul; apply Hri|]. intros x Vx. cbn. split; auto. eapply wr_wrow, Vx.
Qed.

Lemma w_repeat_next_into ri out : smallb (ri_block ri) -> wri ri -> wrow out ->
  safe (fun p => wrow (snd (fst p)) /\ wri (snd p)) (r_repeat_iter_next_into bd ri out).
Proof.
  intros Sb H V. unfold r_repeat_iter_next_into. eapply safe_bind; [apply w_next_untransposed; auto|].
  intros [o ri'] [Ho Hri]. cbn in Ho, Hri. destruct o as [[i [r a]]|]; [|cbn; auto]. cbn in Ho.
  eapply safe_bind; [apply w_mul_into; [apply Hri|auto]|]. intros [out' res] Vo. sstep; [sgo|]. cbn. auto.
Qed.
End Blocks.
