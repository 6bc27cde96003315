(** Where everything fits into the words of the machine, [Release] does exactly what [Program] does. *)
From Verif Require Import Base Bell Stage Row Utils SameStageVec Block PlaceNot Mask Class Method Program Machine Release
  Spec SpecVec SpecProg SpecMachine SpecRelease ListFacts BellFacts RowFacts SsvFacts BlockFacts SafeFacts SafeFacts2 MachineFacts
  ReleaseFacts.
From Verif Require Call.
Local Open Scope list_scope.

Section Build.
Context (bd : build) (limit : N).
Notation w := (width bd).

(** A good buffer which fits. *)
Definition fitv (v : ssv) : Prop := okv v /\ (N.of_nat (length (ssv_bells v)) < 2 ^ w)%N.

(** ** Buffers *)

Lemma q_last_index v : okv v ->
  r_last_index bd v = (n <- ssv_len v;; Ret (match n with O => None | S i => Some (N.of_nat i) end)).
Proof.
  intros V. unfold r_last_index. rewrite (proj1 (ref_len bd True v (fun _ => V)) I).
  destruct (ssv_len v) as [n| | |]; cbn [bind]; auto. destruct n; auto.
  replace (N.of_nat (S n) =? 0)%N with false by (symmetry; apply N.eqb_neq; lia). do 2 f_equal. lia.
Qed.

Lemma last_fits v i : fitv v -> ssv_len v = Ret (S i) -> (N.of_nat ((i + 1) * ssv_stage v) < 2 ^ w)%N /\ 0 < ssv_stage v.
Proof.
  intros [V M] E. pose proof (okv_pos _ V). pose proof (okv_len_stage _ _ V E) as L. split; auto.
  replace ((i + 1) * ssv_stage v) with (length (ssv_bells v)) by (rewrite <- L; f_equal; lia). exact M.
Qed.

Lemma q_last v : fitv v -> r_ssv_last bd v = ssv_last v.
Proof.
  intros V. unfold r_ssv_last, ssv_last. rewrite (q_last_index v (proj1 V)).
  destruct (ssv_len v) as [[|i]| | |] eqn:E; cbn [bind]; auto.
  apply (proj1 (ref_get bd True v i (fun _ => last_fits v i V E)) I).
Qed.

Lemma q_edit_last v f : fitv v -> r_ssv_edit_last bd v f = ssv_edit_last v f.
Proof.
  intros V. unfold r_ssv_edit_last, ssv_edit_last. rewrite (q_last_index v (proj1 V)).
  destruct (ssv_len v) as [[|i]| | |] eqn:E; cbn [bind]; auto.
  apply (proj1 (ref_edit bd True v i f (fun _ => last_fits v i V E)) I).
Qed.

Lemma q_pop v : okv v -> r_ssv_pop bd v = ssv_pop v.
Proof.
  intros V. pose proof (okv_pos _ V) as P. unfold r_ssv_pop, ssv_pop. destruct (Nat.ltb_spec (length (ssv_bells v)) (ssv_stage v)) as [L|L]; auto.
  cbv zeta. destruct V as [rs R]. pose proof (rep_length _ _ _ R) as E.
  replace (ssv_stage v =? 0) with false by (symmetry; apply Nat.eqb_neq; lia). cbn [negb andb].
  assert ((length (ssv_bells v) - ssv_stage v) mod ssv_stage v = 0) as M.
  { rewrite E. replace (length rs * ssv_stage v - ssv_stage v) with ((length rs - 1) * ssv_stage v) by nia. apply Nat.mod_mul. lia. }
  rewrite M. unfold debug_assert. destruct (checked bd); reflexivity.
Qed.

Lemma q_extend_transposed v t o : fitv o -> r_ssv_extend_transposed bd v t o = ssv_extend_transposed v t o.
Proof.
  intros [V M]. apply (proj1 (ref_extend_range bd True v t o Unbounded Unbounded ltac:(intros _; cbn; auto)) I).
Qed.

Lemma q_pre_multiplied v t : fitv v -> r_ssv_pre_multiplied bd v t = ssv_pre_multiplied v t.
Proof. intros V. unfold r_ssv_pre_multiplied, ssv_pre_multiplied. rewrite q_extend_transposed; auto. Qed.

(** ** Blocks *)
Section Blk.
Context {A : Type}.
Implicit Types b : block A.

Lemma q_with_default (d : A) v : okv v ->
  (forall b, with_default_annots d v = Ret b -> (N.of_nat (block_len b) <= limit)%N) ->
  r_with_default_annots bd limit d v = with_default_annots d v.
Proof.
  intros V H. unfold r_with_default_annots, with_default_annots in *. destruct (ssv_is_empty v) eqn:E; cbn [negb assert_ bind] in *; auto.
  rewrite (proj1 (ref_len bd True v (fun _ => V)) I). destruct V as [rs R]. rewrite (ssv_len_ok _ _ _ R) in *. cbn [bind] in *.
  specialize (H _ eq_refl). unfold block_len in H; cbn in H. rewrite repeat_length in H.
  assert (length rs <> 0) as Z.
  { intros Z. pose proof (rep_length _ _ _ R) as L. rewrite Z in L. unfold ssv_is_empty in E. destruct (ssv_bells v); discriminate. }
  unfold word_sub. replace (1 <=? N.of_nat (length rs))%N with true by (symmetry; apply N.leb_le; lia). cbn [bind].
  replace (N.of_nat (length rs) - 1)%N with (N.of_nat (length rs - 1)) by lia. rewrite Nat2N.id.
  apply N.leb_le in H. rewrite H. reflexivity.
Qed.

Lemma q_capacity (l : list A) : (N.of_nat (length l) <= limit)%N -> with_capacity limit l = Ret l.
Proof. intros H. unfold with_capacity. apply N.leb_le in H. rewrite H. reflexivity. Qed.

Lemma q_from_indices v (f : nat -> A) : okv v ->
  (forall b, with_annots_from_indices v f = Ret (Some b) -> (N.of_nat (block_len b) <= limit)%N) ->
  r_with_annots_from_indices bd limit v f = with_annots_from_indices v f.
Proof.
  intros V H. unfold r_with_annots_from_indices, with_annots_from_indices in *. rewrite (q_last_index v V).
  destruct (ssv_len v) as [[|i]| | |] eqn:E; cbn [bind] in *; auto.
  specialize (H _ eq_refl). unfold block_len in H; cbn [blk_annots] in H. rewrite Nat2N.id, q_capacity; auto.
Qed.

Lemma q_leftover b : fitv (blk_rows b) -> r_block_leftover_row bd b = block_leftover_row b.
Proof. intros V. unfold r_block_leftover_row, block_leftover_row. rewrite q_last; auto. Qed.

Lemma q_extend_range_m b other lo hi : fitv (blk_rows b) ->
  r_block_extend_range bd limit b other lo hi =
  ('(b', res) <- m_block_extend_range bd b other lo hi;;
   match res with
   | Ok _ => annots <- with_capacity limit (blk_annots b');; Ret (Block (blk_rows b') annots, Ok tt)
   | Err e => Ret (b', Err e)
   end).
Proof.
  intros V. unfold r_block_extend_range, m_block_extend_range. rewrite (q_leftover b V), (q_pop _ (proj1 V)).
  destruct (m_clamp_range bd lo hi _) as [[start end_]| | |]; cbn [bind]; auto.
  destruct (m_block_get_row bd other start) as [o| | |]; cbn [bind]; auto.
  destruct (unwrap o) as [first| | |]; cbn [bind]; auto.
  destruct (block_leftover_row b) as [leftover| | |]; cbn [bind]; auto.
  destruct (solve_xa_equals_b first leftover) as [[t|e]| | |]; cbn [bind]; auto.
  destruct (ssv_pop (blk_rows b)) as [[rows q]| | |]; cbn [bind]; auto.
  destruct (word bd (end_ + 1)) as [e1| | |]; cbn [bind]; auto.
  destruct (m_ssv_extend_range_transposed bd rows t _ _ _) as [[rows' res]| | |]; cbn [bind]; auto.
  destruct (unwrap_res res); cbn [bind]; auto.
Qed.

Lemma q_from_within_m b lo hi : fitv (blk_rows b) ->
  r_block_extend_from_within bd limit b lo hi =
  (b' <- m_block_extend_from_within bd b lo hi;; annots <- with_capacity limit (blk_annots b');; Ret (Block (blk_rows b') annots)).
Proof.
  intros V. unfold r_block_extend_from_within, m_block_extend_from_within. rewrite (q_leftover b V).
  destruct (m_clamp_range bd lo hi _) as [[start end_]| | |]; cbn [bind]; auto.
  destruct (m_block_get_row bd b start) as [o| | |]; cbn [bind]; auto.
  destruct (unwrap o) as [first| | |]; cbn [bind]; auto.
  destruct (block_leftover_row b) as [leftover| | |]; cbn [bind]; auto.
  destruct (solve_xa_equals_b first leftover) as [t| | |]; cbn [bind]; auto.
  destruct (unwrap_res t) as [t'| | |]; cbn [bind]; auto.
  destruct (word bd (start + 1)) as [s1| | |]; cbn [bind]; auto.
  destruct (word bd (end_ + 1)) as [e1| | |]; cbn [bind]; auto.
  destruct (m_ssv_extend_transposed_from_within bd _ _ _ t') as [[rows res]| | |]; cbn [bind]; auto.
  destruct (unwrap_res res); cbn [bind]; auto.
  destruct (unwrap (slice_get _ start end_)); cbn [bind]; auto.
Qed.

Lemma q_extend_range b other lo hi : fitv (blk_rows b) -> fitv (blk_rows other) ->
  range_fits bd (blk_rows other) (block_len other) lo hi ->
  (forall b' u, block_extend_range b other lo hi = Ret (b', Ok u) -> (N.of_nat (block_len b') <= limit)%N) ->
  r_block_extend_range bd limit b other (to_bound lo) (to_bound hi) = block_extend_range b other lo hi.
Proof.
  intros V V' R H. rewrite q_extend_range_m by auto.
  rewrite (proj1 (ref_block_extend_range bd True b other lo hi ltac:(intros _; destruct V'; auto)) I).
  destruct (block_extend_range b other lo hi) as [[b' [[]|e]]| | |] eqn:E; cbn [bind]; auto.
  rewrite q_capacity by (apply (H b' tt eq_refl)). cbn [bind]. destruct b'; reflexivity.
Qed.

Lemma q_from_within b lo hi : fitv (blk_rows b) -> range_fits bd (blk_rows b) (block_len b) lo hi ->
  (forall b', block_extend_from_within b lo hi = Ret b' -> (N.of_nat (block_len b') <= limit)%N) ->
  r_block_extend_from_within bd limit b (to_bound lo) (to_bound hi) = block_extend_from_within b lo hi.
Proof.
  intros V R H. rewrite q_from_within_m by auto.
  rewrite (proj1 (ref_block_from_within bd True b lo hi ltac:(intros _; destruct V; auto)) I).
  destruct (block_extend_from_within b lo hi) as [b'| | |] eqn:E; cbn [bind]; auto.
  rewrite q_capacity by (apply (H b' eq_refl)). cbn [bind]. destruct b'; reflexivity.
Qed.

Lemma q_split b i : okv (blk_rows b) -> (N.of_nat ((block_len b + 1) * block_stage b) < 2 ^ w)%N ->
  r_block_split bd b (N.of_nat i) = block_split b i.
Proof.
  intros V M. pose proof (okv_pos _ V) as P. unfold block_stage, block_len in M.
  unfold r_block_split, block_split, split_vec.
  replace (N.of_nat (length (blk_annots b)) <? N.of_nat i)%N with (length (blk_annots b) <? i)
    by (destruct (Nat.ltb_spec (length (blk_annots b)) i), (N.ltb_spec (N.of_nat (length (blk_annots b))) (N.of_nat i)); auto; lia).
  destruct (Nat.ltb_spec (length (blk_annots b)) i) as [L|L]; auto. cbv zeta. rewrite Nat2N.id.
  rewrite (proj1 (ref_split bd True (blk_rows b) i ltac:(intros _; nia)) I). cbn [bind].
  destruct (ssv_split (blk_rows b) i) as [[v1 v2]|] eqn:E; auto. rewrite <- bind_bind.
  assert (ssv_stage v2 = ssv_stage (blk_rows b)) as S2.
  { unfold ssv_split in E. destruct (split_vec _ _) as [[l r]|]; [|discriminate]. injection E as <- <-. reflexivity. }
  assert (o <- m_ssv_get bd v2 0;; unwrap o = unwrap (ssv_first v2)) as ->; [|reflexivity].
  apply (proj1 (ref_unwrap_get bd True v2 0 ltac:(intros _; rewrite S2; split; [nia|auto])) I).
Qed.

Lemma q_next_untransposed (ri : repeat_iter A) : fitv (blk_rows (ri_block ri)) -> r_next_untransposed_row bd ri = next_untransposed_row ri.
Proof. intros V. unfold r_next_untransposed_row, next_untransposed_row. rewrite q_leftover by auto. reflexivity. Qed.
Lemma q_repeat_next (ri : repeat_iter A) : fitv (blk_rows (ri_block ri)) -> r_repeat_iter_next bd ri = repeat_iter_next ri.
Proof. intros V. unfold r_repeat_iter_next, repeat_iter_next. rewrite q_next_untransposed by auto. reflexivity. Qed.
Lemma q_repeat_next_into (ri : repeat_iter A) out : fitv (blk_rows (ri_block ri)) -> r_repeat_iter_next_into bd ri out = repeat_iter_next_into ri out.
Proof. intros V. unfold r_repeat_iter_next_into, repeat_iter_next_into. rewrite q_next_untransposed by auto. reflexivity. Qed.
End Blk.

(** ** Methods *)

Lemma q_row_in_course m i : fitv (blk_rows (first_lead m)) ->
  (N.of_nat ((block_len (first_lead m) + 1) * block_stage (first_lead m)) < 2 ^ w)%N ->
  r_row_in_plain_course bd m (N.of_nat i) = row_in_plain_course m i.
Proof.
  intros V M. unfold r_row_in_plain_course, row_in_plain_course. cbv zeta.
  replace (N.of_nat (lead_len m) =? 0)%N with (lead_len m =? 0)
    by (destruct (Nat.eqb_spec (lead_len m) 0), (N.eqb_spec (N.of_nat (lead_len m)) 0); auto; lia).
  destruct (Nat.eqb_spec (lead_len m) 0) as [Z|Z]; cbn [negb assert_ bind]; auto.
  unfold r_lead_head, lead_head. rewrite q_leftover by auto.
  rewrite <- Nat2N.inj_div, <- Nat2N.inj_mod, Nat2N.id.
  assert (m_row_in_plain_lead bd m (N.of_nat (i mod lead_len m)) = row_in_plain_lead m (i mod lead_len m)) as E.
  { apply (ref_index bd True); auto. intros _. destruct V as [V _]. split; [|apply okv_pos; auto].
    pose proof (Nat.mod_upper_bound i (lead_len m) Z) as U. unfold lead_len in *. unfold block_stage in M. nia. }
  rewrite E. reflexivity.
Qed.

(** How much a block grows from within. *)
Lemma fold_grow (t : row) l : forall b0 b1,
  foldM (fun bells i => x <- idx bells i;; y <- idx t x;; Ret (bells ++ [y])) l b0 = Ret b1 -> length b1 = length b0 + length l.
Proof.
  induction l as [|i l IH]; intros b0 b1 E; cbn [foldM] in E; [injection E as <-; cbn; lia|].
  destruct (idx b0 i) as [x| | |]; cbn [bind] in E; try discriminate.
  destruct (idx t x) as [y| | |]; cbn [bind] in E; try discriminate.
  apply IH in E. rewrite app_length in E. cbn in *. lia.
Qed.

Lemma grow_within {A} (b b' : block A) len : block_extend_from_within b (Included 0) (Excluded len) = Ret b' ->
  length (ssv_bells (blk_rows b')) = length (ssv_bells (blk_rows b)) + len * block_stage b /\
  block_len b' = block_len b + len /\ block_stage b' = block_stage b.
Proof.
  unfold block_extend_from_within, clamp_range. intros E.
  destruct (unwrap (block_get_row b 0)) as [first| | |]; cbn [bind] in E; try discriminate.
  destruct (block_leftover_row b) as [l| | |]; cbn [bind] in E; try discriminate.
  destruct (solve_xa_equals_b first l) as [t| | |]; cbn [bind] in E; try discriminate.
  destruct (unwrap_res t) as [t'| | |]; cbn [bind] in E; try discriminate.
  destruct (ssv_extend_transposed_from_within _ _ _ t') as [[rows res]| | |] eqn:X; cbn [bind] in E; try discriminate.
  destruct res as [u|e]; cbn [unwrap_res bind] in E; try discriminate.
  unfold slice in E. destruct (_ && _) eqn:L; cbn [bind] in E; try discriminate.
  apply andb_prop in L. destruct L as [_ L]. apply Nat.leb_le in L.
  injection E as <-. unfold block_len, block_stage; cbn [blk_rows blk_annots].
  unfold ssv_extend_transposed_from_within in X.
  destruct (row_stage t') as [s| | |]; cbn [bind] in X; try discriminate.
  destruct (test_err _ _); try discriminate.
  unfold to_bell_range, clamp_range in X. destruct (ssv_len (blk_rows b)) as [n| | |]; cbn [bind] in X; try discriminate.
  match type of X with bind ?f _ = _ => destruct f as [bells| | |] eqn:F; cbn [bind] in X; try discriminate end.
  injection X as <-. cbn [ssv_bells ssv_stage]. apply fold_grow in F.
  rewrite F. unfold range. rewrite seq_length, app_length, Nat.sub_0_r, firstn_length. cbn [skipn]. splits; auto; nia.
Qed.

Lemma q_course_loop len : forall fuel (b : block row_annot), okv (blk_rows b) -> len <= block_len b ->
  (N.of_nat (length (ssv_bells (blk_rows b)) + fuel * len * block_stage b) < 2 ^ w)%N ->
  (N.of_nat ((block_len b + fuel * len + 2) * block_stage b) < 2 ^ w)%N ->
  (N.of_nat (block_len b + fuel * len) <= limit)%N ->
  r_plain_course_loop bd limit fuel (N.of_nat len) b = plain_course_loop fuel len b.
Proof.
  induction fuel as [|fuel IH]; intros b V Hl H1 H2 H3; cbn [r_plain_course_loop plain_course_loop]; auto.
  assert (fitv (blk_rows b)) as FV by (split; auto; nia).
  rewrite q_leftover by auto. destruct (block_leftover_row b) as [l| | |]; cbn [bind]; auto.
  destruct (is_rounds l); auto.
  change (MIncluded 0) with (to_bound (Included 0)). change (MExcluded (N.of_nat len)) with (to_bound (Excluded len)).
  rewrite q_from_within; auto.
  - pose proof (safe_block_extend_from_within b (Included 0) (Excluded len) V) as SF.
    destruct (block_extend_from_within b (Included 0) (Excluded len)) as [b'| | |] eqn:E; cbn [bind]; auto.
    destruct (grow_within _ _ _ E) as (G1 & G2 & G3). apply IH; auto; rewrite ?G1, ?G2, ?G3; nia.
  - unfold block_stage in *. split; [|nia]. intros i [<-|[<-|[]]]; nia.
  - intros b' E. destruct (grow_within _ _ _ E) as (G1 & G2 & G3). nia.
Qed.

Lemma map_index_len {A B} (b : block A) (f : nat -> A -> B) : block_len (block_map_annots_with_index b f) = block_len b.
Proof. unfold block_len, block_map_annots_with_index. cbn. rewrite map_length. apply length_enumerate_from. Qed.

(** ** Programs *)

Ltac here S v := lazymatch goal with E : nth_error _ v = Some ?x |- _ =>
  let K := fresh "K" in let I := fresh "I" in pose proof (nth_error_In _ _ E) as I; pose proof (proj1 (Forall_forall _ _) S _ I) as K; cbn in K end.

Lemma q_step ho st c : Forall okval st -> fits w st c -> roomy w limit st -> room_for_course w limit st c ->
  (forall st', step ho st c = Ret st' -> roomy w limit st') ->
  r_step bd limit ho st c = step ho st c.
Proof.
  intros S F [R1 R2] C P.
  assert (M : m_step bd ho st c = step ho st c).
  { apply ref_step; auto. intros i e ->. destruct F as (_ & _ & _ & F). specialize (F _ _ eq_refl). unfold isize. lia. }
  assert (FV : forall i v, nth_error st i = Some (VVec v) -> fitv v).
  { intros i v E. here S i. split; auto. }
  assert (FB : forall i v b, nth_error st i = Some v -> block_of v = Some b -> fitv (blk_rows b) /\
     (N.of_nat ((block_len b + 1) * block_stage b) < 2 ^ w)%N).
  { intros i v b E Eb. here S i. destruct (R2 _ _ I Eb) as (? & ? & ?). split; [split|]; auto.
    destruct v; try discriminate; injection Eb as <-; cbn in K; auto; apply K. }
  assert (PB : forall st' v b, step ho st c = Ret st' -> In v st' -> block_of v = Some b -> (N.of_nat (block_len b) <= limit)%N).
  { intros st' v b E I Eb. apply (proj2 (P _ E) v b I Eb). }
  assert (PU : forall i x v, nth_error st i = Some x -> In v (upd st i v)).
  { intros i x v E. apply nth_error_In with (n := i). apply nth_error_upd_same.
    apply nth_error_Some. rewrite E. discriminate. }
  destruct c; try exact M; cbn [r_step step] in *.
  - destruct p; try exact M. cbn [r_step step]. unfold with_vec. destruct (nth_error st i) as [[]|] eqn:E; auto.
    rewrite q_edit_last by eauto. reflexivity.
  - unfold with_vec. destruct (nth_error st v) as [[]|] eqn:E; auto. rewrite q_last by eauto. reflexivity.
  - unfold with_vec. destruct (nth_error st v) as [[]|] eqn:E; auto. rewrite q_pop by (eapply FV; eauto). reflexivity.
  - unfold with_vec, with_row. destruct (nth_error st v) as [[]|] eqn:E; auto. destruct (nth_error st i) as [[]|] eqn:E1; auto.
    match goal with |- context [nth_error st ?j] => destruct (nth_error st j) as [[]|] eqn:E2; auto end.
    rewrite q_extend_transposed by eauto. reflexivity.
  - unfold with_vec, with_row. destruct (nth_error st v) as [[]|] eqn:E; auto. destruct (nth_error st i) as [[]|] eqn:E1; auto.
    rewrite q_pre_multiplied by eauto. reflexivity.
  - unfold with_vec in *. destruct (nth_error st v) as [[]|] eqn:E; auto. rewrite q_with_default; [reflexivity|eapply FV; eauto|].
    intros b Eb. rewrite Eb in PB. cbn [bind] in PB. eapply (PB _ (VBlock _)); [reflexivity| |reflexivity]. apply in_or_app; right; left; auto.
  - unfold with_vec in *. destruct (nth_error st v) as [[]|] eqn:E; auto. rewrite q_from_indices; [reflexivity|eapply FV; eauto|].
    intros b Eb. rewrite Eb in PB. cbn [bind] in PB. eapply (PB _ (VBlock _)); [reflexivity| |reflexivity]. apply in_or_app; right; left; auto.
  - unfold with_block. destruct (nth_error st b) as [[]|] eqn:E; auto. rewrite q_leftover by (apply (FB _ _ _ E eq_refl)). reflexivity.
  - unfold with_block in *. destruct (nth_error st b) as [[]|] eqn:E; auto.
    match goal with |- context [nth_error st ?j] => destruct (nth_error st j) as [[]|] eqn:E2; auto end.
    unfold r_block_extend. change MUnbounded with (to_bound Unbounded).
    destruct (FB _ _ _ E eq_refl) as [X1 X2]. destruct (FB _ _ _ E2 eq_refl) as [Y1 Y2].
    rewrite q_extend_range; [reflexivity|exact X1|exact Y1| |].
    + split; [intros ? []|exact Y2].
    + intros b' u Eb. unfold block_extend in PB. rewrite Eb in PB. cbn [bind] in PB. eapply (PB _ (VBlock _)); [reflexivity| |reflexivity]. eapply PU; eauto.
  - unfold with_block in *. destruct (nth_error st b) as [[]|] eqn:E; auto.
    match goal with |- context [nth_error st ?j] => destruct (nth_error st j) as [[]|] eqn:E2; auto end.
    destruct (FB _ _ _ E eq_refl) as [X1 X2]. destruct (FB _ _ _ E2 eq_refl) as [Y1 Y2].
    rewrite q_extend_range; [reflexivity|exact X1|exact Y1| |].
    + split; [|exact Y2]. intros j Hj. eapply fits_number; [exact F| |unfold buffer_of; rewrite E2; reflexivity].
      cbn. apply in_map_iff. eauto.
    + intros b' u Eb. rewrite Eb in PB. cbn [bind] in PB. eapply (PB _ (VBlock _)); [reflexivity| |reflexivity]. eapply PU; eauto.
  - unfold with_block in *. destruct (nth_error st b) as [[]|] eqn:E; auto.
    destruct (FB _ _ _ E eq_refl) as [X1 X2]. rewrite q_from_within; [reflexivity|exact X1| |].
    + split; [|exact X2]. intros j Hj. eapply fits_number; [exact F| |unfold buffer_of; rewrite E; reflexivity].
      cbn. apply in_map_iff. eauto.
    + intros b' Eb. rewrite Eb in PB. cbn [bind] in PB. eapply (PB _ (VBlock _)); [reflexivity| |reflexivity]. eapply PU; eauto.
  - unfold with_block. destruct (nth_error st b) as [[]|] eqn:E; auto. rewrite q_split by (apply (FB _ _ _ E eq_refl)). reflexivity.
  - unfold with_repeat. destruct (nth_error st ri) as [[]|] eqn:E; auto. rewrite q_repeat_next by (apply (FB _ _ _ E eq_refl)). reflexivity.
  - unfold with_repeat, with_row. destruct (nth_error st ri) as [[]|] eqn:E; auto.
    match goal with |- context [nth_error st ?j] => destruct (nth_error st j) as [[]|] eqn:E2; auto end.
    rewrite q_repeat_next_into by (apply (FB _ _ _ E eq_refl)). reflexivity.
  - unfold with_method. destruct (nth_error st m) as [[]|] eqn:E; auto. unfold r_lead_head. rewrite q_leftover by (apply (FB _ _ _ E eq_refl)). reflexivity.
  - unfold with_method. destruct (nth_error st m) as [[]|] eqn:E; auto. rewrite q_row_in_course by (apply (FB _ _ _ E eq_refl)). reflexivity.
  - unfold with_method. destruct (nth_error st m) as [[]|] eqn:E; auto.
    destruct (C _ _ _ eq_refl E) as (C1 & C2 & C3). cbv zeta in *.
    unfold r_plain_course, plain_course. unfold lead_len in *. rewrite q_course_loop; [reflexivity| | | | |].
    + eapply FB; eauto; reflexivity.
    + rewrite map_index_len. apply le_n.
    + exact C1.
    + rewrite map_index_len. change (block_stage (block_map_annots_with_index (first_lead m0) (fun i l => RowAnnot i l))) with (block_stage (first_lead m0)).
      replace (block_len (first_lead m0) + fuel * block_len (first_lead m0)) with ((fuel + 1) * block_len (first_lead m0)) by lia. exact C2.
    + rewrite map_index_len. replace (block_len (first_lead m0) + fuel * block_len (first_lead m0)) with ((fuel + 1) * block_len (first_lead m0)) by lia. exact C3.
  - unfold with_block. destruct (nth_error st b) as [[]|] eqn:E; auto.
    rewrite q_leftover by (apply (FB _ _ _ E eq_refl)). reflexivity.
Qed.

Lemma q_run ho prog : forall st, Forall okval st -> careful ho st prog -> fits_program w ho st prog -> roomy_program w limit ho st prog ->
  r_run_from bd limit ho st prog = run_from ho st prog.
Proof.
  induction prog as [|c t IH]; intros st S C H R; [reflexivity|]. destruct C as [C1 C2]. destruct H as [H1 H2]. destruct R as (R0 & R1 & R2).
  unfold r_run_from, run_from. cbn [foldM].
  rewrite q_step; auto.
  - pose proof (step_safe ho st c S C1) as SS. destruct (step ho st c) as [st'| | |] eqn:Es; cbn [bind]; auto. apply IH; auto.
  - intros st' E. specialize (R2 _ E). destruct t; apply R2.
Qed.
End Build.

(** ** The conditions for a given program, computed *)

Definition roomyb (w limit : N) (st : list value) : bool :=
  forallb (fun v => match v with VVec x => (N.of_nat (length (ssv_bells x)) <? 2 ^ w)%N | _ => true end &&
    match block_of v with
    | Some b => (N.of_nat (length (ssv_bells (blk_rows b))) <? 2 ^ w)%N &&
                (N.of_nat ((block_len b + 1) * block_stage b) <? 2 ^ w)%N && (N.of_nat (block_len b) <=? limit)%N
    | None => true
    end) st.

Lemma roomy_b w limit st : roomyb w limit st = true -> roomy w limit st.
Proof.
  intros H. unfold roomyb in H. rewrite forallb_forall in H. split.
  - intros x I. specialize (H _ I). apply andb_prop in H. destruct H as [H _]. apply N.ltb_lt. exact H.
  - intros v b I E. specialize (H _ I). apply andb_prop in H. destruct H as [_ H]. rewrite E in H.
    apply andb_prop in H. destruct H as [H H3]. apply andb_prop in H. destruct H as [H1 H2].
    splits; [apply N.ltb_lt|apply N.ltb_lt|apply N.leb_le]; auto.
Qed.

Definition fitsb (w : N) (st : list value) (c : call) : bool :=
  roomyb w (N.of_nat (length (flat_map (fun v => match block_of v with Some b => blk_annots b | None => [] end) st))) st &&
  forallb (fun p => match buffer_of st (fst p) with
                    | Some x => ((N.of_nat (snd p) + 2) * N.of_nat (ssv_stage x) <? 2 ^ w)%N
                    | None => true
                    end) (row_numbers c) &&
  match c with PowI _ e => ((- 2 ^ (Z.of_N w - 1) <? e) && (e <? 2 ^ (Z.of_N w - 1)))%Z | _ => true end.

Lemma fits_b w st c : fitsb w st c = true -> fits w st c.
Proof.
  intros H. unfold fitsb in H. apply andb_prop in H. destruct H as [H H3]. apply andb_prop in H. destruct H as [H H2].
  apply roomy_b in H. destruct H as [R1 R2]. split; [|split; [|split]].
  - intros v x E. unfold buffer_of in E. destruct (nth_error st v) as [y|] eqn:N; [|discriminate]. apply nth_error_In in N.
    destruct y; try discriminate; injection E as <-; auto; eapply R2; eauto; reflexivity.
  - intros v b E. apply nth_error_In in E. eapply (R2 _ b E eq_refl).
  - intros v i x I E. rewrite forallb_forall in H2. specialize (H2 _ I). cbn in H2. rewrite E in H2. apply N.ltb_lt. exact H2.
  - intros i e ->. apply andb_prop in H3. rewrite !Z.ltb_lt in H3. exact H3.
Qed.

Definition courseb (w limit : N) (st : list value) (c : call) : bool :=
  match c with
  | MethodPlainCourse fuel i =>
      match nth_error st i with
      | Some (VMethod m) =>
          let lead := first_lead m in
          (N.of_nat (length (ssv_bells (blk_rows lead)) + fuel * block_len lead * block_stage lead) <? 2 ^ w)%N &&
          (N.of_nat (((fuel + 1) * block_len lead + 2) * block_stage lead) <? 2 ^ w)%N &&
          (N.of_nat ((fuel + 1) * block_len lead) <=? limit)%N
      | _ => true
      end
  | _ => true
  end.
Lemma course_b w limit st c : courseb w limit st c = true -> room_for_course w limit st c.
Proof.
  intros H fuel i m -> E. cbn [courseb] in H. rewrite E in H. apply andb_prop in H. destruct H as [H H3].
  apply andb_prop in H. destruct H as [H1 H2]. cbv zeta. splits; [apply N.ltb_lt|apply N.ltb_lt|apply N.leb_le]; auto.
Qed.

(** Both conditions, by running the program. *)
Fixpoint fit_runb (w limit : N) (ho : list nat -> list nat) (st : list value) (prog : list call) : bool :=
  roomyb w limit st &&
  match prog with
  | [] => true
  | c :: t => fitsb w st c && courseb w limit st c && match step ho st c with Ret st' => fit_runb w limit ho st' t | _ => true end
  end.
Lemma fit_run_b w limit ho prog : forall st, fit_runb w limit ho st prog = true ->
  fits_program w ho st prog /\ roomy_program w limit ho st prog.
Proof.
  induction prog as [|c t IH]; intros st H; cbn [fit_runb] in H; apply andb_prop in H; destruct H as [R H].
  - split; [exact I|]. split; [apply roomy_b; auto|exact I].
  - apply andb_prop in H. destruct H as [H H3]. apply andb_prop in H. destruct H as [H1 H2].
    assert (K : forall st', step ho st c = Ret st' -> fits_program w ho st' t /\ roomy_program w limit ho st' t).
    { intros st' E. rewrite E in H3. apply IH; auto. }
    split.
    + split; [apply fits_b; auto|]. intros st' E. apply K; auto.
    + split; [apply roomy_b; auto|]. split; [apply course_b; auto|]. intros st' E. apply K; auto.
Qed.
