(** Copying rows of a buffer to its own end, past the old end of the buffer. *)
From Verif Require Import Base Bell Stage Row Utils SameStageVec Spec SpecVec ListFacts BellFacts RowFacts MulFacts GroupFacts SsvFacts.
Local Open Scope list_scope.

Lemma foldM_app {A B} (f : A -> B -> exec A) l1 l2 st : foldM f (l1 ++ l2) st = bind (foldM f l1 st) (foldM f l2).
Proof. revert st; induction l1 as [|x l1 IH]; intros st; cbn [app foldM]; auto. destruct (f st x); cbn; auto. Qed.

Lemma within_rows_exact s t : vrow s t -> forall n rs a, Forall (vrow s) rs -> a < length rs ->
  exists rs', Forall (vrow s) rs' /\ length rs' = n /\
    (forall i, i < n -> nth_error rs' i = option_map (row_product t) (nth_error (rs ++ rs') (a + i))) /\
    foldM (fun bells i => x <- idx bells i;; y <- idx t x;; Ret (bells ++ [y])) (seq (a * s) (n * s)) (concat rs)
    = Ret (concat (rs ++ rs')).
Proof.
  intros Vt. induction n as [|n IH]; intros rs a F Ha.
  - exists []. cbn. rewrite app_nil_r. splits; auto. lia.
  - destruct (nth_error rs a) as [r|] eqn:N; [|apply nth_error_None in N; lia].
    assert (Vr : vrow s r) by (rewrite Forall_forall in F; apply F; eapply nth_error_In; eauto).
    assert (Vtr : vrow s (rmul t r)) by (apply valid_rmul; auto).
    assert (Fn : Forall (vrow s) (rs ++ [rmul t r])) by (apply Forall_app; split; auto).
    destruct (IH (rs ++ [rmul t r]) (a + 1) Fn) as (rs' & F' & L' & I' & E); [rewrite app_length; cbn; lia|].
    exists (rmul t r :: rs'). split; [constructor; auto|]. split; [cbn; lia|]. split.
    { intros [|i] Hi.
      - rewrite Nat.add_0_r, nth_error_app1 by auto. rewrite N. cbn. f_equal.
      - cbn [nth_error]. rewrite I' by lia. rewrite <- app_assoc. replace (a + 1 + i) with (a + S i) by lia. reflexivity. }
    replace (S n * s) with (s + n * s) by lia. rewrite seq_app, foldM_app.
    assert (Lt : Forall (fun x => x < length t) (concat rs)) by (rewrite (proj2 Vt); apply concat_lt; auto).
    pose proof (within_fold_ok t (concat rs) s Lt (a * s) []) as W. rewrite app_nil_r in W.
    rewrite W by (rewrite (concat_length_eq s) by eauto using vrow_lengths; nia). cbn [bind app].
    replace (a * s + s) with ((a + 1) * s) by lia.
    assert (Eb : map (fun x => nth x t 0) (firstn s (skipn (a * s) (concat rs))) = rmul t r).
    { pose proof (block_at s rs a r (vrow_lengths _ _ F) N) as B. rewrite <- B. reflexivity. }
    rewrite Eb. rewrite concat_app in E. cbn [concat] in E. rewrite app_nil_r in E. rewrite E.
    rewrite <- app_assoc. reflexivity.
Qed.

Lemma ssv_from_within_any s rs v t lo hi : rep s rs v -> vrow s t ->
  let a := range_start lo in let b := range_end hi (length rs) in a < b ->
  (a < length rs ->
   exists v' rs', ssv_extend_transposed_from_within v lo hi t = Ret (v', Ok tt) /\ rep s (rs ++ rs') v' /\
     length rs' = b - a /\
     forall i, i < b - a -> nth_error rs' i = option_map (row_product t) (nth_error (rs ++ rs') (a + i))) /\
  (length rs <= a -> ssv_extend_transposed_from_within v lo hi t = Panic).
Proof.
  intros H Ht a b Hab. unfold ssv_extend_transposed_from_within. rewrite valid_row_stage by apply Ht. cbn [bind]. unfold test_err.
  pose proof H as (Hs & Hst & F & E).
  rewrite Hst, (proj2 Ht), Nat.eqb_refl. erewrite to_bell_range_ok by eauto. cbn [bind]. unfold range. fold a b.
  replace (b * s - a * s) with ((b - a) * s) by nia. rewrite E. split; intros Ha.
  - destruct (within_rows_exact s t Ht (b - a) rs a F Ha) as (rs' & F' & L' & I' & E'). rewrite E'. cbn [bind].
    exists (Ssv (concat (rs ++ rs')) s), rs'. splits; auto. apply rep_intro; auto. apply Forall_app; auto.
  - destruct ((b - a) * s) as [|k] eqn:K; [nia|]. cbn [seq foldM]. unfold idx at 1.
    rewrite (proj2 (nth_error_None _ _)); [reflexivity|]. rewrite (concat_length_eq s) by eauto using vrow_lengths. nia.
Qed.

(** ** A source of another stage *)

Lemma other_stage_start s rs v t s' rs' o lo hi : rep s rs v -> vrow s t -> rep s' rs' o ->
  let a := range_start lo in let b := range_end hi (length rs') in
  a <= b -> b <= length rs' ->
  ssv_extend_range_transposed v t o lo hi =
    (new <- mapM (fun x => idx t x) (concat (sublist a b rs'));; Ret (Ssv (ssv_bells v ++ new) (ssv_stage v), Ok tt)).
Proof.
  intros H Ht Ho a b Hab Hb. unfold ssv_extend_range_transposed. rewrite valid_row_stage by apply Ht. cbn [bind].
  unfold test_err. rewrite (proj2 Ht), (proj1 (proj2 H)), Nat.eqb_refl.
  erewrite to_bell_range_ok by eauto. cbn [bind]. fold a b.
  rewrite slice_ret; [|nia|rewrite (rep_length _ _ _ Ho); nia]. cbn [bind].
  destruct Ho as (_ & _ & Ho & E). rewrite E, sublist_concat by (auto using vrow_lengths). reflexivity.
Qed.

Lemma other_stage_larger s rs v t s' rs' o lo hi : rep s rs v -> vrow s t -> rep s' rs' o -> s < s' ->
  let a := range_start lo in let b := range_end hi (length rs') in
  a < b -> b <= length rs' -> ssv_extend_range_transposed v t o lo hi = Panic.
Proof.
  intros H Ht Ho Hs a b Hab Hb. erewrite other_stage_start by (eauto; fold a b; lia). fold a b.
  rewrite mapM_panic; [reflexivity| |].
  - intros x _. unfold idx. destruct (nth_error t x); eauto.
  - destruct (nth_error rs' a) as [r|] eqn:N; [|apply nth_error_None in N; lia].
    destruct Ho as (_ & _ & Ho & _). rewrite Forall_forall in Ho. destruct (Ho r) as [V L]; [eapply nth_error_In; eauto|].
    exists s. split.
    + apply in_concat. exists r. split.
      * unfold sublist. apply nth_error_split in N as (l1 & l2 & -> & E1). rewrite <- E1, skipn_app, skipn_all, Nat.sub_diag.
        destruct (b - length l1) eqn:K; [lia|]. left; auto.
      * apply V. lia.
    + unfold idx. rewrite (proj2 (nth_error_None _ _)); auto. rewrite (proj2 Ht). auto.
Qed.

Lemma other_stage_smaller s rs v t s' rs' o lo hi : rep s rs v -> vrow s t -> rep s' rs' o -> s' < s ->
  let a := range_start lo in let b := range_end hi (length rs') in
  a < b -> b <= length rs' ->
  exists v', ssv_extend_range_transposed v t o lo hi = Ret (v', Ok tt) /\ forall s2 rs2, ~ rep s2 rs2 v'.
Proof.
  intros H Ht Ho Hs a b Hab Hb. erewrite other_stage_start by (eauto; fold a b; lia). fold a b.
  set (src := sublist a b rs'). destruct Ho as (Hs' & _ & Ho & _).
  assert (Fs : Forall (vrow s') src) by (apply Forall_firstn, Forall_skipn; auto).
  assert (Ls : length src = b - a) by (unfold src, sublist; rewrite firstn_length, skipn_length; lia).
  rewrite (mapM_ret _ (fun x => nth x t 0)).
  2:{ intros x Hx. pose proof (concat_lt _ _ Fs) as K. rewrite Forall_forall in K. specialize (K x Hx).
      unfold idx. rewrite (nth_error_nth' t 0) by (rewrite (proj2 Ht); lia). reflexivity. }
  cbn [bind]. eexists. split; [reflexivity|]. intros s2 rs2 (_ & S2 & F2 & E2). cbn in S2, E2.
  destruct H as (Hs0 & Hst & F & E). rewrite Hst in S2. subst s2. rewrite E in E2.
  assert (E3 : map (fun x => nth x t 0) (concat src) = concat (skipn (length rs) rs2)).
  { rewrite <- (skipn_concat s) by eauto using vrow_lengths. rewrite <- E2, skipn_app.
    rewrite (concat_length_eq s) by eauto using vrow_lengths. rewrite Nat.sub_diag, skipn_all2; [reflexivity|].
    rewrite (concat_length_eq s) by eauto using vrow_lengths. lia. }
  apply (Forall_skipn _ (length rs)) in F2. revert E3 F2. generalize (skipn (length rs) rs2). clear E2. intros rs3 E3 F3.
  destruct src as [|r0 src]; [cbn in Ls; lia|]. inversion Fs as [|? ? V0 Fs']; subst.
  destruct rs3 as [|r rs3].
  { cbn in E3. rewrite map_app in E3. destruct r0; [destruct V0 as [_ V0]; cbn in V0; lia|discriminate]. }
  inversion F3 as [|? ? Vr _]; subst. cbn [concat] in E3. rewrite map_app in E3.
  destruct src as [|r1 src].
  { cbn in E3. rewrite app_nil_r in E3. apply (f_equal (@length nat)) in E3. rewrite map_length, app_length in E3.
    rewrite (proj2 V0), (proj2 Vr) in E3. lia. }
  inversion Fs' as [|? ? V1 _]; subst. destruct r1 as [|x r1]; [destruct V1 as [_ V1]; cbn in V1; lia|].
  cbn [concat app map] in E3.
  assert (Nx : nth_error r s' = Some (nth x t 0)).
  { assert (K : nth_error (r ++ concat rs3) s' = Some (nth x t 0)).
    { rewrite <- E3. rewrite nth_error_app2 by (rewrite map_length, (proj2 V0); lia). rewrite map_length, (proj2 V0), Nat.sub_diag. reflexivity. }
    rewrite nth_error_app1 in K by (rewrite (proj2 Vr); lia). exact K. }
  assert (Hx : x < s') by (pose proof (valid_row_Forall _ (proj1 V1)) as K; inversion K; subst; rewrite (proj2 V1) in *; auto).
  assert (Ix : In x r0) by (apply (proj1 V0); rewrite (proj2 V0); auto).
  apply In_nth_error in Ix as (p & Np). assert (Hp : p < s') by (rewrite <- (proj2 V0); apply nth_error_Some; congruence).
  assert (Nr : nth_error r p = Some (nth x t 0)).
  { assert (K : nth_error (r ++ concat rs3) p = Some (nth x t 0)).
    { rewrite <- E3. rewrite nth_error_app1 by (rewrite map_length, (proj2 V0); lia). rewrite nth_error_map, Np. reflexivity. }
    rewrite nth_error_app1 in K by (rewrite (proj2 Vr); lia). exact K. }
  assert (p = s'); [|lia]. pose proof (valid_row_NoDup _ (proj1 Vr)) as N. rewrite NoDup_nth_error in N.
  apply N; [rewrite (proj2 Vr); lia|congruence].
Qed.
