(** Unchecked calls within their contracts. *)
From Coq Require Import Sorting.Sorted.
From Verif Require Import Base Bell Stage Parity Row Utils SameStageVec Block PlaceNot Mask Music Class Method Program Unsafe
  Spec SpecVec SpecBlock SpecPn SpecProg SpecUnsafe ListFacts BellFacts RowFacts MulFacts GroupFacts ParityFacts SsvFacts SsvFacts2 BlockFacts
  PnFacts MaskFacts2 SafeFacts SafeFacts2 UnwindFacts UnwindFacts2 UnwindFacts3 PnThms.
Local Open Scope list_scope.

Lemma test_err_same s : test_err s s = Ok tt.
Proof. unfold test_err. rewrite Nat.eqb_refl. reflexivity. Qed.

Lemma change_at_row st c : forall p, change_at st p (change_row st c) = step (fun l => l) st (ChangeRow p c).
Proof. intros []; reflexivity. Qed.
Lemma step_change_row ho st c p : step ho st (ChangeRow p c) = change_at st p (change_row st c).
Proof. destruct p; reflexivity. Qed.

Lemma edit_ext v i f g : okv v -> (forall r, vrow (ssv_stage v) r -> f r = g r) -> ssv_edit v i f = ssv_edit v i g.
Proof.
  intros [rs R] H. unfold ssv_edit. destruct (ssv_get v i) as [r|] eqn:E; auto. rewrite (ssv_get_ok _ _ _ i R) in E.
  rewrite H; auto. eapply nth_valid; [apply R|eauto].
Qed.

Lemma change_at_ext st p f g : okst st -> (forall s r, stage_at st p s -> vrow s r -> f r = g r) ->
  change_at st p f = change_at st p g.
Proof.
  intros Hst H. destruct p as [i|i k|i|i]; cbn [change_at]; unfold with_row, with_vec;
    destruct (nth_error st i) as [[]|] eqn:E; auto; pose proof (okst_nth st Hst _ _ E) as V; cbn in V.
  - rewrite (H (length r) r); auto; [exists r; split; auto; exact E|split; auto].
  - rewrite (edit_ext v k f g); auto. intros r Vr. apply (H (ssv_stage v)); auto. exists v; auto.
  - unfold ssv_edit_first. rewrite (edit_ext v 0 f g); auto. intros r Vr. apply (H (ssv_stage v)); auto. exists v; auto.
  - unfold ssv_edit_last. destruct (ssv_len v) as [[|n]| | |]; auto. cbn [bind].
    rewrite (edit_ext v n f g); auto. intros r Vr. apply (H (ssv_stage v)); auto. exists v; auto.
Qed.

Lemma position_none_set x (b : bell) : forall p, position (fun y => obell_eqb y (Some b)) x = Some p -> nth_error x p = Some (Some b).
Proof.
  intros p E. apply position_Some in E as [(y & N & P) _]. rewrite N. f_equal. apply obell_eqb_eq. exact P.
Qed.

Lemma mask_set_same st m x b p : (forall q, nth_error x q = Some (Some b) -> q = p) ->
  (x' <- mask_set_bell_unchecked x b p;; put st m (VMask x')) = ('(x', _) <- mask_set_bell x b p;; put st m (VMask x')).
Proof.
  intros H. unfold mask_set_bell. destruct (position _ x) as [q|] eqn:E.
  - apply position_none_set in E. pose proof (H _ E) as ->. rewrite Nat.eqb_refl. cbn [bind].
    unfold mask_set_bell_unchecked, set_idx. rewrite upd_id by auto. rewrite (proj2 (Nat.ltb_lt _ _)); [reflexivity|].
    apply nth_error_Some. congruence.
  - destruct (mask_set_bell_unchecked x b p); reflexivity.
Qed.

Lemma same_as_checked ho st c : okst st -> contract st c -> ustep ho st c = ustep ho st (checked c).
Proof.
  intros Hst C.
  assert (D : forall i r, nth_error st i = Some (VRow r) -> valid_row r) by (intros i r E; exact (okst_nth st Hst _ _ E)).
  destruct c; cbn [checked ustep]; auto; cbn [contract] in C.
  - cbn [step]. unfold row_from_vec_unchecked. rewrite (proj2 (from_vec_ok bells bells)); auto.
  - cbn [step]. unfold with_row. destruct (nth_error st i) as [[]|] eqn:Ei; auto. destruct (nth_error st j) as [[]|] eqn:Ej; auto.
    unfold row_mul, mul_result. rewrite !valid_row_stage by eauto. cbn [bind]. rewrite (C r r0), test_err_same by auto.
    destruct (mul_unchecked r r0); reflexivity.
  - cbn [step]. unfold with_row. destruct (nth_error st i) as [[]|] eqn:Ei; auto. destruct (nth_error st j) as [[]|] eqn:Ej; auto.
    destruct (nth_error st out) as [[]|] eqn:Eo; auto.
    unfold mul_into. rewrite !valid_row_stage by eauto. cbn [bind]. rewrite (C r r0), test_err_same by auto.
    destruct (mul_into_unchecked r r0 r1); reflexivity.
  - rewrite step_change_row. apply change_at_ext; auto. intros s r Hs Vr. cbn [change_row].
    destruct (nth_error st i) as [[]|] eqn:Ei; auto. destruct (nth_error st j) as [[]|] eqn:Ej; auto.
    destruct (C r0 r1 s) as [L1 L2]; auto. unfold mul_into_row, mul_into_row_unchecked.
    rewrite (valid_row_stage r0), (valid_row_stage r1), (valid_row_stage r) by (eauto; apply Vr). cbn [bind].
    rewrite (proj2 Vr), <- L1, L2, !test_err_same. destruct (mul_into_row_loop r0 r r1); reflexivity.
  - cbn [step]. unfold with_row. destruct (nth_error st i) as [[]|] eqn:Ei; auto. destruct (nth_error st j) as [[]|] eqn:Ej; auto.
    unfold tranposition_to_unchecked, solve_xa_equals_b. rewrite row_inv_ok by eauto. cbn [bind]. unfold mul_result.
    assert (V : vrow (length r) (rinv r)) by (apply valid_rinv; split; eauto).
    rewrite (valid_row_stage r0), (valid_row_stage (rinv r)) by (eauto; apply V). cbn [bind]. rewrite (proj2 V), (C r r0), test_err_same by auto.
    destruct (mul_unchecked r0 (rinv r)); reflexivity.
  - rewrite step_change_row. apply change_at_ext; auto. intros s r Hs Vr. cbn [change_row].
    destruct (nth_error st pn) as [[]|] eqn:Ei; auto. unfold pn_permute. rewrite valid_row_stage by apply Vr. cbn [bind].
    rewrite (proj2 Vr), (C p0 s), test_err_same by auto. destruct (permute_unchecked p0 r); reflexivity.
  - cbn [step]. unfold with_row, with_pn. destruct (nth_error st pn) as [[]|] eqn:Ei; auto. destruct (nth_error st i) as [[]|] eqn:Ej; auto.
    unfold pn_permute_new, permute_new_unchecked. rewrite valid_row_stage by eauto. cbn [bind]. rewrite (C p r), test_err_same by auto.
    destruct (permute_unchecked p r); reflexivity.
  - cbn [step]. unfold pn_block_from_vec_unchecked. destruct C as [C1 C2].
    rewrite (proj2 (proj1 (pf_C45_from_vec (pns_at st ps)) (pns_at st ps))); auto.
  - cbn [step]. unfold with_mask, mask_fix. destruct (nth_error st m) as [[]|] eqn:Em; auto. apply mask_set_same. intros p N. eapply C; eauto.
  - cbn [step]. unfold with_mask. destruct (nth_error st m) as [[]|] eqn:Em; auto. apply mask_set_same. intros q N. eapply C; eauto.
Qed.

Lemma sorted_slice places : (forall i j p q, i < j -> nth_error places i = Some p -> nth_error places j = Some q -> p <= q) ->
  StronglySorted le places.
Proof.
  induction places as [|p l IH]; intros H; constructor.
  - apply IH. intros i j x y L Ei Ej. apply (H (S i) (S j) x y); auto; lia.
  - rewrite Forall_forall. intros y Hy. apply In_nth_error in Hy as [j Hj]. apply (H 0 (S j)); auto; lia.
Qed.

Lemma ustep_safe ho st c : okst st -> contract st c -> safe okst (ustep ho st c).
Proof.
  intros Hst C. destruct (checked c) as [c'| | | | | | | | | | | | |] eqn:E.
  { rewrite same_as_checked, E by auto. cbn [ustep]. apply step_safe; auto.
    destruct c; cbn in E; try discriminate; injection E as <-; cbn; auto. }
  all: destruct c; cbn in E; try discriminate; injection E; intros; subst; clear E; cbn [ustep contract] in *.
  - unfold with_row. destruct (nth_error st i) as [[]|] eqn:Ei; auto.
    unfold get_bell_unchecked, idx_unchecked. specialize (C _ Ei). destruct (nth_error r place) eqn:N; [exact Hst|].
    apply nth_error_None in N. lia.
  - destruct n as [|n]; [exact I|]. change (stage_new (S n)) with (Ret (S n)). cbn [bind]. apply Forall_app. split; auto. constructor; auto.
    destruct C as (rows & F & ->). exists rows. split; [cbn; lia|]. split; [reflexivity|]. split; [|reflexivity]. exact F.
  - destruct n as [|n]; [exact I|]. change (stage_new (S n)) with (Ret (S n)). cbn [bind].
    destruct (fss_slice places (S n)) as [(pn & X & S1 & _)|(e & X & _)]; [lia|apply sorted_slice; auto| |]; rewrite X; cbn; auto.
    apply Forall_app. split; auto. constructor; auto. cbn. unfold okpn. lia.
Qed.

Lemma urun_safe ho prog : forall st, okst st -> keeps_contracts ho st prog -> safe okst (urun_from ho st prog).
Proof.
  induction prog as [|c prog IH]; intros st H C; [exact H|]. destruct C as [C1 C2].
  pose proof (ustep_safe ho st c H C1) as X. unfold urun_from in *. cbn [foldM]. destruct (ustep ho st c); cbn in *; auto.
Qed.

Lemma urun_checked ho prog : forall st, okst st -> keeps_contracts ho st prog ->
  urun_from ho st prog = urun_from ho st (map checked prog).
Proof.
  induction prog as [|c prog IH]; intros st H C; [reflexivity|]. destruct C as [C1 C2].
  pose proof (ustep_safe ho st c H C1) as X. unfold urun_from in *. cbn [map foldM]. rewrite <- same_as_checked by auto.
  destruct (ustep ho st c); cbn in *; auto.
Qed.
