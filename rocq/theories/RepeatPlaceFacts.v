(** Rows which a power of the lead head takes to each other have their hunt bells in the same places. *)
From Verif Require Import Base Spec ListFacts Bell Stage Row RowFacts MulFacts GroupFacts
  Utils SameStageVec SpecVec SsvFacts Block SpecBlock BlockFacts PlaceNot SpecPn Class SpecClass ClassFacts BellPathFacts TruthFacts SpecHunt.
Local Open Scope list_scope.

Lemma hunt_rpow s lo b j : vrow s lo -> hunt_bell lo b -> nth_error (rpow lo j) b = Some b.
Proof.
  intros V H. assert (L : b < s) by (rewrite <- (proj2 V); apply nth_error_Some; unfold hunt_bell in H; congruence).
  induction j as [|j IH].
  - cbn. rewrite (proj2 V), rounds_seq, (nth_error_nth' _ 0), seq_nth by (rewrite ?seq_length; auto). auto.
  - replace (S j) with (j + 1) by lia. rewrite (rpow_add s), (rpow_1 s), nth_error_rmul by auto. unfold hunt_bell in H. rewrite H. cbn. f_equal. apply nth_error_nth; auto.
Qed.

Lemma power_list s lo fuel powers x : vrow s lo -> closure fuel lo = Ret powers -> (In x powers <-> exists j, x = rpow lo j).
Proof.
  intros V C. destruct (closure_ok s lo V) as (k & Hk & E & Mn & _ & _). rewrite (closure_lists s lo k fuel powers V Hk E Mn C). split.
  - intros (j & _ & Q). eauto.
  - intros (j & ->). exists (j mod k). split; [apply Nat.mod_upper_bound; lia|]. rewrite (Nat.div_mod j k) at 1 by lia.
    rewrite (rpow_add s) by auto. assert (P : forall m, rpow lo (k * m) = row_rounds s).
    { induction m as [|m IH]; [rewrite Nat.mul_0_r; cbn; rewrite (proj2 V); auto|]. replace (k * S m) with (k + k * m) by lia.
      rewrite (rpow_add s), IH, E by auto. apply (rmul_rounds_l_vrow s). apply valid_rounds. pose proof V as [[N _] L]. destruct lo; [congruence|cbn in L; lia]. }
    rewrite P. apply (rmul_rounds_l_vrow s). apply vrow_rpow; auto.
Qed.

Lemma power_inv s lo fuel powers x : vrow s lo -> closure fuel lo = Ret powers -> In x powers -> In (rinv x) powers.
Proof.
  intros V C I. destruct (closure_ok s lo V) as (k & Hk & E & Mn & _ & _).
  destruct (proj1 (closure_lists s lo k fuel powers V Hk E Mn C x) I) as (j & J & Ej). subst x. apply (power_list s lo fuel powers _ V C). exists (k - j).
  apply (rmul_cancel_l s (rpow lo j)); auto using vrow_rpow, valid_rinv.
  rewrite (rmul_rinv_r s) by (apply vrow_rpow; auto). rewrite <- (rpow_add s) by auto. replace (j + (k - j)) with k by lia. auto.
Qed.

Lemma power_places s lo fuel powers x r q b : vrow s lo -> closure fuel lo = Ret powers -> vrow s r -> vrow s q ->
  solve_xa_equals_b r q = Ret (Ok x) -> In x powers -> hunt_bell lo b -> place_in r b = place_in q b.
Proof.
  intros V C Vr Vq E I H. apply (power_list s lo fuel powers _ V C) in I as (j & ->). rewrite (solve_xa_ok s) in E by auto. injection E as E.
  assert (Eq : q = rmul (rpow lo j) r).
  { rewrite <- E, (rmul_assoc_vrow s), (rmul_rinv_l s), rmul_rounds_r by (auto using valid_rinv; apply Vq). reflexivity. }
  symmetry. apply place_in_unique; [apply Vq|]. assert (L : b < s) by (rewrite <- (proj2 V); apply nth_error_Some; unfold hunt_bell in H; congruence).
  assert (P : nth_error r (place_in r b) = Some b) by (apply place_in_ok; [apply Vr|rewrite (proj2 Vr); auto]).
  rewrite Eq, nth_error_rmul, P. cbn. f_equal. apply nth_error_nth. eapply hunt_rpow; eauto.
Qed.
