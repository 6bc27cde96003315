(** The paths of the bells in the plain course of a method. *)
From Verif Require Import Base Spec SpecBlock Class SpecClass SpecVec ListFacts Row RowFacts MulFacts GroupFacts SameStageVec Block SsvFacts BlockFacts
  ClassFacts SymFacts3 Method SpecMethod MethodFacts LawFacts LawFacts2 LawFacts3 SpecCycle CycleFacts BellPathFacts DiffFacts.
From Verif Require Import BlockThms MethodThms.
Local Open Scope list_scope.

Section Work.
Context (m : method) (s : nat) (ars : list (row * option str)) (lo : row) (fuel : nat) (pc : block row_annot).
Hypothesis H : block_holds (first_lead m) s ars lo.
Hypothesis Na : ars <> [].
Hypothesis I : is_identity (hd [] (map fst ars)).
Hypothesis P : plain_course fuel m = Ret pc.

Lemma work : vrow s lo /\ lead_len m = length ars /\ exists N, 0 < N /\ rpow lo N = row_rounds s /\ (forall j, 0 < j < N -> rpow lo j <> row_rounds s) /\
  block_len pc = N * length ars /\
  forall x path e, block_path_of pc x = Ret (Some (path, e)) -> x < s /\ length path = N * length ars /\
    forall j i r, nth_error (map fst ars) i = Some r -> exists q, q < s /\ follow lo j q = x /\
      nth_error path ((j * length ars + i) mod (N * length ars)) = Some (place_in r q).
Proof.
  assert (I' : is_identity (hd [] (all_rows_of ars lo))). { unfold all_rows_of. destruct ars; [congruence|exact I]. }
  pose proof (holds_brep _ _ _ _ H) as B. pose proof (brep_vrows _ _ _ _ B) as [Va Vl].
  pose proof (pf_C59_getters m s ars lo 0 H) as (_ & G2 & G3 & _). split; auto. split; auto.
  destruct (pf_C59_plain_course m s ars lo H I') as (N & pc' & pars & pe & N0 & (e & Pe & Ie) & Mi & F & Hp & _ & L & _).
  assert (pc' = pc) as -> by (unfold plain_course in *; pose proof (plain_course_mono _ _ (N + fuel) _ _ P ltac:(lia)) as X; rewrite F in X by lia; congruence).
  exists N. split; auto. split.
  { apply power_fun in Pe. subst e. apply identity_rounds in Ie. rewrite Ie. f_equal. apply (vrow_rpow s lo N Vl). }
  split. { intros j J E. apply (Mi j (rpow lo j) J); [eapply power_rpow; eauto|]. rewrite E. apply rounds_identity. }
  split. { rewrite (brep_len _ _ _ _ (holds_brep _ _ _ _ Hp)). auto. }
  intros x path e' Ep. destruct (Nat.lt_ge_cases x s) as [X|X]; [|rewrite (proj1 (proj2 (pf_C26_block_paths _ pc s pars pe x Hp) X)) in Ep; discriminate].
  destruct (proj1 (pf_C26_block_paths _ pc s pars pe x Hp) X) as (pp & ppe & E2 & _ & F2 & _). rewrite Ep in E2. injection E2 as <- <-.
  assert (Lp : length path = N * length ars). { rewrite <- (Forall2_len _ _ _ F2), map_length. auto. }
  splits; auto. intros j i r Er.
  assert (Hi : i < length ars) by (rewrite <- (map_length fst ars); apply nth_error_Some; congruence).
  assert (Vr : vrow s r). { rewrite Forall_forall in Va. apply Va. eapply nth_error_In; eauto. }
  pose proof (vrow_rpow s lo j Vl) as Vh.
  assert (R : row_in_plain_course m (j * length ars + i) = Ret (rmul (rpow lo j) r)).
  { pose proof (pf_C59_getters m s ars lo i H) as (_ & _ & _ & G4 & _). unfold row_in_plain_course. rewrite G2, G3.
    replace (negb (length ars =? 0)) with true by (symmetry; apply Bool.negb_true_iff, Nat.eqb_neq; lia). cbn [assert_ bind].
    rewrite Nat.div_add_l, (Nat.div_small i), Nat.add_0_r, (pow_u_ok s) by (auto; lia). cbn [bind].
    rewrite nth_error_map in Er. destruct (nth_error ars i) as [[r0 l]|] eqn:Ea; [|discriminate]. cbn in Er. injection Er as ->.
    rewrite Nat.add_comm, Nat.mod_add, Nat.mod_small, (G4 r l eq_refl) by lia. cbn [bind]. apply (row_mul_ok s); auto. }
  destruct (pf_C59_row_in_plain_course m s ars lo fuel pc pars pe (j * length ars + i) H I' Na P Hp) as (r' & a & Ex & Rx).
  rewrite R in Rx. injection Rx as <-. rewrite L in Ex.
  assert (Ex' : nth_error (map fst pars) ((j * length ars + i) mod (N * length ars)) = Some (rmul (rpow lo j) r)) by (rewrite nth_error_map, Ex; auto).
  destruct (Forall2_nth_error_l _ _ _ _ _ F2 Ex') as (p & Epp & Bp).
  pose proof (proj2 (Bp p) eq_refl) as Q. rewrite nth_error_rmul in Q. destruct (nth_error r p) as [q|] eqn:Eq; [|discriminate]. cbn in Q. injection Q as Q.
  assert (Lq : q < s). { destruct Vr as [(_ & _ & W) Lr]. rewrite <- Lr. apply W. eapply nth_error_In; eauto. }
  exists q. split; auto. split.
  - rewrite <- follow_rpow; auto; [apply Vl|rewrite (proj2 Vl); auto].
  - rewrite Epp. f_equal. symmetry. apply (place_in_unique r); auto. apply Vr.
Qed.
End Work.

Lemma split_index L t : 0 < L -> exists j i, t = j * L + i /\ i < L.
Proof. intros H. exists (t / L), (t mod L). split; [|apply Nat.mod_upper_bound; lia]. rewrite Nat.mul_comm. apply Nat.div_mod. lia. Qed.
