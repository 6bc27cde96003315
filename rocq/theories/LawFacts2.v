(** Facts for the laws of groups, parities and plain courses. *)
From Verif Require Import Base Bell Stage Parity Row Spec ListFacts BellFacts RowFacts MulFacts ParityFacts
  GroupFacts GroupFacts2 PlaceNot SpecPn PnFacts PnFacts2.
Local Open Scope list_scope.

(** ** More fuel changes no result *)
Lemma closure_loop_mono r : forall f last l f', closure_loop f r last = Ret l -> f <= f' -> closure_loop f' r last = Ret l.
Proof.
  induction f as [|f IH]; intros last l f' E L; cbn [closure_loop] in E; [discriminate|].
  destruct f' as [|f']; [lia|]. cbn [closure_loop]. destruct (is_rounds last); auto.
  destruct (mul_unchecked last r) as [nx| | |]; cbn [bind] in *; try discriminate.
  destruct (closure_loop f r nx) as [t| | |] eqn:C; cbn [bind] in *; try discriminate.
  rewrite (IH nx t f' C) by lia. exact E.
Qed.

Lemma lgc_loop_mono rows : forall f set fr l f', lgc_loop f rows set fr = Ret l -> f <= f' -> lgc_loop f' rows set fr = Ret l.
Proof.
  induction f as [|f IH]; intros set fr l f' E L; cbn [lgc_loop] in E; [discriminate|].
  destruct f' as [|f']; [lia|]. cbn [lgc_loop]. destruct fr as [|r fr]; auto.
  destruct (lgc_expand r set fr rows) as [[s2 f2]| | |]; cbn [bind] in *; try discriminate. eapply IH; eauto; lia.
Qed.

Lemma closure_result n r f l : vrow n r -> closure f r = Ret l ->
  exists k, 0 < k /\ rpow r k = row_rounds n /\ (forall j, 0 < j < k -> rpow r j <> row_rounds n) /\ l = map (rpow r) (seq 1 k).
Proof.
  intros V E. destruct (closure_ok n r V) as (k & P & R & M & C & _). exists k. splits; auto.
  pose proof (C (S (k + f)) ltac:(lia)) as C'. unfold closure in *. rewrite (closure_loop_mono r f r l (S (k + f)) E) in C' by lia. congruence.
Qed.

Lemma lgc_result n rows f set : Forall (vrow n) rows -> least_group_containing f rows = Ret (Ok set) ->
  NoDup set /\ forall x, In x set <-> word rows x.
Proof.
  intros V E. destruct (lgc_ok n rows V) as (f0 & H). destruct (H (f0 + f) ltac:(lia)) as (s2 & E2 & N & W).
  assert (set = s2) as ->; [|split; auto].
  unfold least_group_containing in *. destruct (lgc_seed None [] [] rows) as [[[s fr]|e]| | |]; cbn [bind] in *; try discriminate.
  destruct (lgc_loop f rows s fr) as [l| | |] eqn:Lo; cbn [bind] in *; try discriminate. injection E as <-.
  rewrite (lgc_loop_mono rows f s fr l (f0 + f) Lo) in E2 by lia. cbn [bind] in E2. congruence.
Qed.

Lemma word_one n r x : vrow n r -> (word [r] x <-> exists k, x = rpow r (S k)).
Proof.
  intros V. split.
  - induction 1 as [y [<-|[]] | a y W (k & ->) [<-|[]]].
    + exists 0. symmetry. apply (rpow_1 n); auto.
    + exists (S k). reflexivity.
  - intros (k & ->). induction k as [|k IH].
    + rewrite (rpow_1 n) by auto. constructor; left; auto.
    + change (rpow r (S (S k))) with (rmul (rpow r (S k)) r). apply word_mul; [exact IH|left; auto].
Qed.

Lemma in_closure n r k x : vrow n r -> 0 < k -> rpow r k = row_rounds n ->
  (In x (map (rpow r) (seq 1 k)) <-> exists j, x = rpow r (S j)).
Proof.
  intros V P E. rewrite in_map_iff. split.
  - intros (j & <- & H). apply in_seq in H. exists (j - 1). f_equal; lia.
  - intros (j & ->). pose proof (Nat.mod_upper_bound (S j) k ltac:(lia)) as B.
    destruct (S j mod k) as [|i] eqn:M.
    + exists k. split; [|apply in_seq; lia]. rewrite (rpow_mod n r k V P E (S j)), M. rewrite E. cbn [rpow]. rewrite (proj2 V). auto.
    + exists (S i). split; [|apply in_seq; lia]. rewrite (rpow_mod n r k V P E (S j)), M. auto.
Qed.

Lemma rpow_rounds_divide n r k : vrow n r -> 0 < k -> rpow r k = row_rounds n -> (forall j, 0 < j < k -> rpow r j <> row_rounds n) ->
  forall j, rpow r j = row_rounds n <-> Nat.divide k j.
Proof.
  intros V P E M j. split.
  - intros H. rewrite (rpow_mod n r k V P E) in H. pose proof (Nat.mod_upper_bound j k ltac:(lia)) as B.
    apply Nat.mod_divide; [lia|]. destruct (j mod k) as [|i] eqn:Q; auto. exfalso. apply (M (S i)); [lia|auto].
  - intros (q & ->). rewrite Nat.mul_comm. apply (rpow_mul_rounds n); auto.
Qed.

(** ** Cosets *)
Lemma subgroup_mul n S a b : subgroup n S -> vrow n a -> vrow n b -> S a -> S b -> S (rmul a b).
Proof. intros G Va Vb A B. apply (sg_mul _ _ G a b); auto. apply (composition_vrow n); auto. Qed.

Lemma subgroup_inv n S a : subgroup n S -> vrow n a -> S a -> S (rinv a).
Proof.
  intros G V A. pose proof (valid_rinv n a V) as I. apply (sg_inv _ _ G a (rinv a) (row_rounds n)); auto.
  - apply I.
  - apply length_rounds.
  - apply I.
  - apply rounds_identity.
  - rewrite <- (rmul_rinv_r n a V). apply (composition_vrow n); auto.
Qed.

Lemma cosets_divide n (H : list row) : NoDup H -> H <> [] -> Forall (vrow n) H -> subgroup n (fun x => In x H) ->
  forall k (S : list row), length S <= k -> NoDup S -> Forall (vrow n) S -> (forall x h, In x S -> In h H -> In (rmul x h) S) ->
  Nat.divide (length H) (length S).
Proof.
  intros NH Ne VH G. rewrite Forall_forall in VH.
  induction k as [|k IH]; intros S L NS VS C.
  - destruct S; [exists 0; auto|cbn in L; lia].
  - destruct S as [|x S0]; [exists 0; auto|]. set (S := x :: S0) in *. rewrite Forall_forall in VS.
    assert (Vx : vrow n x) by (apply VS; left; auto).
    set (C1 := map (rmul x) H). set (S1 := filter (fun y => negb (row_mem y C1)) S).
    assert (I1 : forall y, In y S1 <-> In y S /\ ~ In y C1).
    { intros y. unfold S1. rewrite filter_In, negb_true_iff. split; intros [A B]; split; auto.
      - intros Hc. apply row_mem_iff in Hc. congruence.
      - destruct (row_mem y C1) eqn:E; auto. apply row_mem_iff in E. tauto. }
    assert (NC : NoDup C1).
    { unfold C1. apply NoDup_map_inj; auto. intros a b Ha Hb E.
      rewrite <- (rmul_rounds_l_vrow n a), <- (rmul_rounds_l_vrow n b) by auto.
      rewrite <- (rmul_rinv_l n x Vx), !(rmul_assoc_vrow n) by auto. congruence. }
    assert (P : Permutation S (C1 ++ S1)).
    { apply NoDup_Permutation; auto.
      - apply NoDup_app_intro; auto; [apply NoDup_filter; auto|]. intros y Hy Hy'. apply I1 in Hy'. tauto.
      - intros y. rewrite in_app_iff, I1. split.
        + intros Hy. destruct (in_dec (list_eq_dec Nat.eq_dec) y C1); auto.
        + intros [Hy|[Hy _]]; auto. unfold C1 in Hy. apply in_map_iff in Hy as (h & <- & Hh). apply C; auto. left; auto. }
    apply Permutation_length in P. rewrite app_length in P. unfold C1 in P. rewrite map_length in P.
    assert (D : Nat.divide (length H) (length S1)).
    { apply IH.
      - destruct H; [congruence|]. cbn [length] in P. lia.
      - apply NoDup_filter; auto.
      - apply Forall_forall. intros y Hy. apply I1 in Hy. apply VS, Hy.
      - intros y h Hy Hh. apply I1 in Hy as [Hy Hn]. apply I1. split; [apply C; auto|]. intros Hc. apply Hn.
        unfold C1 in *. apply in_map_iff in Hc as (g & E & Hg). apply in_map_iff. exists (rmul g (rinv h)). split.
        + rewrite <- (rmul_assoc_vrow n) by (auto; apply valid_rinv; auto). rewrite E.
          rewrite (rmul_assoc_vrow n) by (auto; apply valid_rinv; auto). rewrite (rmul_rinv_r n) by auto. apply rmul_rounds_r. apply VS; auto.
        + apply (subgroup_mul n (fun x => In x H)); auto; [apply valid_rinv; auto|]. apply (subgroup_inv n (fun x => In x H)); auto. }
    rewrite P. apply Nat.divide_add_r; auto. apply Nat.divide_refl.
Qed.

(** ** Parities *)
Lemma sgn_rinv n r : vrow n r -> sgn (rinv r) = sgn r.
Proof.
  intros V. pose proof (sgn_rmul n r (rinv r) V (valid_rinv n r V)) as E. rewrite (rmul_rinv_r n r V) in E.
  unfold row_rounds, range in E. rewrite sgn_rounds in E. destruct (sgn r), (sgn (rinv r)); cbn in E; congruence.
Qed.

Lemma legal_from_length s i l : legal_from s i l -> i <= s /\ length l <= s - i.
Proof. induction 1; cbn; lia. Qed.

Lemma legal_from_ge s i l : legal_from s i l -> forall j, In j l -> i <= j.
Proof.
  induction 1 as [|i l Hi H IH|i l Hi H IH]; intros j Hj; [destruct Hj| |].
  - destruct Hj as [<-|Hj]; auto. specialize (IH j Hj). lia.
  - specialize (IH j Hj). lia.
Qed.

Lemma sgn_rings s i l : legal_from s i l -> forall r r', rings l i r r' -> length r = s - i -> NoDup r ->
  sgn r' = xorb (sgn r) (Nat.odd ((s - i - length l) / 2)).
Proof.
  induction 1 as [|i l Hi H IH|i l Hi H IH]; intros r r' R L N.
  - destruct r; [|cbn in L; lia]. inversion R. rewrite Nat.sub_diag. reflexivity.
  - destruct r as [|b r]; [cbn in L; lia|]. pose proof (legal_from_ge _ _ _ H) as Ge.
    inversion R as [|? ? r0 r0' I R'|? ? ? ? ? N1]; subst; [|exfalso; apply N1; left; auto].
    assert (R2 : rings l (i + 1) r r0').
    { eapply rings_ext; [|exact R']. intros j Hj. cbn. split; [intros [?|?]; [lia|auto]|auto]. }
    inversion N; subst. cbn in L. pose proof (IH _ _ R2 ltac:(lia) ltac:(auto)) as E.
    cbn [sgn length]. rewrite E. rewrite (xor_all_perm _ r0' r) by (symmetry; eapply rings_perm; eauto).
    replace (s - i - S (length l)) with (s - (i + 1) - length l) by lia. rewrite xorb_assoc. reflexivity.
  - destruct r as [|a [|b r]]; cbn in L; try lia. pose proof (legal_from_ge _ _ _ H) as Ge. pose proof (legal_from_length _ _ _ H) as Le.
    inversion R as [|? ? r0 r0' I R'|? ? ? ? r0' N1 N2 R']; subst; [exfalso; apply Ge in I; lia|].
    inversion N as [|? ? Na Nr]; subst. inversion Nr as [|? ? Nb N']; subst.
    pose proof (IH _ _ R' ltac:(lia) N') as E.
    replace (s - i - length l) with (1 * 2 + (s - (i + 2) - length l)) by lia. rewrite Nat.div_add_l by lia.
    rewrite Nat.odd_add. change (Nat.odd 1) with true. cbn [sgn xor_all fold_right]. rewrite E.
    fold (xor_all (fun y => y <? a) r0') (xor_all (fun y => y <? b) r0') (xor_all (fun y => y <? a) r) (xor_all (fun y => y <? b) r).
    pose proof (rings_perm _ _ _ _ R') as P. rewrite (xor_all_perm (fun y => y <? a) r0' r), (xor_all_perm (fun y => y <? b) r0' r) by (symmetry; exact P).
    assert (D : (b <? a) = negb (a <? b)).
    { destruct (Nat.ltb_spec b a), (Nat.ltb_spec a b); try reflexivity; try lia. exfalso. apply Na. left. lia. }
    rewrite D. destruct (a <? b), (xor_all (fun y => y <? a) r), (xor_all (fun y => y <? b) r), (sgn r), (Nat.odd _); reflexivity.
Qed.

Lemma sgn_change pn r r' s : legal pn -> pn_stage pn = s -> vrow s r -> rings (pn_places pn) 0 r r' ->
  sgn r' = xorb (sgn r) (Nat.odd ((s - length (pn_places pn)) / 2)).
Proof.
  intros [P G] S [V L] R. subst s. rewrite (sgn_rings _ _ _ G r r' R); [f_equal; f_equal; f_equal; lia|lia|].
  apply valid_row_iff in V. apply V.
Qed.

Lemma sgn_rpow n r k : vrow n r -> sgn (rpow r k) = sgn r && Nat.odd k.
Proof.
  intros V. induction k as [|k IH]; cbn [rpow].
  - unfold row_rounds, range. rewrite sgn_rounds. rewrite andb_false_r. reflexivity.
  - rewrite (sgn_rmul n) by (auto; apply vrow_rpow; auto). rewrite IH, Nat.odd_succ, <- Nat.negb_odd.
    destruct (sgn r), (Nat.odd k); reflexivity.
Qed.

Lemma powers_rinv n r x : vrow n r -> (exists j, x = rpow r (S j)) -> exists j, x = rpow (rinv r) (S j).
Proof.
  intros V (j & ->). destruct (finite_order n r V) as (k & P & E). exists (S j * (k - 1) + (k - 1)).
  set (m := S (S j * (k - 1) + (k - 1))). rewrite (rpow_rinv n) by auto.
  pose proof (vrow_rpow n r m V) as Vm. pose proof (vrow_rpow n r (S j) V) as Vj.
  apply (rinv_unique n); auto. rewrite <- (rpow_add n) by auto.
  replace (m + S j) with (k * S (S j)) by (unfold m; nia). apply (rpow_mul_rounds n); auto.
Qed.

Lemma powers_of_inverse n r x : vrow n r -> ((exists j, x = rpow r (S j)) <-> exists j, x = rpow (rinv r) (S j)).
Proof.
  intros V. split; [apply (powers_rinv n); auto|]. intros H. apply (powers_rinv n) in H; [|apply valid_rinv; auto].
  destruct H as (j & ->). exists j. f_equal. symmetry. apply (rinv_unique n); [apply valid_rinv; auto|auto|apply rmul_rinv_l; auto].
Qed.

Definition pairs (pn : place_not) : nat := (pn_stage pn - length (pn_places pn)) / 2.

Lemma sgn_rung s r pns rs x : rung r pns rs x -> vrow s r -> Forall (fun pn => legal pn /\ pn_stage pn = s) pns ->
  forall i y, nth_error (r :: rs) i = Some y -> sgn y = xorb (sgn r) (Nat.odd (list_sum (map pairs (firstn i pns)))).
Proof.
  induction 1 as [r|r pn pns r1 rs r' R H IH]; intros V F i y E.
  - destruct i as [|i]; [injection E as <-|destruct i; discriminate]. cbn. rewrite xorb_false_r. reflexivity.
  - inversion F as [|? ? [G S] F']; subst. destruct i as [|i]; [injection E as <-; cbn; rewrite xorb_false_r; reflexivity|].
    pose proof (rings_vrow _ _ _ _ _ V R) as V1. specialize (IH V1 F' i y E). rewrite IH.
    rewrite (sgn_change pn r r1 _ G eq_refl V R). cbn [firstn map list_sum fold_right]. rewrite Nat.odd_add, xorb_assoc. reflexivity.
Qed.
