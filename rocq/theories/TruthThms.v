(** Property theorems C105: repeated rows are found by comparing the rows of one lead. *)

(* Generated from tools/props/Truth.src: the proofs behind PropsTruth.v. *)
From Verif Require Import Base Spec ListFacts Bell Stage Row RowFacts MulFacts GroupFacts
  Utils SameStageVec SpecVec SsvFacts Block SpecBlock BlockFacts PlaceNot SpecPn PnFacts PnFacts2 PnFacts3
  Class Method Call SpecMethod MethodFacts TruthFacts.
From Verif Require Import RowThms GroupThms SsvThms MethodThms.
Local Open Scope list_scope.

Lemma pf_C105_leads_with_a_row_in_common :
  forall v s rs a b va vb rows_a rows_b x, holds v s rs -> valid_row a -> valid_row b -> length a = s -> length b = s ->
    ssv_pre_multiply v a = Ret (va, Ok tt) -> ssv_rows va = Ret rows_a ->
    ssv_pre_multiply v b = Ret (vb, Ok tt) -> ssv_rows vb = Ret rows_b ->
    solve_ax_equals_b b a = Ret (Ok x) ->
    ((exists r, In r rows_a /\ In r rows_b) <->
     (exists p q, In p rs /\ In q rs /\ solve_xa_equals_b p q = Ret (Ok x))).
Proof.
  intros v s rs a b va vb rows_a rows_b x H Va Vb La Lb Ea Ra Eb Rb Ex. apply holds_rep in H.
  assert (Wa : vrow s a) by (split; auto). assert (Wb : vrow s b) by (split; auto).
  assert (F : forall p, In p rs -> vrow s p) by (apply Forall_forall, H).
  destruct (ssv_pre_multiply_ok s rs v a H Wa) as (va' & Ea' & Ha). destruct (ssv_pre_multiply_ok s rs v b H Wb) as (vb' & Eb' & Hb).
  assert (va' = va) by congruence. assert (vb' = vb) by congruence. subst va' vb'.
  rewrite (rep_rows _ _ _ Ha) in Ra. rewrite (rep_rows _ _ _ Hb) in Rb. injection Ra as <-. injection Rb as <-.
  destruct (pf_C13_row_equations b a Vb Va) as [_ Sx]. destruct (Sx ltac:(congruence)) as [(x' & Ex' & Vx & Lx & Cx & _) _].
  assert (x' = x) by congruence. subst x'. apply composition_fun in Cx. assert (Wx : vrow s x) by (split; auto; congruence).
  assert (K : forall p q, In p rs -> In q rs -> (rmul a p = rmul b q <-> solve_xa_equals_b p q = Ret (Ok x))).
  { intros p q Hp Hq. specialize (F p Hp) as Wp. specialize (F q Hq) as Wq. rewrite (solve_xa_ok s) by auto.
    rewrite Cx, (rmul_assoc_vrow s) by auto. split.
    - intros E. apply (rmul_cancel_l s) in E; auto; [|apply valid_rmul; auto]. rewrite <- E, (rmul_assoc_vrow s) by (auto using valid_rinv).
      rewrite (rmul_rinv_r s), rmul_rounds_r by (auto; apply Wx). reflexivity.
    - intros E. injection E as E. rewrite <- E, (rmul_assoc_vrow s) by (auto using valid_rinv).
      rewrite (rmul_rinv_l s), rmul_rounds_r by (auto; apply Wq). reflexivity. }
  split.
  - intros (r & Hra & Hrb). apply in_map_iff in Hra as (p & <- & Hp). apply in_map_iff in Hrb as (q & E & Hq).
    exists p, q. splits; auto. apply K; auto.
  - intros (p & q & Hp & Hq & E). exists (row_product a p). split; apply in_map_iff; [eauto|]. exists q. split; auto. symmetry. apply K; auto.
Qed.

Lemma pf_C105_true_touches :
  forall v s rs heads leads, holds v s rs -> Forall (fun h => valid_row h /\ length h = s) heads -> heads <> [] ->
    Forall2 (fun h lead => exists vh, ssv_pre_multiply v h = Ret (vh, Ok tt) /\ ssv_rows vh = Ret lead) heads leads ->
    (NoDup (concat leads) <->
     NoDup rs /\
     forall i j a b x p q, i < j -> nth_error heads i = Some a -> nth_error heads j = Some b ->
       solve_ax_equals_b a b = Ret (Ok x) -> In p rs -> In q rs -> solve_xa_equals_b p q <> Ret (Ok x)).
Proof.
  intros v s rs heads leads H Vh Ne F2. pose proof H as Hr. apply holds_rep in Hr.
  assert (F : forall p, In p rs -> vrow s p) by (apply Forall_forall, Hr).
  assert (El : leads = map (fun h => map (row_product h) rs) heads).
  { clear Ne. induction F2 as [|h lead hs ls (vh & E & R) _ IH]; auto. inversion Vh as [|? ? Vx Vt]; subst. cbn [map]. rewrite <- IH by auto. f_equal.
    destruct (ssv_pre_multiply_ok s rs v h Hr Vx) as (vh' & E' & R'). assert (vh' = vh) by congruence. subst. rewrite (rep_rows _ _ _ R') in R. congruence. }
  assert (Inj : forall h p q, vrow s h -> vrow s p -> vrow s q -> row_product h p = row_product h q -> p = q).
  { intros h p q Hh Hp Hq E. apply (rmul_cancel_l s) in E; auto. }
  assert (Com : forall a b, vrow s a -> vrow s b -> exists x, solve_ax_equals_b a b = Ret (Ok x) /\
            ((exists r, In r (map (row_product b) rs) /\ In r (map (row_product a) rs)) <-> exists p q, In p rs /\ In q rs /\ solve_xa_equals_b p q = Ret (Ok x))).
  { intros a b Wa Wb. destruct (pf_C13_row_equations a b (proj1 Wa) (proj1 Wb)) as [_ Sx]. destruct (Sx ltac:(rewrite (proj2 Wa), (proj2 Wb); auto)) as [(x & Ex & _) _].
    exists x. split; auto. destruct (ssv_pre_multiply_ok s rs v a Hr Wa) as (va & Ea & Ra). destruct (ssv_pre_multiply_ok s rs v b Hr Wb) as (vb & Eb & Rb).
    exact (pf_C105_leads_with_a_row_in_common v s rs b a vb va _ _ x H (proj1 Wb) (proj1 Wa) (proj2 Wb) (proj2 Wa) Eb (rep_rows _ _ _ Rb) Ea (rep_rows _ _ _ Ra) Ex). }
  subst leads. clear F2. split.
  - intros N. split.
    + destruct heads as [|h hs]; [congruence|]. cbn [map concat] in N. apply NoDup_app_elim in N as (N & _). apply NoDup_map_inv in N. auto.
    + clear Ne. revert Vh N. induction heads as [|h hs IH]; intros Vh N i j a b x p q Lij Ea Eb Ex Hp Hq Es; [destruct i; discriminate|].
      inversion Vh as [|? ? Vx Vt]; subst. cbn [map concat] in N. destruct i as [|i].
      * injection Ea as <-. destruct j as [|j]; [lia|]. cbn in Eb. assert (Wb : vrow s b) by (rewrite Forall_forall in Vt; eapply Vt, nth_error_In; eauto).
        destruct (Com h b Vx Wb) as (x' & Ex' & K). assert (x' = x) by congruence. subst x'.
        destruct (proj2 K) as (r & R1 & R2); [eauto|]. apply NoDup_app_elim in N as (_ & _ & N). apply (N r); auto.
        apply in_concat. exists (map (row_product b) rs). split; auto. apply in_map_iff. exists b. split; auto. eapply nth_error_In; eauto.
      * destruct j as [|j]; [lia|]. apply NoDup_app_elim in N as (_ & N & _). apply (IH Vt N i j a b x p q ltac:(lia) Ea Eb Ex Hp Hq Es).
  - intros [N T]. clear Ne. revert Vh T. induction heads as [|h hs IH]; intros Vh T; [constructor|].
    inversion Vh as [|? ? Vx Vt]; subst. cbn [map concat]. apply NoDup_app_intro.
    + apply NoDup_map_inj; auto. intros p q Hp Hq. apply Inj; auto.
    + apply IH; auto. intros i j a b x p q Lij Ea Eb. apply (T (S i) (S j) a b x p q); auto. lia.
    + intros r R1 R2. apply in_concat in R2 as (l & Hl & R2). apply in_map_iff in Hl as (b & <- & Hb).
      assert (Wb : vrow s b) by (rewrite Forall_forall in Vt; apply Vt; auto). apply In_nth_error in Hb as (j & Ej).
      destruct (Com h b Vx Wb) as (x & Ex & K). destruct (proj1 K) as (p & q & Hp & Hq & Es); [eauto|].
      apply (T 0 (S j) h b x p q ltac:(lia) eq_refl Ej Ex Hp Hq Es).
Qed.

Lemma pf_C105_true_plain_courses :
  forall m s ars lo fuel pc pars pe fuel' powers,
    block_holds (first_lead m) s ars lo -> is_identity (hd [] (all_rows_of ars lo)) ->
    plain_course fuel m = Ret pc -> block_holds pc s pars pe -> closure fuel' lo = Ret powers ->
    (NoDup (map fst pars) <->
     NoDup (map fst ars) /\
     forall p q x, In p (map fst ars) -> In q (map fst ars) -> solve_xa_equals_b p q = Ret (Ok x) -> In x powers -> p = q).
Proof.
  intros m s ars lo fuel pc pars pe fuel' powers H I Epc B Ecl.
  destruct (pf_C59_plain_course m s ars lo H I) as (k & pc' & pars' & pe' & Hk & (e & Pe & Ie) & Min & Ec & B' & _ & Ll & Hn).
  assert (pc' = pc) as -> by (eapply plain_course_det; eauto).
  assert (pars' = pars) as ->.
  { destruct B as (_ & _ & _ & _ & _ & B & _), B' as (_ & _ & _ & _ & _ & B' & _). congruence. }
  apply holds_brep in H. pose proof (brep_vrows _ _ _ _ H) as [F V]. rewrite Forall_forall in F.
  apply power_fun in Pe. subst e. apply identity_rounds in Ie. rewrite (proj2 (vrow_rpow s lo k V)) in Ie.
  assert (Mn : forall j, 0 < j < k -> rpow lo j <> row_rounds s).
  { intros j Hj E. apply (Min j (rpow lo j) Hj); [eapply power_rpow; eauto|]. rewrite E. apply rounds_identity. }
  set (n := length ars) in *.
  set (R := map fst ars). assert (Lr : length R = n) by (unfold R; apply map_length).
  assert (Nc : forall j i r, j < k -> nth_error R i = Some r -> nth_error (map fst pars) (j * n + i) = Some (rmul (rpow lo j) r)).
  { intros j i r Hj Hi. unfold R in Hi. rewrite nth_error_map in Hi. destruct (nth_error ars i) as [[r0 l]|] eqn:Er; [|discriminate].
    injection Hi as <-. destruct (Hn j i r0 l Hj Er) as (h & r' & Ph & Cr & E & _). apply power_fun in Ph. subst h. apply composition_fun in Cr. subst r'.
    rewrite nth_error_map, E. reflexivity. }
  assert (Pw : forall x, In x powers <-> exists j, j < k /\ x = rpow lo j).
  { exact (closure_lists s lo k fuel' powers V Hk Ie Mn Ecl). }
  assert (Wr : forall r, In r R -> vrow s r) by auto.
  split.
  - intros ND. split.
    + apply NoDup_nth_error. intros i j Hi E. destruct (nth_error R i) as [r|] eqn:Er; [|apply nth_error_None in Er; lia].
      apply (proj1 (NoDup_nth_error _) ND i j).
      * rewrite map_length, Ll. fold n. assert (i < n) by lia. nia.
      * pose proof (Nc 0 i r Hk Er) as A1. pose proof (Nc 0 j r Hk (eq_sym E)) as A2. cbn [Nat.mul Nat.add] in A1, A2. congruence.
    + intros p q x Hp Hq Es Hx. apply Pw in Hx as (j & Hj & ->). apply In_nth_error in Hp as (i1 & E1). apply In_nth_error in Hq as (i2 & E2).
      pose proof (Wr p (nth_error_In _ _ E1)) as Wp. pose proof (Wr q (nth_error_In _ _ E2)) as Wq.
      rewrite (solve_xa_ok s) in Es by auto. injection Es as Es.
      assert (Eq : q = rmul (rpow lo j) p).
      { rewrite <- Es, (rmul_assoc_vrow s), (rmul_rinv_l s), rmul_rounds_r by (auto using valid_rinv; apply Wq). reflexivity. }
      pose proof (Nc 0 i2 q Hk E2) as A1. pose proof (Nc j i1 p Hj E1) as A2. rewrite <- Eq in A2. cbn [Nat.mul Nat.add rpow] in A1.
      assert (L1 : i1 < n) by (rewrite <- Lr; apply nth_error_Some; congruence). assert (L2 : i2 < n) by (rewrite <- Lr; apply nth_error_Some; congruence).
      rewrite (proj2 V), (rmul_rounds_l_vrow s) in A1 by auto.
      assert (i2 = j * n + i1); [|assert (j = 0) by nia; subst j; replace i2 with i1 in E2 by lia; congruence].
      apply (proj1 (NoDup_nth_error _) ND); [rewrite map_length, Ll; fold n; nia|congruence].
  - intros [NR T]. apply NoDup_nth_error. intros u w Hu E. rewrite map_length, Ll in Hu. fold n in Hu.
    assert (Hw : w < k * n).
    { rewrite <- Ll, <- (map_length fst). apply nth_error_Some. rewrite <- E. apply nth_error_Some. rewrite map_length, Ll. auto. }
    assert (Pn : 0 < n) by nia.
    assert (Dc : forall u, u < k * n -> exists j i r, u = j * n + i /\ j < k /\ i < n /\ nth_error R i = Some r).
    { intros u' Hu'. exists (u' / n), (u' mod n). assert (u' mod n < n) by (apply Nat.mod_upper_bound; lia).
      destruct (nth_error R (u' mod n)) as [r|] eqn:Er; [|apply nth_error_None in Er; lia]. exists r. splits; auto.
      - rewrite Nat.mul_comm. apply Nat.div_mod. lia.
      - apply Nat.div_lt_upper_bound; lia. }
    destruct (Dc u Hu) as (j1 & i1 & p & -> & J1 & I1 & E1). destruct (Dc w Hw) as (j2 & i2 & q & -> & J2 & I2 & E2).
    rewrite (Nc _ _ _ J1 E1), (Nc _ _ _ J2 E2) in E. injection E as E.
    pose proof (Wr p (nth_error_In _ _ E1)) as Wp. pose proof (Wr q (nth_error_In _ _ E2)) as Wq.
    assert (Kk : forall a b p q, a <= b -> b < k -> In p R -> In q R -> rmul (rpow lo a) p = rmul (rpow lo b) q -> q = p /\ a = b).
    { intros a b p' q' Lab Lb Hp Hq Eab. pose proof (Wr _ Hp) as Wp'. pose proof (Wr _ Hq) as Wq'.
      replace b with (a + (b - a)) in Eab by lia. rewrite (rpow_add s), (rmul_assoc_vrow s) in Eab by (auto using vrow_rpow).
      apply (rmul_cancel_l s) in Eab; auto using vrow_rpow; [|apply valid_rmul; auto using vrow_rpow].
      assert (E0 : q' = p').
      { apply (T q' p' (rpow lo (b - a))); auto; [|apply Pw; exists (b - a); split; auto; lia].
        rewrite (solve_xa_ok s) by auto. rewrite Eab, (rmul_assoc_vrow s), (rmul_rinv_r s), rmul_rounds_r by (auto using valid_rinv; apply vrow_rpow; auto).
        reflexivity. }
      split; auto. subst q'. destruct (Nat.eq_dec a b); auto. exfalso. apply (Mn (b - a)); [lia|].
      apply (rmul_cancel_r s p'); auto using vrow_rpow; [apply valid_rounds; pose proof (rep_pos _ _ _ (proj1 H)); auto|].
      rewrite <- Eab, (rmul_rounds_l_vrow s) by auto. reflexivity. }
    assert (Z : p = q /\ j1 = j2).
    { destruct (Nat.le_ge_cases j1 j2) as [L|L].
      - destruct (Kk j1 j2 p q) as [? ?]; eauto using nth_error_In.
      - destruct (Kk j2 j1 q p) as [? ?]; eauto using nth_error_In. }
    destruct Z as [<- <-]. f_equal. apply (proj1 (NoDup_nth_error R) NR); [lia|congruence].
Qed.
