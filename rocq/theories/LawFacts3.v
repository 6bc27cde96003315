(** Facts for the laws of plain courses. *)
From Verif Require Import Base Bell Stage Row Utils SameStageVec Block PlaceNot Spec SpecVec SpecBlock SpecPn ListFacts
  BellFacts RowFacts MulFacts GroupFacts SsvFacts BlockFacts PnFacts PnFacts2 PnFacts3 LawFacts Class Method SpecMethod MethodThms.
Local Open Scope list_scope.

Lemma plain_course_mono n : forall f f' b c, plain_course_loop f n b = Ret c -> f <= f' -> plain_course_loop f' n b = Ret c.
Proof.
  induction f as [|f IH]; intros f' b c E L; [discriminate|]. destruct f' as [|f']; [lia|]. cbn [plain_course_loop] in *.
  destruct (block_leftover_row b) as [r| | |]; cbn [bind] in *; auto; try discriminate.
  destruct (is_rounds r); auto. destruct (block_extend_from_within _ _ _) as [b'| | |]; cbn [bind] in *; auto; try discriminate.
  apply IH; auto. lia.
Qed.

Lemma nth_removelast {A} (l : list A) i x (d : A) : i + 1 < length l -> nth_error (removelast l) i = Some x <-> nth_error l i = Some x.
Proof.
  intros L. assert (E : l = removelast l ++ [last l d]) by (apply app_removelast_last; destruct l; [cbn in L; lia|discriminate]).
  rewrite E at 2.
  rewrite nth_error_app1; [reflexivity|]. rewrite removelast_firstn_len, firstn_length. lia.
Qed.

(** The plain course of a lead which rings [pns] from rounds. *)
Lemma course_of_changes m s pns ars rs lo : pns <> [] -> Forall (fun pn => legal pn /\ pn_stage pn = s) pns ->
  block_holds (first_lead m) s ars lo -> map fst ars = removelast (row_rounds s :: rs) -> rung (row_rounds s) pns rs lo ->
  exists k pc rows, 0 < k /\ (forall fuel, k <= fuel -> plain_course fuel m = Ret pc) /\
    block_all_rows pc = Ret rows /\ length rows = k * length pns + 1 /\
    (forall i, row_in_plain_course m i = Ret (nth (i mod (k * length pns)) rows [])) /\
    nth_error rows 0 = Some (row_rounds s) /\ nth_error rows (k * length pns) = Some (row_rounds s) /\
    (forall j, 0 < j < k -> nth_error rows (j * length pns) <> Some (row_rounds s)) /\
    (forall i r r', nth_error rows i = Some r -> nth_error rows (i + 1) = Some r' ->
       exists pn, nth_error pns (i mod length pns) = Some pn /\ vrow s r /\ vrow s r' /\ rings (pn_places pn) 0 r r').
Proof.
  intros N F H Ml Ru. set (L := length pns). assert (HL : 0 < L) by (destruct pns; [congruence|cbn; lia]).
  pose proof (rung_length _ _ _ _ Ru) as Lr. fold L in Lr.
  assert (La : length ars = L).
  { rewrite <- (map_length fst), Ml, removelast_firstn_len, firstn_length. cbn [length]. lia. }
  assert (Hs : 0 < s) by apply H. pose proof (valid_rounds s Hs) as Vr.
  assert (Ne : ars <> []) by (intros ->; cbn in La; lia).
  assert (N0 : nth_error (map fst ars) 0 = Some (row_rounds s)).
  { rewrite Ml. apply (nth_removelast _ _ _ []); [cbn; lia|reflexivity]. }
  assert (Id : is_identity (hd [] (all_rows_of ars lo))).
  { destruct ars as [|[r a] ars0]; [congruence|]. cbn in *. injection N0 as ->. apply rounds_identity. }
  destruct (pf_C59_plain_course m s ars lo H Id) as (k & pc & pars & pe & Hk & (e & Pe & Ie) & Hm & Ec & B & Ipe & Lp & Hn).
  pose proof H as (_ & _ & Fa & Vlo & Llo & _). pose proof (conj Vlo Llo : vrow s lo) as Vl.
  pose proof (rung_vrow s _ _ _ _ Vr Ru) as [Frs _].
  assert (Lead : forall i r, i < L -> nth_error (row_rounds s :: rs) i = Some r -> exists l, nth_error ars i = Some (r, l)).
  { intros i r Hi E. apply (nth_removelast _ _ _ []) in E; [|cbn; lia]. rewrite <- Ml, nth_error_map in E.
    destruct (nth_error ars i) as [[r0 l]|]; [|discriminate]. injection E as ->. eauto. }
  assert (Last : nth_error (row_rounds s :: rs) L = Some lo).
  { clear - Ru Lr. unfold L in *. clear Lr. induction Ru; auto. }
  (* the row at lead j, place i of the lead *)
  assert (At : forall j i r, j < k -> i < L -> nth_error (row_rounds s :: rs) i = Some r ->
     nth_error (map fst pars) (j * L + i) = Some (rmul (rpow lo j) r) /\ row_in_plain_course m (j * L + i) = Ret (rmul (rpow lo j) r)).
  { intros j i r Hj Hi E. destruct (Lead i r Hi E) as (l & El). destruct (Hn j i r l Hj El) as (h & r' & Ph & C & E1 & E2).
    apply power_fun in Ph. subst h. apply composition_fun in C. subst r'. rewrite La in E1, E2. rewrite nth_error_map, E1. auto. }
  exists k, pc, (map fst pars ++ [pe]). split; auto. split; auto.
  assert (Rows : block_all_rows pc = Ret (map fst pars ++ [pe])) by (eapply brep_all_rows, holds_brep; eauto).
  assert (Ek : rpow lo k = row_rounds s).
  { apply power_fun in Pe. subst e. apply identity_rounds in Ie. rewrite Ie. f_equal. apply (vrow_rpow s lo k Vl). }
  assert (Epe : pe = row_rounds s).
  { apply identity_rounds in Ipe. rewrite Ipe. f_equal. apply B. }
  assert (Lm : length (map fst pars) = k * L) by (rewrite map_length; lia).
  split; auto. split; [rewrite app_length, Lm; reflexivity|]. fold L.
  set (rows := map fst pars ++ [pe]) in *.
  set (lead i := nth i (row_rounds s :: rs) []).
  assert (Hlead : forall i, i <= L -> nth_error (row_rounds s :: rs) i = Some (lead i)).
  { intros i Hi. apply nth_error_nth'. cbn [length]. lia. }
  set (W t := rmul (rpow lo (t / L)) (lead (t mod L))).
  assert (Vlead : forall i, i <= L -> vrow s (lead i)).
  { intros i Hi. pose proof (Hlead i Hi) as E. destruct i as [|i]; [exact Vr|]. cbn [nth_error] in E.
    rewrite Forall_forall in Frs. apply Frs. eapply nth_error_In. exact E. }
  assert (VW : forall t, vrow s (W t)).
  { intros t. apply valid_rmul; [apply vrow_rpow; auto|]. apply Vlead. pose proof (Nat.mod_upper_bound t L). lia. }
  assert (A : forall t, t <= k * L -> nth_error rows t = Some (W t)).
  { intros t Ht. unfold rows. destruct (Nat.eq_dec t (k * L)) as [->|Nt].
    - rewrite nth_error_app2, Lm, Nat.sub_diag by lia. cbn. f_equal. unfold W. rewrite Nat.div_mul, Nat.mod_mul by lia.
      unfold lead. cbn [nth]. rewrite Ek, Epe. symmetry. apply rmul_rounds_r. apply length_rounds.
    - rewrite nth_error_app1 by lia. pose proof (Nat.mod_upper_bound t L ltac:(lia)) as Hi.
      assert (Hj : t / L < k) by (apply Nat.div_lt_upper_bound; [lia|]; rewrite (Nat.mul_comm L k); lia).
      destruct (At (t / L) (t mod L) (lead (t mod L)) Hj Hi (Hlead (t mod L) (Nat.lt_le_incl _ _ Hi))) as [E _].
      replace (t / L * L + t mod L) with t in E by (rewrite Nat.mul_comm; apply Nat.div_mod; lia). exact E. }
  assert (St : forall t, exists pn, nth_error pns (t mod L) = Some pn /\ rings (pn_places pn) 0 (W t) (W (t + 1))).
  { intros t. pose proof (Nat.mod_upper_bound t L ltac:(lia)) as Hi. pose proof (Nat.div_mod t L ltac:(lia)) as Dt.
    destruct (rung_nth _ _ _ _ (t mod L) (lead (t mod L)) (lead (t mod L + 1)) Ru) as (pn & E & R); try (apply Hlead; lia).
    exists pn. split; auto. apply (rings_map _ (fun x => nth x (rpow lo (t / L)) 0)) in R.
    assert (W (t + 1) = map (fun x => nth x (rpow lo (t / L)) 0) (lead (t mod L + 1))) as ->; [|exact R].
    destruct (Nat.eq_dec (t mod L + 1) L) as [Q|Q].
    - assert (t + 1 = (t / L + 1) * L) as E1 by nia. unfold W. rewrite E1, Nat.div_mul, Nat.mod_mul by lia.
      assert (lead (t mod L + 1) = lo) as ->. { rewrite Q. pose proof (Hlead L (Nat.le_refl _)) as X. rewrite Last in X. congruence. }
      unfold lead. cbn [nth]. rewrite rmul_rounds_r by apply (vrow_rpow s lo _ Vl). rewrite Nat.add_1_r. reflexivity.
    - assert (t + 1 = t / L * L + (t mod L + 1)) as E1 by (rewrite (Nat.mul_comm (t / L) L); lia). unfold W. rewrite E1.
      rewrite Nat.div_add_l, (Nat.div_small (t mod L + 1)), Nat.add_0_r by lia.
      rewrite (Nat.add_comm (t / L * L)), Nat.mod_add, (Nat.mod_small (t mod L + 1)) by lia. reflexivity. }
  assert (W0 : forall j, W (j * L) = rpow lo j).
  { intros j. unfold W. rewrite Nat.div_mul, Nat.mod_mul by lia. unfold lead. cbn [nth]. apply rmul_rounds_r. apply (vrow_rpow s lo _ Vl). }
  split.
  { intros i. destruct (pf_C59_row_in_plain_course m s ars lo k pc pars pe i) as (r & a & E1 & E2); auto.
    rewrite E2. f_equal. symmetry. apply nth_error_nth. unfold rows. rewrite <- Lm, map_length.
    assert (i mod length pars < length pars) by (apply Nat.mod_upper_bound; nia).
    rewrite nth_error_app1 by (rewrite map_length; auto). rewrite nth_error_map, E1. reflexivity. }
  split; [rewrite A by lia; f_equal; transitivity (rpow lo 0); [apply (W0 0)|cbn [rpow]; rewrite Llo; auto]|]. split; [rewrite A by lia; f_equal; rewrite W0; auto|]. split.
  - intros j Hj E. rewrite A in E by nia. rewrite W0 in E. injection E as E. apply (Hm j (rpow lo j) Hj); [eapply power_rpow; eauto|].
    rewrite E. apply rounds_identity.
  - intros i r r' E E'.
    assert (Hl : i + 1 < length rows) by (apply nth_error_Some; congruence). unfold rows in Hl. rewrite app_length, Lm in Hl. cbn in Hl.
    rewrite A in E, E' by lia. injection E as <-. injection E' as <-. destruct (St i) as (pn & P & R). exists pn. auto.
Qed.
