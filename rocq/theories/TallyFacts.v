(** Counting the music of some rows. *)
From Verif Require Import Base Spec ListFacts Bell Stage Row RowFacts MulFacts GroupFacts
  Utils SameStageVec SpecVec SsvFacts Block SpecBlock BlockFacts PlaceNot Class Method MethodFacts Mask MaskFacts2 Music SpecMask SpecRename SpecTally TruthFacts CycleFacts.
From Verif Require Import MaskThms MethodThms RenameThms.
Local Open Scope list_scope.

Lemma mask_tally_app m a b : mask_tally m (a ++ b) = mask_tally m a + mask_tally m b.
Proof. unfold mask_tally. rewrite filter_app, app_length. auto. Qed.
Lemma regex_tally_app m a b : regex_tally m (a ++ b) = regex_tally m a + regex_tally m b.
Proof. unfold regex_tally. rewrite filter_app, app_length. auto. Qed.

Lemma filter_map_same {A B} (f : B -> bool) (g : A -> bool) (h : A -> B) l : (forall x, In x l -> f (h x) = g x) -> length (filter f (map h l)) = length (filter g l).
Proof.
  induction l as [|x l IH]; intros E; auto. cbn [map filter]. rewrite (E x) by (left; auto). destruct (g x); cbn [length]; rewrite IH; auto; intros; apply E; right; auto.
Qed.

Lemma mask_tally_moved s h m rows : vrow s h -> length m = s -> (forall p b, specifies m p b -> b < s) -> Forall (vrow s) rows ->
  exists m', row_mul_mask (rinv h) m = Ret m' /\ mask_tally m (map (rmul h) rows) = mask_tally m' rows.
Proof.
  intros Vh Lm B F. pose proof (valid_rinv s h Vh) as Vi. rewrite Forall_forall in F.
  assert (Hs : 0 < s). { destruct Vh as [[N _] L]. destruct h; [congruence|cbn in L; lia]. }
  assert (Lm' : length m = length (rinv h)) by (rewrite (proj2 Vi); auto).
  destruct (pf_C46_row_times_mask m (rinv h) h (rmul (rinv h) h) (proj1 Vi) (proj1 Vh) Lm') as (m' & Em & _); auto.
  { rewrite (proj2 Vi), (proj2 Vh). auto. } { rewrite (proj2 Vi). auto. } { apply (composition_vrow s); auto. }
  exists m'. split; auto.
  assert (N : m <> []). { intros ->. cbn in Lm. lia. }
  unfold mask_tally. apply filter_map_same. intros r I. pose proof (F r I) as Vr. pose proof (valid_rmul s h r Vh Vr) as Vhr.
  destruct (pf_C46_row_times_mask m (rinv h) (rmul h r) (rmul (rinv h) (rmul h r)) (proj1 Vi) (proj1 Vhr) Lm') as (m2 & Em2 & K); auto.
  { rewrite (proj2 Vi), (proj2 Vhr). auto. } { rewrite (proj2 Vi). auto. } { apply (composition_vrow s); auto. }
  rewrite Em in Em2. injection Em2 as <-. rewrite <- (rmul_assoc_vrow s), (rmul_rinv_l s), (rmul_rounds_l_vrow s) in K by auto.
  assert (N' : m' <> []).
  { destruct (row_mul_mask_ok (rinv h) m (proj1 Vi) Lm') as (m3 & Em3 & L3 & _). { rewrite (proj2 Vi). auto. } rewrite Em in Em3. injection Em3 as <-. intros ->. cbn in L3. lia. }
  destruct (pf_C46_matches m (rmul h r) N (proj1 Vhr)) as (v & -> & Kv). destruct (pf_C46_matches m' r N' (proj1 Vr)) as (v' & -> & Kv').
  destruct v, v'; auto; exfalso.
  - assert (false = true) by (apply Kv', K, Kv; auto). discriminate.
  - assert (false = true) by (apply Kv, K, Kv'; auto). discriminate.
Qed.

Lemma regex_tally_moved s h es fs es' fs' rows : vrow s h -> Forall (vrow s) rows -> Forall2 (renamed h) es fs ->
  regex_from_vec es = Ret es' -> regex_from_vec fs = Ret fs' -> regex_tally fs' (map (rmul h) rows) = regex_tally es' rows.
Proof.
  intros Vh F R E E'. rewrite Forall_forall in F. unfold regex_tally. apply filter_map_same. intros r I. pose proof (F r I) as Vr.
  destruct (pf_C115_other_bells h es fs r (proj1 Vh) (proj1 Vr)) as (e1 & f1 & y & v & pl & A1 & A2 & A3 & A4 & A5 & _); auto.
  { rewrite (proj2 Vh), (proj2 Vr). auto. }
  rewrite E in A1. injection A1 as <-. rewrite E' in A2. injection A2 as <-. rewrite (row_mul_ok s) in A3 by auto. injection A3 as <-. rewrite A4, A5. auto.
Qed.

(** The rows of a plain course, lead by lead. *)
Lemma course_rows m s ars lo fuel pc pars pe fuel' heads :
  block_holds (first_lead m) s ars lo -> is_identity (hd [] (all_rows_of ars lo)) -> plain_course fuel m = Ret pc -> block_holds pc s pars pe ->
  closure_from_rounds fuel' lo = Ret heads ->
  map fst pars = concat (map (fun h => map (rmul h) (map fst ars)) heads) /\ Forall (vrow s) heads /\ Forall (vrow s) (map fst ars).
Proof.
  intros H I Epc B Ecl.
  destruct (pf_C59_plain_course m s ars lo H I) as (k & pc' & pars' & pe' & Hk & (e & Pe & Ie) & Min & Ec & B' & _ & Ll & Hn).
  assert (pc' = pc) as -> by (eapply plain_course_det; eauto).
  assert (pars' = pars) as ->.
  { destruct B as (_ & _ & _ & _ & _ & B & _), B' as (_ & _ & _ & _ & _ & B' & _). congruence. }
  apply holds_brep in H. pose proof (brep_vrows _ _ _ _ H) as [F V].
  apply power_fun in Pe. subst e. apply identity_rounds in Ie. rewrite (proj2 (vrow_rpow s lo k V)) in Ie.
  assert (Mn : forall j, 0 < j < k -> rpow lo j <> row_rounds s).
  { intros j Hj E. apply (Min j (rpow lo j) Hj); [eapply power_rpow; eauto|]. rewrite E. apply rounds_identity. }
  destruct (closure_from_rounds_result s lo fuel' heads V Ecl) as (k' & Hk' & Ek' & Mn' & ->).
  assert (k' = k) as ->.
  { destruct (Nat.lt_trichotomy k' k) as [L|[L|L]]; auto; exfalso; [apply (Mn k'); auto|apply (Mn' k); auto]. }
  split; [|split; auto; apply Forall_forall; intros h Hh; apply in_map_iff in Hh as (j & <- & _); apply vrow_rpow; auto].
  assert (Ec' : concat (map (fun h => map (rmul h) (map fst ars)) (map (rpow lo) (seq 0 k))) = map fst (course lo ars k)).
  { unfold course. generalize (seq 0 k). intros l. induction l as [|j l IH]; auto. cbn [map concat flat_map]. rewrite map_app, IH. f_equal. rewrite !map_map. auto. }
  rewrite Ec'. apply nth_error_ext. intros i.
  destruct (Nat.lt_ge_cases i (k * length ars)) as [L|L].
  - assert (La : 0 < length ars) by (destruct (length ars); [lia|lia]).
    pose proof (Nat.div_mod i (length ars) ltac:(lia)) as D. pose proof (Nat.mod_upper_bound i (length ars) ltac:(lia)) as M.
    set (j := i / length ars) in *. set (q := i mod length ars) in *. assert (J : j < k) by nia.
    assert (Ei : i = j * length ars + q) by lia. rewrite Ei, !nth_error_map, nth_course by auto.
    destruct (nth_error ars q) as [[r l]|] eqn:Er; [|apply nth_error_None in Er; lia].
    destruct (Hn j q r l J Er) as (h & r' & Ph & Cr & E & _). apply power_fun in Ph. subst h. apply composition_fun in Cr. subst r'. rewrite E. reflexivity.
  - assert (A1 : nth_error (map fst pars) i = None) by (apply nth_error_None; rewrite map_length; lia).
    assert (A2 : nth_error (map fst (course lo ars k)) i = None) by (apply nth_error_None; rewrite map_length, course_length; lia). congruence.
Qed.

Lemma mask_tally_leads s m rows heads : length m = s -> (forall p b, specifies m p b -> b < s) -> Forall (vrow s) rows -> Forall (vrow s) heads ->
  exists ms, Forall2 (fun h m' => row_mul_mask (rinv h) m = Ret m') heads ms /\
    mask_tally m (concat (map (fun h => map (rmul h) rows) heads)) = list_sum (map (fun m' => mask_tally m' rows) ms).
Proof.
  intros Lm B F Fh. induction Fh as [|h heads Vh Fh (ms & F2 & E)]; [exists []; split; auto|].
  destruct (mask_tally_moved s h m rows Vh Lm B F) as (m' & Em & T). exists (m' :: ms). split; [constructor; auto|].
  cbn [map concat list_sum fold_right]. rewrite mask_tally_app, T, E. auto.
Qed.
