(** Property theorems C149: plain courses as products of a group with the rows of a lead. *)

(* Generated from tools/props/Part.src: the proofs behind PropsPart.v. *)
From Coq Require Import Permutation.
From Verif Require Import Base Spec ListFacts Bell Stage Row RowFacts MulFacts GroupFacts GroupFacts2
  Utils SameStageVec SpecVec SsvFacts Block SpecBlock BlockFacts PlaceNot SpecPn PnFacts PnFacts2 PnFacts3
  Class Method Call SpecMethod MethodFacts TruthFacts LawFacts2 CycleFacts CosetFacts PartFacts.
From Verif Require Import RowThms GroupThms SsvThms MethodThms Laws2Thms.
Local Open Scope list_scope.

Lemma pf_C149_plain_courses_are_products :
  forall m s ars lo fuel pc pars pe fuel' powers,
    block_holds (first_lead m) s ars lo -> is_identity (hd [] (all_rows_of ars lo)) ->
    plain_course fuel m = Ret pc -> block_holds pc s pars pe -> closure_from_rounds fuel' lo = Ret powers ->
    (exists l, multi_cartesian_product [powers; map fst ars] = Ret (Ok l) /\ Permutation l (map fst pars)) /\
    exists leads, Forall2 (fun p lead => multi_cartesian_product [[p]; map fst ars] = Ret (Ok lead)) powers leads /\ map fst pars = concat leads.
Proof.
  intros m s ars lo fuel pc pars pe fuel' powers H I Epc B Ecl.
  destruct (pf_C59_plain_course m s ars lo H I) as (k & pc' & pars' & pe' & Hk & (e & Pe & Ie) & Min & Ec & B' & _ & Ll & Hn).
  assert (pc' = pc) as -> by (eapply plain_course_det; eauto).
  assert (pars' = pars) as ->.
  { destruct B as (_ & _ & _ & _ & _ & B & _), B' as (_ & _ & _ & _ & _ & B' & _). congruence. }
  apply holds_brep in H. pose proof (brep_vrows _ _ _ _ H) as [F V].
  apply power_fun in Pe. subst e. apply identity_rounds in Ie. rewrite (proj2 (vrow_rpow s lo k V)) in Ie.
  destruct (closure_from_rounds_result s lo fuel' powers V Ecl) as (k' & Hk' & Ik & Mk & ->).
  assert (k' = k) as ->.
  { destruct (Nat.lt_trichotomy k k') as [Q|[Q|Q]]; auto.
    - exfalso. apply (Mk k); auto.
    - exfalso. apply (Min k' (rpow lo k')); [lia|eapply power_rpow; eauto|]. rewrite Ik. apply rounds_identity. }
  assert (Er : map fst pars = flat_map (fun j => map (rmul (rpow lo j)) (map fst ars)) (seq 0 k)).
  { apply (blocks_of_list (length ars)).
    - rewrite map_length. auto.
    - intros. rewrite !map_length. auto.
    - intros j i r Hj Hi. rewrite map_map, nth_error_map in Hi. destruct (nth_error ars i) as [[r0 l]|] eqn:Er; [|discriminate].
      injection Hi as <-. destruct (Hn j i r0 l Hj Er) as (h & r' & Ph & Cr & E & _). apply power_fun in Ph. subst h. apply composition_fun in Cr. subst r'.
      rewrite nth_error_map, E. reflexivity. }
  assert (Vp : Forall (vrow s) (map (rpow lo) (seq 0 k))).
  { apply Forall_forall. intros x Ix. apply in_map_iff in Ix as (j & <- & _). apply vrow_rpow. auto. }
  split.
  - exists (mstep (map (rpow lo) (seq 0 k)) (map fst ars)). split.
    + rewrite (mcp_ok s _ [map fst ars]) by (repeat constructor; auto). reflexivity.
    + rewrite <- (heads_first (map fst ars) (map (rpow lo) (seq 0 k))), Er. rewrite !flat_map_concat_map, map_map. auto.
  - exists (map (fun p => map (rmul p) (map fst ars)) (map (rpow lo) (seq 0 k))). split.
    + clear Ecl Er. induction Vp as [|p ps Vp Vps IH]; cbn [map]; constructor; auto.
      rewrite (mcp_ok s [p] [map fst ars]) by (repeat constructor; auto; apply Vp). cbn [fold_left].
      assert (Q : mstep [p] (map fst ars) = map (rmul p) (map fst ars)); [|rewrite Q; auto].
      unfold mstep. clear. induction (map fst ars) as [|r rs IH]; cbn; [auto|]. cbn in IH. rewrite IH. auto.
    + rewrite Er, flat_map_concat_map, !map_map. auto.
Qed.

Lemma pf_C149_groups_of_lead_heads_are_whole_courses :
  forall m s ars lo fuel pc pars pe fuel' powers group,
    block_holds (first_lead m) s ars lo -> is_identity (hd [] (all_rows_of ars lo)) ->
    plain_course fuel m = Ret pc -> block_holds pc s pars pe -> closure_from_rounds fuel' lo = Ret powers ->
    Forall (fun r => valid_row r /\ length r = s) group -> NoDup group -> is_group_set group = Ret (Ok true) -> In lo group ->
    exists heads l l', (forall h, In h heads -> In h group) /\ NoDup heads /\ length heads * length powers = length group /\
      multi_cartesian_product [group; map fst ars] = Ret (Ok l) /\
      multi_cartesian_product [heads; map fst pars] = Ret (Ok l') /\ Permutation l l'.
Proof.
  intros m s ars lo fuel pc pars pe fuel' powers G H I Epc B Ecl Vg Ng Eg Il.
  destruct (pf_C149_plain_courses_are_products m s ars lo fuel pc pars pe fuel' powers H I Epc B Ecl) as [(l & El & Pl) _].
  apply holds_brep in H. pose proof (brep_vrows _ _ _ _ H) as [F V].
  apply holds_brep in B. pose proof (brep_vrows _ _ _ _ B) as [FB _].
  destruct (closure_from_rounds_result s lo fuel' powers V Ecl) as (k & Hk & Ik & Mk & ->).
  set (P := map (rpow lo) (seq 0 k)) in *.
  assert (Vp : Forall (vrow s) P).
  { apply Forall_forall. intros x Ix. apply in_map_iff in Ix as (j & <- & _). apply vrow_rpow. auto. }
  assert (Np : NoDup P) by (apply (rpow_NoDup s); auto).
  assert (Gp : is_group_set P = Ret (Ok true)).
  { destruct (closure_ok s lo V) as (k' & _ & _ & _ & C & _). specialize (C (S k') ltac:(lia)).
    eapply (proj1 pf_C83_closures_and_least_groups_are_groups lo); [apply V|exact C|]. split; auto.
    intros x. rewrite (closure_lists s lo k _ _ V Hk Ik Mk C). unfold P. rewrite in_map_iff. split.
    - intros (j & <- & Ij). apply in_seq in Ij. exists j. split; [lia|auto].
    - intros (j & Hj & ->). exists j. split; auto. apply in_seq. lia. }
  destruct (group_facts s P Vp Gp) as [NeP SP]. destruct (group_facts s G Vg Eg) as [NeG SG].
  pose proof Vg as FG. rewrite Forall_forall in FG. pose proof Vp as FP. rewrite Forall_forall in FP.
  assert (PG : forall x, In x P -> In x G).
  { intros x Ix. apply in_map_iff in Ix as (j & <- & _). clear - Il SG FG V NeG Ng. induction j as [|j IH].
    - cbn [rpow]. rewrite (proj2 V). apply (parts_rounds s G); auto.
    - cbn [rpow]. apply (subgroup_mul s (fun x => In x G)); auto. apply vrow_rpow. auto. }
  destruct (parts_right s P G) as (hs & H1 & H2); auto.
  assert (Vh : Forall (vrow s) hs) by (apply Forall_forall; intros x Ix; apply FG; auto).
  rewrite (mcp_ok s P [map fst ars]) in El by (repeat constructor; auto). injection El as <-.
  exists hs, (mstep G (map fst ars)), (mstep hs (map fst pars)). splits; auto.
  - assert (N2 : NoDup (mstep hs P)) by (eapply Permutation_NoDup; [symmetry; exact H2|auto]).
    destruct P as [|p ps]; [congruence|]. unfold mstep in N2. cbn [flat_map] in N2. apply NoDup_app_elim in N2 as [N2 _]. apply NoDup_map_inv in N2. auto.
  - rewrite <- (Permutation_length H2). symmetry. apply parts_length.
  - rewrite (mcp_ok s G [map fst ars]) by (repeat constructor; auto). reflexivity.
  - rewrite (mcp_ok s hs [map fst pars]) by (repeat constructor; auto). reflexivity.
  - rewrite <- (mstep_perm_r _ _ hs Pl), <- (mstep_assoc s) by auto. apply mstep_perm_l. symmetry. auto.
Qed.
