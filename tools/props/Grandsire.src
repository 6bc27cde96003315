(** Property theorems C143: Grandsire. *)
(*IMPORTS*)
From Verif Require Import Base Spec ListFacts Bell Stage Row RowFacts MulFacts GroupFacts
  Utils SameStageVec SpecVec SsvFacts Block SpecBlock BlockFacts PlaceNot SpecPn SpecLaws PnFacts PnFacts2 PnFacts3 LawFacts
  Class SpecClass ClassFacts ClassFacts2 ClassFacts3 Method SpecMethod MethodFacts SymFacts3 ShapeFacts BellPathFacts SpecHunt HuntFacts BobFacts SpecGrandsire GrandsireFacts.
From Verif Require Import SsvThms BlockThms PnThms LawsThms ClassThms MethodThms CtorThms CtorFacts.
Local Open Scope list_scope.
(*BODY*)
(** C143: the changes of Grandsire are legal, and on up to 33 bells they can be written. *)
Theorem C143_changes :
  forall n, 3 <= n -> length (grandsire n) = 2 * n /\ Forall (fun pn => legal pn /\ pn_stage pn = n) (grandsire n) /\
    (n <= 33 -> pn_block_parse (with_dots (grandsire n)) n = Ret (Ok (grandsire n))).
Proof.
  intros n H. pose proof (gs_legal n H) as F. split; [apply gs_length; lia|]. split; auto. intros L. apply pf_C81_changes_with_dots; auto; [lia|]. apply gs_nonempty.
Qed.

(** C143: its plain course has [n - 2] leads of [2 * n] rows; no row comes twice; the treble and the 2 plain hunt throughout, and no
    other bell is back in its place at a lead head before the end of the course. *)
Theorem C143_plain_course :
  forall n m, 3 <= n -> pn_block_to_block_from_rounds None (grandsire n) = Ret (first_lead m) ->
    exists pc pars, (forall fuel, n - 2 <= fuel -> plain_course fuel m = Ret pc) /\ block_holds pc n pars (seq 0 n) /\
      length pars = (n - 2) * (2 * n) /\ NoDup (map fst pars) /\
      (forall b, b < 2 -> block_path_of pc b = Ret (Some (map (hunting_place n b) (seq 0 ((n - 2) * (2 * n))), b))) /\
      (forall b k r, 2 <= b < n -> 0 < k < n - 2 -> nth_error (map fst pars) (k * (2 * n)) = Some r -> nth_error r b <> Some b).
Proof.
  intros n m H2 Em. assert (Hn : 0 < n) by lia. pose proof (gs_legal n H2) as F. pose proof (gs_nonempty n) as N.
  destruct (lead_course n (grandsire n) m Hn N F Em) as (K & pc & pars & pe & EK & Pc & H & Rows). rewrite gs_length in * by auto.
  pose proof (ends_fun _ _ _ _ _ EK (gs_ends n H2)) as ->.
  destruct (lead_crs n (grandsire n) Hn N F (@None str)) as (b0 & ars & E0 & H0 & M0 & _). rewrite Em in E0. injection E0 as <-. rewrite gs_length in * by auto.
  assert (I : is_identity (hd [] (all_rows_of ars (crs n (trof n (grandsire n)) (2 * n))))).
  { unfold all_rows_of. rewrite M0. unfold crows. replace (2 * n) with (S (2 * n - 1)) by lia. cbn [seq map app hd crs]. apply rounds_identity. }
  assert (Lp : length pars = (n - 2) * (2 * n)) by (rewrite <- (map_length fst), Rows; unfold course_rows; rewrite map_length, seq_length; auto).
  assert (Epe : pe = seq 0 n).
  { destruct (pf_C59_plain_course m n ars _ H0 I) as (K' & pc' & pars' & pe' & HK & (e & Pe & Ie) & Mi & Fu & Hp & Epe & _).
    pose proof (Fu (K' + n) ltac:(lia)) as E1. rewrite (Pc (K' + n) ltac:(lia)) in E1. injection E1 as <-.
    assert (X : pe' = pe) by (destruct H as (_ & _ & _ & _ & _ & _ & X); destruct Hp as (_ & _ & _ & _ & _ & _ & Y); congruence). subst pe'.
    apply identity_rounds in Epe. destruct H as (_ & _ & _ & _ & L & _). rewrite L in Epe. rewrite Epe. apply rounds_seq. }
  subst pe. change (course_rows n (2 * n) (trof n (grandsire n)) (n - 2)) with (map (grow n) (seq 0 ((n - 2) * (2 * n)))) in Rows.
  exists pc, pars. splits; auto.
  - rewrite Rows. apply NoDup_map_inj; [|apply seq_NoDup]. intros x y Hx Hy. apply in_seq in Hx, Hy. apply gs_inj; lia.
  - intros b Hb. destruct (proj1 (pf_C26_block_paths _ pc n pars (seq 0 n) b H) ltac:(lia)) as (p & l & -> & _ & F2 & El). f_equal. f_equal. f_equal.
    + rewrite Rows in F2. clear - F2 H2 Hb. revert p F2. generalize (seq 0 ((n - 2) * (2 * n))). induction l as [|t l IH]; intros p F2; inversion F2; subst; auto. cbn [map]. f_equal; auto.
      symmetry. apply H1. apply gs_hunts; auto.
    + symmetry. apply El. rewrite (nth_error_nth' _ 0), seq_nth; rewrite ?seq_length; auto; lia.
  - intros b k r Hb Hk Er Eb. assert (Lk : k * (2 * n) < (n - 2) * (2 * n)) by nia.
    rewrite Rows, nth_error_map, (nth_error_nth' _ 0), seq_nth in Er by (rewrite ?seq_length; auto). cbn [option_map Nat.add] in Er. injection Er as <-.
    rewrite grow_split, Nat.div_mul, Nat.mod_mul in Eb by lia. change (grow n 0) with (row_rounds n) in Eb. rewrite rmul_rounds_r in Eb by (apply vrow_rpow, gs_head_v; auto).
    apply (nth_error_nth _ _ 0) in Eb. destruct (gs_bell_ex n b ltac:(lia)) as (c & Hc & Ec). rewrite <- Ec in Eb. apply gs_home in Eb; auto. rewrite Nat.mod_small in Eb; lia.
Qed.

(** C143: on at least five bells it is a Bob method with two hunt bells, neither little nor differential.  So the standard title has
    the word Bob in it, which the title ringers use has not. *)
Theorem C143_class :
  forall hash_order name n stage text, (forall l, collected_set l (hash_order l)) -> 5 <= n -> stage_name n = Some stage ->
    pn_block_parse text n = Ret (Ok (grandsire n)) ->
    exists m h, from_place_not_string hash_order name n text = Ret (Ok m) /\
      pn_block_to_block_from_rounds None (grandsire n) = Ret (first_lead m) /\
      lead_head m = Ret h /\ (forall b, hunt_bell h b <-> b < 2) /\
      m_class m = FullClass false false false Bob /\ m_title m = joined (name_words name ++ [s2l "Bob"; stage]) /\
      m_title m <> joined (name_words name ++ [stage]).
Proof.
  intros ho name n stage text Ho H5 Sn Ep. assert (H2 : 3 <= n) by lia. assert (Hn : 0 < n) by lia. pose proof (gs_legal n H2) as F. pose proof (gs_nonempty n) as N.
  destruct (block_parse_inv text n _ Hn Ep) as [_ Bc].
  destruct (pf_C71_from_place_not_string ho name n text (grandsire n) stage Ho Sn Bc N) as (m & rs & lo & Em & Ru & B & _ & _ & _ & _ & _ & Ec & Ej & Et).
  destruct (lead_crs n (grandsire n) Hn N F (@None str)) as (b & ars & Eb & Hb & Ma & Nj). rewrite gs_length in * by auto.
  assert (Fl : first_lead m = b).
  { unfold from_place_not_string in Em. rewrite Ep in Em. cbn [bind] in Em. rewrite Eb in Em. cbn [bind] in Em.
    unfold with_name in Em. destruct (classify ho b) as [c| | |]; cbn [bind] in Em; try discriminate.
    destruct (generate_title name c (block_stage b)) as [ti| | |]; cbn [bind] in Em; try discriminate. injection Em as <-. reflexivity. }
  subst b. change (crs n (trof n (grandsire n)) (2 * n)) with (gs_head n) in *. exists m, (gs_head n). split; auto. split; auto.
  split; [destruct Hb as (_ & _ & _ & _ & _ & _ & X); exact X|].
  assert (Ea : map fst ars = map (grow n) (seq 0 (2 * n))) by (rewrite Ma; reflexivity).
  assert (La : length (map fst ars) = 2 * n) by (rewrite Ea, map_length, seq_length; auto).
  assert (Na : forall t, t < 2 * n -> nth_error (map fst ars) t = Some (grow n t)).
  { intros t Ht. rewrite Ea, nth_error_map, (nth_error_nth' _ 0), seq_nth by (rewrite ?seq_length; auto). reflexivity. }
  assert (Nars : ars <> []) by (intros ->; cbn in La; lia).
  assert (I : is_identity (hd [] (map fst ars))).
  { pose proof (Na 0 ltac:(lia)) as Q. destruct (map fst ars) as [|x l]; [discriminate|]. injection Q as ->. apply rounds_identity. }
  assert (Nj' : forall i r1 r2, change_at (map fst ars) (gs_head n) i r1 r2 -> no_jump r1 r2) by (intros i r1 r2; rewrite Ma; apply Nj).
  destruct (pf_C62_classification _ (first_lead m) n ars _ ho Hb Nars I Nj' Ho) as (fc & Efc & Jf & Df & Pr & _ & Do & Cl). rewrite Ec in Efc. injection Efc as <-.
  destruct (gs_head_v n H2) as [Vh Lh].
  assert (Hb0 : forall x, hunt_bell (gs_head n) x <-> x < 2).
  { intros x. unfold hunt_bell. split.
    - intros Hx. assert (Lx : x < n) by (rewrite <- Lh; apply nth_error_Some; congruence). apply (nth_error_nth _ _ 0) in Hx. destruct (Nat.lt_ge_cases x 2) as [|Nx]; auto. exfalso.
      destruct (gs_bell_ex n x ltac:(lia)) as (c & Hc & <-). rewrite gs_head_step in Hx by auto. apply gs_bell_inj in Hx; auto; [|apply Nat.mod_upper_bound; lia].
      rewrite mod_next in Hx by auto. destruct (Nat.eqb_spec (c + 1) (n - 2)); lia.
    - intros Hx. rewrite (nth_error_nth' _ 0) by lia. f_equal. apply gs_head_01; auto. }
  split; auto.
  assert (Pt : path_in (map fst ars) 0 = seq 0 n ++ rev (seq 0 n)).
  { rewrite <- treble_path by auto. unfold path_in. rewrite Ea, map_map. apply map_ext_in. intros t Ht. apply in_seq in Ht.
    apply place_in_unique; [apply grow_v; auto|]. apply gs_hunts; auto. }
  assert (Pc : path_class (path_in (map fst ars) 0) HPlain).
  { rewrite Pt. apply SpecClass.pc_plain.
    - intros (q & Q). assert (0 = q) by (apply Q; apply in_or_app; left; apply in_seq; lia). assert (1 = q) by (apply Q; apply in_or_app; left; apply in_seq; lia). lia.
    - intros q Hq. apply treble_visits. apply in_app_or in Hq as [Hq|Hq]; [|apply in_rev in Hq]; apply in_seq in Hq; lia. }
  assert (D0 : dominant (map fst ars) (gs_head n) 0 HPlain).
  { split; [apply Hb0; lia|]. split; auto. intros y h' _ _. destruct h'; cbn; lia. }
  destruct (Cl 0 HPlain D0) as [Mc Li].
  assert (Bo : fc_class (m_class m) = Bob).
  { inversion Mc as [x Hx Nd Ts Q|Pl Q| | | | | |]; auto. exfalso.
    set (x := nth 4 (gs_head n) 0).
    pose proof (grow_v n (2 * n - 1) H2) as Vl. pose proof (grow_v n 1 H2) as V1.
    assert (Lx : x < n) by (unfold x; pose proof (valid_row_nth_lt _ 4 Vh) as X; rewrite Lh in X; apply X; lia).
    assert (X4 : nth_error (gs_head n) 4 = Some x) by (apply nth_error_nth'; lia).
    assert (X3 : nth_error (grow n (2 * n - 1)) 3 = Some x).
    { rewrite (nth_error_nth' _ 0) by (rewrite (proj2 Vl); lia). f_equal. unfold x, gs_head. replace (2 * n) with (S (2 * n - 1)) at 2 by lia. unfold grow. cbn [crs]. fold (grow n (2 * n - 1)).
      rewrite trof_gs, trof_hunting by lia. rewrite nth_rmul by (rewrite map_length, seq_length; lia). f_equal. replace (2 * n - 1) with (2 * (n - 1) + 1) by lia. rewrite even21.
      rewrite (nth_indep _ 0 (second_from n 0)) by (rewrite map_length, seq_length; lia). rewrite map_nth, seq_nth by lia. reflexivity. }
    assert (X1 : nth_error (rmul (gs_head n) (grow n 1)) 3 = Some x).
    { rewrite (nth_error_nth' _ 0) by (rewrite length_rmul, (proj2 V1); lia). f_equal. rewrite nth_rmul by (rewrite (proj2 V1); lia). unfold x. f_equal. unfold grow. cbn [crs].
      rewrite rmul_rounds_l_vrow by (apply gs_trof_v; auto). rewrite trof_gs_first by auto.
      rewrite (nth_indep _ 0 (gs_from n 0)) by (rewrite map_length, seq_length; lia). rewrite map_nth, seq_nth by lia. cbn [Nat.add]. unfold gs_from. cbn [Nat.eqb Nat.even Nat.add]. bools. }
    apply (Pl x); [lia| |].
    - intros (Hx & _). apply Hb0 in Hx. assert (nth x (gs_head n) 0 = x) as Q0 by (apply gs_head_01; auto). destruct Vh as (_ & Nd & _).
      assert (x = 4); [|lia]. apply (proj1 (NoDup_nth_error _) Nd); [lia|]. rewrite X4. rewrite (nth_error_nth' _ 0) by lia. congruence.
    - assert (P0 : power (gs_head n) 0 (row_rounds n)) by (constructor; [rewrite length_rounds; auto|apply rounds_identity]).
      assert (P1 : power (gs_head n) 1 (gs_head n)).
      { econstructor; [exact P0|]. rewrite <- (rmul_rounds_l_vrow n (gs_head n)) at 2 by (split; auto). apply (composition_vrow n); [apply valid_rounds; auto|split; auto]. }
      assert (Cr : forall r, vrow n r -> composition (row_rounds n) r r).
      { intros r Vr. rewrite <- (rmul_rounds_l_vrow n r) at 2 by auto. apply (composition_vrow n); auto. apply valid_rounds; auto. }
      exists (2 * n - 1), 3, 4. unfold course_place. rewrite La. splits.
      + exists (grow n (2 * n - 1)), (row_rounds n), (grow n (2 * n - 1)). rewrite Nat.mod_small, Nat.div_small by lia. splits; auto. apply Na. lia.
      + exists (grow n 0), (gs_head n), (gs_head n). replace (2 * n - 1 + 1) with (2 * n) by lia. rewrite Nat.mod_same, Nat.div_same by lia. splits; auto; [apply Na; lia|].
        change (grow n 0) with (row_rounds n). assert (Qr : rmul (gs_head n) (row_rounds n) = gs_head n) by (apply rmul_rounds_r; auto).
        pose proof (composition_vrow n (gs_head n) (row_rounds n) (conj Vh Lh) (valid_rounds n Hn)) as C. rewrite Qr in C. exact C.
      + exists (grow n 1), (gs_head n), (rmul (gs_head n) (grow n 1)). replace (2 * n - 1 + 2) with (1 + 1 * (2 * n)) by lia. rewrite Nat.mod_add, Nat.div_add, Nat.mod_small, Nat.div_small by lia.
        splits; auto; [apply Na; lia|]. apply (composition_vrow n); [split; auto|auto].
      + left. auto. }
  assert (Nl : is_little (m_class m) = false).
  { destruct (is_little (m_class m)) eqn:El; auto. exfalso. destruct (proj1 Li eq_refl 0 D0) as (q & Hq & Nq). apply Nq. rewrite Pt. apply in_or_app. left. apply in_seq. lia. }
  assert (Ra : forall x k, x < n -> ~ hunt_bell (gs_head n) x -> returns_after (gs_head n) x k -> k = n - 2).
  { intros x k Hx Nx (Hk & (h & P & E) & Mi). apply power_fun in P. subst h. assert (2 <= x) by (destruct (Nat.lt_ge_cases x 2); auto; exfalso; apply Nx, Hb0; auto).
    destruct (gs_bell_ex n x ltac:(lia)) as (c & Hc & Ex). pose proof (vrow_rpow n _ k (conj Vh Lh)) as [_ Lk]. apply (nth_error_nth _ _ 0) in E. rewrite <- Ex in E. apply gs_home in E; auto.
    apply Nat.mod_divides in E; [|lia]. destruct E as [q Q]. destruct (Nat.lt_ge_cases (n - 2) k) as [L|L]; [|assert (q <> 0) by (intros ->; lia); nia]. exfalso.
    apply (Mi (n - 2) (rpow (gs_head n) (n - 2))); [lia|apply (power_rpow n); split; auto|]. pose proof (vrow_rpow n _ (n - 2) (conj Vh Lh)) as [_ Lk'].
    rewrite (nth_error_nth' _ 0) by lia. f_equal. rewrite <- Ex. apply gs_home; auto. apply Nat.mod_same. lia. }
  assert (Nd : is_differential (m_class m) = false).
  { destruct (is_differential (m_class m)) eqn:Ed; auto. exfalso. destruct (proj1 Df eq_refl) as (x & y & k & l & Hx & Nx & Rx & Hy & Ny & Ry & Ne). apply Ne. rewrite (Ra x k), (Ra y l); auto. }
  assert (Ti : m_title m = joined (name_words name ++ [s2l "Bob"; stage])).
  { destruct (m_class m) as [j li d c]. cbn [is_jump is_little is_differential fc_class] in *. subst j li d c. auto. }
  splits; auto.
  - destruct (m_class m) as [j li d c]. cbn [is_jump is_little is_differential fc_class] in *. subst j li d c. auto.
  - rewrite Ti. intros E. apply (f_equal (@length _)) in E. clear - E. unfold name_words in E. destruct name; cbn [app joined] in E; rewrite ?app_length in E; cbn [length s2l] in E; rewrite ?app_length in E; cbn in E; lia.
Qed.

Example C143_example :
  pn_block_parse (s2l "3,1.5.1.5.1") 5 = Ret (Ok (grandsire 5)) /\ pn_block_parse (s2l "36,16-16-16-") 6 = Ret (Ok (grandsire 6)) /\
  exists m pc, from_place_not_string (nodup Nat.eq_dec) (s2l "Grandsire") 7 (s2l "3,1.7.1.7.1.7.1") = Ret (Ok m) /\
    m_title m = s2l "Grandsire Bob Triples" /\ pn_block_to_block_from_rounds None (grandsire 7) = Ret (first_lead m) /\
    plain_course 5 m = Ret pc /\ block_len pc = 70 /\ lead_head m = Ret [0; 1; 4; 2; 6; 3; 5].
Proof. vm_compute. split; [reflexivity|]. split; [reflexivity|]. eexists. eexists. repeat (split; [reflexivity|]). reflexivity. Qed.
