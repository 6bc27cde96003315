(** Property theorems C132: Plain Bob. *)
(*IMPORTS*)
From Verif Require Import Base Spec ListFacts Bell Stage Row RowFacts MulFacts GroupFacts
  Utils SameStageVec SpecVec SsvFacts Block SpecBlock BlockFacts PlaceNot SpecPn SpecLaws PnFacts PnFacts2 PnFacts3 LawFacts
  Class SpecClass ClassFacts ClassFacts2 ClassFacts3 Method SpecMethod MethodFacts SymFacts3 ShapeFacts BellPathFacts SpecHunt HuntFacts BobFacts.
From Verif Require Import SsvThms BlockThms PnThms LawsThms ClassThms MethodThms CtorThms CtorFacts.
Local Open Scope list_scope.
(*BODY*)
(** C132: the changes of Plain Bob are legal, and on up to 33 bells they can be written. *)
Theorem C132_changes :
  forall n, 2 <= n -> length (plain_bob n) = 2 * n /\ Forall (fun pn => legal pn /\ pn_stage pn = n) (plain_bob n) /\
    (n <= 33 -> pn_block_parse (with_dots (plain_bob n)) n = Ret (Ok (plain_bob n))).
Proof.
  intros n H. pose proof (bob_legal n H) as F. split; [apply bob_length; lia|]. split; auto. intros L. apply pf_C81_changes_with_dots; auto; [lia|]. apply bob_nonempty.
Qed.

(** C132: its plain course has [n - 1] leads of [2 * n] rows, the treble hunts in every one of them, and no row comes twice exactly
    when there are at least four bells. *)
Theorem C132_plain_course :
  forall n m, 2 <= n -> pn_block_to_block_from_rounds None (plain_bob n) = Ret (first_lead m) ->
    exists pc pars, (forall fuel, n - 1 <= fuel -> plain_course fuel m = Ret pc) /\ block_holds pc n pars (seq 0 n) /\
      length pars = (n - 1) * (2 * n) /\ (NoDup (map fst pars) <-> 4 <= n) /\
      block_path_of pc 0 = Ret (Some (concat (repeat (seq 0 n ++ rev (seq 0 n)) (n - 1)), 0)).
Proof.
  intros n m H2 Em. assert (Hn : 0 < n) by lia. pose proof (bob_legal n H2) as F. pose proof (bob_nonempty n) as N.
  destruct (lead_course n (plain_bob n) m Hn N F Em) as (K & pc & pars & pe & EK & Pc & H & Rows). rewrite bob_length in * by auto.
  pose proof (ends_fun _ _ _ _ _ EK (bob_ends n H2)) as ->.
  destruct (lead_crs n (plain_bob n) Hn N F (@None str)) as (b0 & ars & E0 & H0 & M0 & _). rewrite Em in E0. injection E0 as <-. rewrite bob_length in * by auto.
  assert (I : is_identity (hd [] (all_rows_of ars (crs n (trof n (plain_bob n)) (2 * n))))).
  { unfold all_rows_of. rewrite M0. unfold crows. replace (2 * n) with (S (2 * n - 1)) by lia. cbn [seq map app hd crs]. apply rounds_identity. }
  assert (Lp : length pars = (n - 1) * (2 * n)) by (rewrite <- (map_length fst), Rows; unfold course_rows; rewrite map_length, seq_length; auto).
  assert (Epe : pe = seq 0 n).
  { destruct (pf_C59_plain_course m n ars _ H0 I) as (K' & pc' & pars' & pe' & HK & (e & Pe & Ie) & Mi & Fu & Hp & Epe & _).
    pose proof (Fu (K' + n) ltac:(lia)) as E1. rewrite (Pc (K' + n) ltac:(lia)) in E1. injection E1 as <-.
    assert (X : pe' = pe) by (destruct H as (_ & _ & _ & _ & _ & _ & X); destruct Hp as (_ & _ & _ & _ & _ & _ & Y); congruence). subst pe'.
    apply identity_rounds in Epe. destruct H as (_ & _ & _ & _ & L & _). rewrite L in Epe. rewrite Epe. apply rounds_seq. }
  subst pe. exists pc, pars. splits; auto.
  - rewrite Rows. change (course_rows n (2 * n) (trof n (plain_bob n)) (n - 1)) with (map (brow n) (seq 0 ((n - 1) * (2 * n)))). split.
    + intros Nd. destruct (Nat.lt_ge_cases n 4) as [L|L]; auto. exfalso.
      assert (D : n = 2 \/ n = 3) by lia. destruct D as [-> | ->]; vm_compute in Nd.
      * inversion Nd as [|x l A B]; subst. inversion B as [|x l A' B']; subst. apply A'. left. auto.
      * apply NoDup_count_occ with (decA := list_eq_dec Nat.eq_dec) (x := [0; 2; 1]) in Nd. vm_compute in Nd. lia.
    + intros L. apply NoDup_map_inj; [|apply seq_NoDup]. intros x y Hx Hy. apply in_seq in Hx, Hy. apply bob_inj; lia.
  - destruct (proj1 (pf_C26_block_paths _ pc n pars (seq 0 n) 0 H) ltac:(lia)) as (p & l & -> & _ & F2 & El). f_equal. f_equal. f_equal.
    + rewrite <- treble_path by auto. rewrite <- (seq_blocks (hunting_place n 0) (2 * n) (n - 1)) by lia.
      rewrite Rows in F2. change (course_rows n (2 * n) (trof n (plain_bob n)) (n - 1)) with (map (brow n) (seq 0 ((n - 1) * (2 * n)))) in F2.
      clear - F2 H2. revert p F2. generalize (seq 0 ((n - 1) * (2 * n))). induction l as [|t l IH]; intros p F2; inversion F2; subst; auto. cbn [map]. f_equal; auto.
      symmetry. apply H1. apply treble_in_course. auto.
    + symmetry. apply El. rewrite (nth_error_nth' _ 0), seq_nth; rewrite ?seq_length; auto.
Qed.

(** C132: on at least four bells it is a Bob method with one hunt bell, neither little nor differential. *)
Theorem C132_class :
  forall hash_order name n stage text, (forall l, collected_set l (hash_order l)) -> 4 <= n -> stage_name n = Some stage ->
    pn_block_parse text n = Ret (Ok (plain_bob n)) ->
    exists m, from_place_not_string hash_order name n text = Ret (Ok m) /\
      pn_block_to_block_from_rounds None (plain_bob n) = Ret (first_lead m) /\
      m_class m = FullClass false false false Bob /\ m_title m = joined (name_words name ++ [s2l "Bob"; stage]).
Proof.
  intros ho name n stage text Ho H4 Sn Ep. assert (H2 : 2 <= n) by lia. assert (Hn : 0 < n) by lia. pose proof (bob_legal n H2) as F. pose proof (bob_nonempty n) as N.
  destruct (block_parse_inv text n _ Hn Ep) as [_ Bc].
  destruct (pf_C71_from_place_not_string ho name n text (plain_bob n) stage Ho Sn Bc N) as (m & rs & lo & Em & Ru & B & _ & _ & _ & _ & _ & Ec & Ej & Et).
  destruct (lead_crs n (plain_bob n) Hn N F (@None str)) as (b & ars & Eb & Hb & Ma & Nj). rewrite bob_length in * by auto.
  assert (Fl : first_lead m = b).
  { unfold from_place_not_string in Em. rewrite Ep in Em. cbn [bind] in Em. rewrite Eb in Em. cbn [bind] in Em.
    unfold with_name in Em. destruct (classify ho b) as [c| | |]; cbn [bind] in Em; try discriminate.
    destruct (generate_title name c (block_stage b)) as [ti| | |]; cbn [bind] in Em; try discriminate. injection Em as <-. reflexivity. }
  subst b. exists m. split; auto. split; auto.
  assert (Ea : map fst ars = map (brow n) (seq 0 (2 * n))) by (rewrite Ma; reflexivity).
  assert (La : length (map fst ars) = 2 * n) by (rewrite Ea, map_length, seq_length; auto).
  assert (Na : forall t, t < 2 * n -> nth_error (map fst ars) t = Some (hrow n t)).
  { intros t Ht. rewrite Ea, nth_error_map, (nth_error_nth' _ 0), seq_nth by (rewrite ?seq_length; auto). cbn [option_map Nat.add]. f_equal. apply brow_hrow; auto. }
  assert (Nars : ars <> []) by (intros ->; cbn in La; lia).
  assert (I : is_identity (hd [] (map fst ars))).
  { pose proof (Na 0 ltac:(lia)) as Q. destruct (map fst ars) as [|x l]; [discriminate|]. injection Q as ->. apply rounds_identity. }
  assert (Nj' : forall i r1 r2, change_at (map fst ars) (crs n (trof n (plain_bob n)) (2 * n)) i r1 r2 -> no_jump r1 r2) by (intros i r1 r2; rewrite Ma; apply Nj).
  destruct (pf_C62_classification _ (first_lead m) n ars _ ho Hb Nars I Nj' Ho) as (fc & Efc & Jf & Df & Pr & _ & Do & Cl). rewrite Ec in Efc. injection Efc as <-.
  change (crs n (trof n (plain_bob n)) (2 * n)) with (bob_head n) in *.
  destruct (bob_head_v n H2) as [Vh Lh].
  assert (Hb0 : forall x, hunt_bell (bob_head n) x <-> x = 0).
  { intros x. unfold hunt_bell. split.
    - intros Hx. assert (Lx : x < n) by (rewrite <- Lh; apply nth_error_Some; congruence). apply (nth_error_nth _ _ 0) in Hx. destruct (Nat.eq_dec x 0) as [|Nx]; auto. exfalso.
      destruct (working_ex n x ltac:(lia)) as (c & Hc & <-). rewrite bob_head_step in Hx by auto. apply working_inj in Hx; auto; [|apply Nat.mod_upper_bound; lia].
      rewrite mod_next in Hx by auto. destruct (Nat.eqb_spec (c + 1) (n - 1)); lia.
    - intros ->. rewrite (nth_error_nth' _ 0) by lia. f_equal. apply bob_head_0. auto. }
  assert (Pt : path_in (map fst ars) 0 = seq 0 n ++ rev (seq 0 n)).
  { rewrite <- treble_path by auto. unfold path_in. rewrite Ea, map_map. apply map_ext_in. intros t Ht. apply in_seq in Ht. rewrite brow_hrow by (auto; lia).
    apply place_in_unique; [apply hrow_v; auto|]. apply hrow_place. auto. }
  assert (Pc : path_class (path_in (map fst ars) 0) HPlain).
  { rewrite Pt. apply SpecClass.pc_plain.
    - intros (q & Q). assert (0 = q) by (apply Q; apply in_or_app; left; apply in_seq; lia). assert (1 = q) by (apply Q; apply in_or_app; left; apply in_seq; lia). lia.
    - intros q Hq. apply treble_visits. apply in_app_or in Hq as [Hq|Hq]; [|apply in_rev in Hq]; apply in_seq in Hq; lia. }
  assert (D0 : dominant (map fst ars) (bob_head n) 0 HPlain).
  { split; [apply Hb0; auto|]. split; auto. intros y h' _ _. destruct h'; cbn; lia. }
  destruct (Cl 0 HPlain D0) as [Mc Li].
  assert (Bo : fc_class (m_class m) = Bob).
  { inversion Mc as [x Hx Nd Ts Q|Pl Q| | | | | |]; auto. exfalso.
    set (x := nth 3 (hrow n (2 * n - 1)) 0).
    pose proof (hrow_v n (2 * n - 1) Hn) as Vl. pose proof (hrow_v n (2 * n - 2) Hn) as Vm.
    assert (Lx : x < n) by (unfold x; pose proof (valid_row_nth_lt _ 3 (proj1 Vl)) as X; rewrite (proj2 Vl) in X; apply X; lia).
    assert (X3 : nth_error (hrow n (2 * n - 1)) 3 = Some x) by (apply nth_error_nth'; rewrite (proj2 Vl); lia).
    assert (X2 : nth_error (hrow n (2 * n - 2)) 2 = Some x).
    { rewrite (nth_error_nth' _ 0) by (rewrite (proj2 Vm); lia). f_equal. unfold x. replace (2 * n - 1) with (S (2 * n - 2)) by lia. unfold hrow. cbn [crs]. fold (hrow n (2 * n - 2)).
      rewrite nth_rmul by (rewrite trof_hunting, map_length, seq_length by auto; lia). f_equal. rewrite trof_hunting by auto. replace (2 * n - 2) with (2 * (n - 1)) by lia. rewrite even2.
      rewrite (nth_indep _ 0 (first_from n 0)) by (rewrite map_length, seq_length; lia). rewrite map_nth, seq_nth by lia. reflexivity. }
    assert (X4 : nth_error (bob_head n) 2 = Some x).
    { rewrite (nth_error_nth' _ 0) by lia. f_equal. rewrite bob_head_end by lia. unfold x, lead_end_row. f_equal. unfold end_from, first_from. change (2 <? 2) with false. change (Nat.even 2) with true. change (2 + 1) with 3. cbv iota. bools. }
    apply (Pl x); [lia| |].
    - intros (Hx & _). apply Hb0 in Hx. rewrite Hx in X3. apply (hrow_only n 3 0 _ Hn) in X3. unfold hunting_place in X3. cbn [Nat.even Nat.add] in X3. rewrite Nat.mod_small in X3 by lia.
      unfold out_and_in in X3. destruct (Nat.ltb_spec (2 * n - 1) n); lia.
    - assert (P0 : power (bob_head n) 0 (row_rounds n)) by (constructor; [rewrite length_rounds; auto|apply rounds_identity]).
      assert (P1 : power (bob_head n) 1 (bob_head n)).
      { econstructor; [exact P0|]. rewrite <- (rmul_rounds_l_vrow n (bob_head n)) at 2 by (split; auto). apply (composition_vrow n); [apply valid_rounds; auto|split; auto]. }
      assert (Cr : forall r, vrow n r -> composition (row_rounds n) r r).
      { intros r Vr. rewrite <- (rmul_rounds_l_vrow n r) at 2 by auto. apply (composition_vrow n); auto. apply valid_rounds; auto. }
      exists (2 * n - 2), 2, 3. unfold course_place. rewrite La. splits.
      + exists (hrow n (2 * n - 2)), (row_rounds n), (hrow n (2 * n - 2)). rewrite Nat.mod_small, Nat.div_small by lia. splits; auto. apply Na. lia.
      + exists (hrow n (2 * n - 1)), (row_rounds n), (hrow n (2 * n - 1)). replace (2 * n - 2 + 1) with (2 * n - 1) by lia. rewrite Nat.mod_small, Nat.div_small by lia. splits; auto. apply Na. lia.
      + exists (hrow n 0), (bob_head n), (bob_head n). replace (2 * n - 2 + 2) with (2 * n) by lia. rewrite Nat.mod_same, Nat.div_same by lia. splits; auto; [apply Na; lia|].
        change (hrow n 0) with (row_rounds n). assert (Qr : rmul (bob_head n) (row_rounds n) = bob_head n) by (apply rmul_rounds_r; auto).
        pose proof (composition_vrow n (bob_head n) (row_rounds n) (conj Vh Lh) (valid_rounds n Hn)) as C. rewrite Qr in C. exact C.
      + left. auto. }
  assert (Nl : is_little (m_class m) = false).
  { destruct (is_little (m_class m)) eqn:El; auto. exfalso. destruct (proj1 Li eq_refl 0 D0) as (q & Hq & Nq). apply Nq. rewrite Pt. apply in_or_app. left. apply in_seq. lia. }
  assert (Ra : forall x k, x < n -> ~ hunt_bell (bob_head n) x -> returns_after (bob_head n) x k -> k = n - 1).
  { intros x k Hx Nx (Hk & (h & P & E) & Mi). apply power_fun in P. subst h. assert (x <> 0) by (intros ->; apply Nx, Hb0; auto).
    destruct (working_ex n x ltac:(lia)) as (c & Hc & Ex). pose proof (vrow_rpow n _ k (conj Vh Lh)) as [_ Lk]. apply (nth_error_nth _ _ 0) in E. rewrite <- Ex in E. apply bob_home in E; auto.
    apply Nat.mod_divides in E; [|lia]. destruct E as [q Q]. destruct (Nat.lt_ge_cases (n - 1) k) as [L|L]; [|assert (q <> 0) by (intros ->; lia); nia]. exfalso.
    apply (Mi (n - 1) (rpow (bob_head n) (n - 1))); [lia|apply (power_rpow n); split; auto|]. pose proof (vrow_rpow n _ (n - 1) (conj Vh Lh)) as [_ Lk'].
    rewrite (nth_error_nth' _ 0) by lia. f_equal. rewrite <- Ex. apply bob_home; auto. apply Nat.mod_same. lia. }
  assert (Nd : is_differential (m_class m) = false).
  { destruct (is_differential (m_class m)) eqn:Ed; auto. exfalso. destruct (proj1 Df eq_refl) as (x & y & k & l & Hx & Nx & Rx & Hy & Ny & Ry & Ne). apply Ne. rewrite (Ra x k), (Ra y l); auto. }
  destruct (m_class m) as [j li d c]. cbn [is_jump is_little is_differential fc_class] in *. subst j li d c. split; auto.
Qed.

Example C132_example :
  pn_block_parse (s2l "-16-16-16,12") 6 = Ret (Ok (plain_bob 6)) /\ pn_block_parse (s2l "5.1.5.1.5,125") 5 = Ret (Ok (plain_bob 5)) /\
  exists m pc, from_place_not_string (nodup Nat.eq_dec) (s2l "Plain") 6 (s2l "-16-16-16,12") = Ret (Ok m) /\
    m_title m = s2l "Plain Bob Minor" /\ pn_block_to_block_from_rounds None (plain_bob 6) = Ret (first_lead m) /\
    plain_course 5 m = Ret pc /\ block_len pc = 60 /\ lead_head m = Ret [0; 2; 4; 1; 5; 3].
Proof. vm_compute. split; [reflexivity|]. split; [reflexivity|]. eexists. eexists. repeat (split; [reflexivity|]). reflexivity. Qed.
