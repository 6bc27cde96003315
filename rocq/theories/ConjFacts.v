(** Facts about rows with bells and places renamed. *)
From Verif Require Import Base Spec ListFacts Bell Stage Parity Row RowFacts MulFacts GroupFacts CoverFacts SpecConj.
Local Open Scope list_scope.

Lemma vrow_rounds_of n w : vrow n w -> vrow n (row_rounds n).
Proof. intros ((N & _) & <-). apply valid_rounds. destruct w; [congruence|cbn; lia]. Qed.

Definition cj (x r : row) : row := rmul (rmul x r) (rinv x).

Section cj.
  Context (n : nat) (w : row).
  Hypothesis Hw : vrow n w.

  Lemma cj_vrow r : vrow n r -> vrow n (cj w r).
  Proof. intros V. unfold cj. apply valid_rmul; [apply valid_rmul; auto|apply valid_rinv; auto]. Qed.

  Lemma cj_mid r : vrow n r -> rmul (cj w r) w = rmul w r.
  Proof.
    intros V. unfold cj. pose proof (valid_rinv n w Hw). pose proof (valid_rmul n w r Hw V) as W.
    rewrite (rmul_assoc_vrow n) by auto. rewrite (rmul_rinv_l n w Hw). apply (rmul_rounds_r n). apply W.
  Qed.

  Lemma cj_unique r c : vrow n r -> vrow n c -> rmul c w = rmul w r -> c = cj w r.
  Proof.
    intros V C E. unfold cj. rewrite <- E. pose proof (valid_rinv n w Hw). rewrite (rmul_assoc_vrow n) by auto.
    rewrite (rmul_rinv_r n w Hw). symmetry. apply (rmul_rounds_r n). apply C.
  Qed.

  Lemma cj_inj a b : vrow n a -> vrow n b -> cj w a = cj w b -> a = b.
  Proof.
    intros A B E. apply (f_equal (fun c => rmul c w)) in E. rewrite !cj_mid in E by auto.
    apply (f_equal (rmul (rinv w))) in E. rewrite <- !(rmul_assoc_vrow n) in E by auto. rewrite (rmul_rinv_l n w Hw) in E.
    rewrite !(rmul_rounds_l_vrow n) in E by auto. auto.
  Qed.

  Lemma cj_rmul a b : vrow n a -> vrow n b -> rmul (cj w a) (cj w b) = cj w (rmul a b).
  Proof.
    intros A B. pose proof (cj_vrow _ A). pose proof (cj_vrow _ B). pose proof (valid_rmul n a b A B).
    apply cj_unique; auto using valid_rmul. rewrite (rmul_assoc_vrow n) by auto. rewrite cj_mid by auto.
    rewrite <- (rmul_assoc_vrow n) by auto. rewrite cj_mid by auto. apply (rmul_assoc_vrow n); auto.
  Qed.

  Lemma cj_rounds : cj w (row_rounds n) = row_rounds n.
  Proof.
    assert (R : vrow n (row_rounds n)) by (apply valid_rounds; destruct Hw as ((N & _) & <-); destruct w; [congruence|cbn; lia]).
    symmetry. apply cj_unique; auto. rewrite (rmul_rounds_l_vrow n), (rmul_rounds_r n); auto. apply Hw.
  Qed.

  Lemma cj_rinv a : vrow n a -> rinv (cj w a) = cj w (rinv a).
  Proof.
    intros V. symmetry. apply (rinv_unique n); [apply cj_vrow; auto|apply cj_vrow, valid_rinv; auto|].
    rewrite cj_rmul by (auto using valid_rinv). rewrite rmul_rinv_r with (n := n) by auto. apply cj_rounds.
  Qed.

  Lemma cj_is_rounds r : vrow n r -> is_rounds (cj w r) = is_rounds r.
  Proof.
    intros L. apply Bool.eq_iff_eq_true. rewrite (is_rounds_vrow n) by (apply cj_vrow; auto). rewrite (is_rounds_vrow n) by apply L.
    pose proof (vrow_rounds_of n w Hw) as R. split; [intros H; rewrite <- cj_rounds in H; apply cj_inj in H; auto|intros ->; apply cj_rounds].
  Qed.

  Lemma cj_list_eqb a b : vrow n a -> vrow n b -> list_eqb (cj w a) (cj w b) = list_eqb a b.
  Proof.
    intros La Lb. apply Bool.eq_iff_eq_true. rewrite !list_eqb_eq. split; [apply cj_inj; auto|intros ->; reflexivity].
  Qed.

  Lemma cj_row_mem r set : vrow n r -> Forall (vrow n) set -> row_mem (cj w r) (map (cj w) set) = row_mem r set.
  Proof.
    intros L F. unfold row_mem. induction F as [|y l V F IH]; [reflexivity|]. cbn [map existsb]. rewrite cj_list_eqb, IH; auto.
  Qed.

  Lemma cj_closure_loop fuel r : vrow n r -> forall last, vrow n last ->
    closure_loop fuel (cj w r) (cj w last) = (l <- closure_loop fuel r last;; Ret (map (cj w) l)).
  Proof.
    intros V. induction fuel as [|fuel IH]; intros last Vl; [reflexivity|]. cbn [closure_loop].
    rewrite cj_is_rounds by auto. destruct (is_rounds last); [reflexivity|].
    rewrite (mul_unchecked_vrow n) by (auto using cj_vrow). rewrite (mul_unchecked_vrow n) by auto. cbn [bind].
    rewrite cj_rmul, IH by (auto using valid_rmul). destruct (closure_loop fuel r (rmul last r)); reflexivity.
  Qed.

  Lemma cj_closure_from_rounds_loop fuel r : vrow n r -> forall last, vrow n last ->
    closure_from_rounds_loop fuel (cj w r) (cj w last) = (l <- closure_from_rounds_loop fuel r last;; Ret (map (cj w) l)).
  Proof.
    intros V. induction fuel as [|fuel IH]; intros last Vl; [reflexivity|]. cbn [closure_from_rounds_loop].
    rewrite (mul_unchecked_vrow n) by (auto using cj_vrow). rewrite (mul_unchecked_vrow n) by auto. cbn [bind].
    rewrite cj_rmul by auto. rewrite cj_is_rounds by (apply (valid_rmul n); auto).
    destruct (is_rounds (rmul last r)); [reflexivity|].
    rewrite IH by (auto using valid_rmul). destruct (closure_from_rounds_loop fuel r (rmul last r)); reflexivity.
  Qed.

  Definition cj_lift (x : exec (result (list row) incompatible_stages)) : exec (result (list row) incompatible_stages) :=
    y <- x;; Ret match y with Ok l => Ok (map (cj w) l) | Err e => Err e end.

  (** ** Products of sets *)
  Lemma cj_mcp_step set from : Forall (vrow n) set -> Forall (vrow n) from ->
    exists l, mcp_step n from set = Ret (Ok l) /\ Forall (vrow n) l /\
      mcp_step n (map (cj w) from) (map (cj w) set) = Ret (Ok (map (cj w) l)).
  Proof.
    intros F G. induction F as [|r l V F (l' & IH1 & IH2 & IH3)]; [exists []; splits; auto|].
    cbn [mcp_step map]. rewrite (row_stage_vrow n), (row_stage_vrow n) by (auto using cj_vrow). cbn [bind].
    rewrite !test_err_same.
    assert (E : exists h, mapM (fun r1 => mul_unchecked r1 r) from = Ret h /\ Forall (vrow n) h /\
      mapM (fun r1 => mul_unchecked r1 (cj w r)) (map (cj w) from) = Ret (map (cj w) h)).
    { clear -G V Hw. induction G as [|x l Vx G (h & E1 & E2 & E3)]; [exists []; splits; auto|]. cbn [mapM map].
      rewrite (mul_unchecked_vrow n), (mul_unchecked_vrow n) by (auto using cj_vrow). cbn [bind]. rewrite E1, E3. cbn [bind].
      rewrite cj_rmul by auto. eexists. splits; [reflexivity| |reflexivity]. constructor; auto using valid_rmul. }
    destruct E as (h & E1 & E2 & E3). rewrite E1, E3. cbn [bind]. rewrite IH1, IH3. cbn [bind].
    exists (h ++ l'). splits; auto; [apply Forall_app; auto|]. rewrite map_app. reflexivity.
  Qed.

  Lemma cj_mcp_loop sets : Forall (Forall (vrow n)) sets -> forall st from, Forall (vrow n) from -> (from <> [] -> st = Some n) ->
    exists l, mcp_loop st from sets = Ret (Ok l) /\ Forall (vrow n) l /\
      mcp_loop (match st with Some _ => Some n | None => None end) (map (cj w) from) (map (map (cj w)) sets) = Ret (Ok (map (cj w) l)).
  Proof.
    intros F. induction F as [|set t Hset F IH]; intros st from G Hst; [exists from; splits; auto|].
    cbn [mcp_loop map]. destruct from as [|x from]; [exists []; splits; auto|].
    rewrite Hst by discriminate. destruct (cj_mcp_step set (x :: from) Hset G) as (l & E1 & E2 & E3).
    cbn [map unwrap bind] in *. rewrite E1, E3. cbn [bind]. destruct (IH (Some n) l E2 (fun _ => eq_refl)) as (l' & X1 & X2 & X3).
    exists l'. splits; auto.
  Qed.

  Lemma mcp_first_cj set : forall st, Forall (vrow n) set -> (st = None \/ st = Some n) ->
    exists st', mcp_first st set = Ret (Ok (st', set)) /\ (set <> [] -> st' = Some n) /\ (st = Some n -> st' = Some n) /\
      mcp_first (match st with Some _ => Some n | None => None end) (map (cj w) set)
        = Ret (Ok (match st' with Some _ => Some n | None => None end, map (cj w) set)).
  Proof.
    induction set as [|r l IH]; intros st F Hst.
    - exists st. cbn. splits; auto. congruence.
    - inversion F as [|? ? V F']; subst. cbn [mcp_first map]. rewrite (row_stage_vrow n), (row_stage_vrow n) by (auto using cj_vrow). cbn [bind].
      destruct (IH (Some n) F' (or_intror eq_refl)) as (st' & H1 & H2 & H3 & H4). exists st'.
      destruct Hst as [->| ->]; cbn [test_err_opt]; rewrite ?test_err_same, H1, H4; cbn [bind]; splits; auto.
  Qed.

  Lemma cj_mcp sets : Forall (Forall (vrow n)) sets ->
    exists l, multi_cartesian_product sets = Ret (Ok l) /\ Forall (vrow n) l /\
      multi_cartesian_product (map (map (cj w)) sets) = Ret (Ok (map (cj w) l)).
  Proof.
    intros F. destruct F as [|set t H F]; [exists []; splits; auto|]. unfold multi_cartesian_product. cbn [map].
    destruct (mcp_first_cj set None H (or_introl eq_refl)) as (st' & H1 & H2 & _ & H4). rewrite H1, H4. cbn [bind].
    apply cj_mcp_loop; auto.
  Qed.

  (** ** Least groups *)
  Lemma cj_lgc_seed rows : Forall (vrow n) rows -> forall st set frontier, (st = None \/ st = Some n) -> Forall (vrow n) set -> Forall (vrow n) frontier ->
    exists set' frontier', lgc_seed st set frontier rows = Ret (Ok (set', frontier')) /\ Forall (vrow n) set' /\ Forall (vrow n) frontier' /\
      lgc_seed (match st with Some _ => Some n | None => None end) (map (cj w) set) (map (cj w) frontier) (map (cj w) rows)
        = Ret (Ok (map (cj w) set', map (cj w) frontier')).
  Proof.
    intros F. induction F as [|r l V F IH]; intros st set frontier Hst Fs Ff; [exists set, frontier; splits; auto|].
    cbn [lgc_seed map]. rewrite (row_stage_vrow n), (row_stage_vrow n) by (auto using cj_vrow). cbn [bind].
    rewrite cj_row_mem by auto.
    assert (X : forall b : bool, exists set' frontier',
       (if b then lgc_seed (Some n) set frontier l else lgc_seed (Some n) (set ++ [r]) (frontier ++ [r]) l) = Ret (Ok (set', frontier')) /\
       Forall (vrow n) set' /\ Forall (vrow n) frontier' /\
       (if b then lgc_seed (Some n) (map (cj w) set) (map (cj w) frontier) (map (cj w) l)
        else lgc_seed (Some n) (map (cj w) set ++ [cj w r]) (map (cj w) frontier ++ [cj w r]) (map (cj w) l))
        = Ret (Ok (map (cj w) set', map (cj w) frontier'))).
    { intros []; [apply (IH (Some n)); auto|].
      destruct (IH (Some n) (set ++ [r]) (frontier ++ [r])) as (a & b & X1 & X2 & X3 & X4); auto; try (apply Forall_app; auto).
      exists a, b. rewrite !map_app in X4. splits; auto. }
    destruct Hst as [->| ->]; cbn [test_err_opt]; rewrite ?test_err_same; apply X.
  Qed.

  Lemma cj_lgc_expand r rows : vrow n r -> Forall (vrow n) rows -> forall set frontier, Forall (vrow n) set -> Forall (vrow n) frontier ->
    exists set' frontier', lgc_expand r set frontier rows = Ret (set', frontier') /\ Forall (vrow n) set' /\ Forall (vrow n) frontier' /\
      lgc_expand (cj w r) (map (cj w) set) (map (cj w) frontier) (map (cj w) rows) = Ret (map (cj w) set', map (cj w) frontier').
  Proof.
    intros V F. induction F as [|x l Vx F IH]; intros set frontier Fs Ff; [exists set, frontier; splits; auto|].
    cbn [lgc_expand map]. rewrite (mul_unchecked_vrow n), (mul_unchecked_vrow n) by (auto using cj_vrow). cbn [bind].
    rewrite cj_rmul by auto. pose proof (valid_rmul n r x V Vx) as Vr. rewrite cj_row_mem by auto.
    destruct (row_mem (rmul r x) set); [apply IH; auto|].
    destruct (IH (set ++ [rmul r x]) (frontier ++ [rmul r x])) as (a & b & X1 & X2 & X3 & X4); try (apply Forall_app; auto).
    exists a, b. rewrite !map_app in X4. splits; auto.
  Qed.

  Lemma cj_lgc_loop fuel rows : Forall (vrow n) rows -> forall set frontier, Forall (vrow n) set -> Forall (vrow n) frontier ->
    lgc_loop fuel (map (cj w) rows) (map (cj w) set) (map (cj w) frontier) = (l <- lgc_loop fuel rows set frontier;; Ret (map (cj w) l)).
  Proof.
    intros F. induction fuel as [|fuel IH]; intros set frontier Fs Ff; [reflexivity|]. cbn [lgc_loop].
    destruct Ff as [|r l V Ff]; [reflexivity|]. cbn [map].
    destruct (cj_lgc_expand r rows V F set l Fs Ff) as (a & b & X1 & X2 & X3 & X4). rewrite X1, X4. cbn [bind]. apply IH; auto.
  Qed.

  Lemma cj_lgc fuel rows : Forall (vrow n) rows ->
    least_group_containing fuel (map (cj w) rows) = cj_lift (least_group_containing fuel rows).
  Proof.
    intros F. unfold least_group_containing, cj_lift.
    destruct (cj_lgc_seed rows F None [] []) as (a & b & X1 & X2 & X3 & X4); auto. cbn [map] in X4. rewrite X1, X4. cbn [bind].
    rewrite cj_lgc_loop by auto. destruct (lgc_loop fuel rows a b); reflexivity.
  Qed.

  (** ** The group test *)
  Lemma cj_is_group_stages set : Forall (vrow n) set -> forall st, (st = None \/ st = Some n) -> is_group_stages st set = Ret (Ok tt).
  Proof.
    intros F. induction F as [|r l V F IH]; intros st Hst; [reflexivity|]. cbn [is_group_stages]. rewrite (row_stage_vrow n) by auto. cbn [bind].
    destruct Hst as [->| ->]; rewrite ?test_err_same; apply IH; auto.
  Qed.

  Lemma cj_is_group_inner set b_inv todo : Forall (vrow n) set -> vrow n b_inv -> Forall (vrow n) todo -> forall buf buf',
    exists x x' ok, is_group_inner set b_inv buf todo = Ret (x, ok) /\
      is_group_inner (map (cj w) set) (cj w b_inv) buf' (map (cj w) todo) = Ret (x', ok).
  Proof.
    intros Fs V F. induction F as [|a l Va F IH]; intros buf buf'; [exists buf, buf', true; auto|].
    cbn [is_group_inner map]. unfold mul_into_unchecked.
    pose proof (mul_unchecked_vrow n a b_inv Va V) as E. pose proof (mul_unchecked_vrow n _ _ (cj_vrow _ Va) (cj_vrow _ V)) as E'.
    unfold mul_unchecked in E, E'. rewrite E, E'. cbn [bind app]. rewrite cj_rmul by auto.
    pose proof (valid_rmul n a b_inv Va V) as Vr. rewrite cj_row_mem by auto.
    destruct (row_mem (rmul a b_inv) set); [apply IH|do 3 eexists; split; reflexivity].
  Qed.

  Lemma cj_is_group_outer set todo : Forall (vrow n) set -> Forall (vrow n) todo -> forall b_inv b_inv' buf buf', b_inv <> [] -> b_inv' <> [] ->
    exists ok, is_group_outer set b_inv buf todo = Ret ok /\
      is_group_outer (map (cj w) set) b_inv' buf' (map (cj w) todo) = Ret ok.
  Proof.
    intros Fs F. induction F as [|b l V F IH]; intros b_inv b_inv' buf buf' N N'; [exists true; auto|].
    cbn [is_group_outer map]. pose proof (cj_vrow _ V) as V'. rewrite inv_into_buf_ok by (auto; apply V). rewrite inv_into_buf_ok by (auto; apply V').
    cbn [bind]. rewrite cj_rinv by auto. pose proof (valid_rinv n b V) as Vi.
    destruct (cj_is_group_inner set (rinv b) set Fs Vi Fs buf buf') as (x & x' & ok & E & E'). rewrite E, E'. cbn [bind].
    destruct ok; [|exists false; auto]. apply IH; [apply Vi|apply (cj_vrow _ Vi)].
  Qed.

  Lemma cj_is_group set : Forall (vrow n) set -> is_group_set (map (cj w) set) = is_group_set set.
  Proof.
    intros F. unfold is_group_set. destruct set as [|r l]; [reflexivity|].
    assert (E : is_group_stages None (map (cj w) (r :: l)) = Ret (Ok tt)).
    { assert (G : Forall (vrow n) (map (cj w) (r :: l))) by (apply Forall_map; eapply Forall_impl; [|exact F]; apply cj_vrow).
      revert G. generalize (map (cj w) (r :: l)). clear. intros l G.
      assert (X : forall st, (st = None \/ st = Some n) -> is_group_stages st l = Ret (Ok tt)); [|apply X; auto].
      induction G as [|y l V G IH]; intros st Hst; [reflexivity|]. cbn [is_group_stages]. rewrite (row_stage_vrow n) by auto. cbn [bind].
      destruct Hst as [->| ->]; rewrite ?test_err_same; apply IH; auto. }
    rewrite E. rewrite cj_is_group_stages by auto. cbn [bind].
    destruct (cj_is_group_outer (r :: l) (r :: l) F F (row_rounds 1) (row_rounds 1) (row_rounds 1) (row_rounds 1)) as (ok & X1 & X2); try discriminate.
    rewrite X1, X2. reflexivity.
  Qed.

End cj.

Lemma renamed_cj n w r c : vrow n w -> vrow n r -> renamed w r c <-> c = cj w r.
Proof.
  intros Hw V. assert (M : rmul (cj w r) w = rmul w r) by (apply (cj_mid n); auto). pose proof (cj_vrow n w Hw r V) as Vc.
  assert (G : forall i, i < n -> nth (nth i w 0) (cj w r) 0 = nth (nth i r 0) w 0).
  { intros i I. apply (f_equal (fun l => nth i l 0)) in M. rewrite !nth_rmul in M; [auto|rewrite (proj2 V); auto|rewrite (proj2 Hw); auto]. }
  assert (B : forall u i, vrow n u -> i < n -> nth_error u i = Some (nth i u 0) /\ nth i u 0 < n).
  { intros u i (U & L) I. split; [apply nth_error_nth'; lia|]. rewrite <- L. apply U. apply nth_In. lia. }
  split.
  - intros (L1 & L2 & H). destruct V as (V & L). pose proof (proj2 Vc) as Lc. pose proof (proj2 Hw) as Lw. rewrite L in *.
    apply row_ext; [congruence|]. intros q Q. rewrite L2 in Q.
    assert (Hq : In q w) by (apply Hw; lia). apply (In_nth _ _ 0) in Hq. destruct Hq as (p & P & E). rewrite Lw in P.
    assert (Vr : vrow n r) by (split; auto).
    destruct (B r p Vr P) as (B1 & B2). destruct (B w p Hw P) as (B3 & B4). destruct (B w (nth p r 0) Hw B2) as (B5 & B6).
    specialize (H _ _ _ _ B1 B3 B5). rewrite E in *. apply nth_error_nth with (d := 0) in H. rewrite H, <- E. symmetry. apply G. auto.
  - intros ->. destruct V as (V & L). pose proof (proj2 Vc) as Lc. pose proof (proj2 Hw) as Lw. split; [congruence|]. split; [congruence|].
    intros p b q c Hp Hq Hc. assert (P : p < n) by (rewrite <- L; apply nth_error_Some; congruence).
    apply nth_error_nth with (d := 0) in Hp, Hq, Hc. specialize (G p P). rewrite Hp, Hq, Hc in G.
    assert (Q : q < n) by (rewrite <- Hq; apply (B w p); auto). rewrite (proj1 (B _ q Vc Q)). f_equal. exact G.
Qed.

Lemma renamed_Forall2 n w l l' : vrow n w -> Forall (vrow n) l -> Forall2 (renamed w) l l' <-> l' = map (cj w) l.
Proof.
  intros Hw F. split.
  - intros H. induction H as [|x x' l l' Hx H IH]; [reflexivity|]. inversion F as [|? ? V F']; subst. cbn [map]. f_equal; auto.
    apply (renamed_cj n); auto.
  - intros ->. induction F as [|x l V F IH]; constructor; auto. apply (renamed_cj n); auto.
Qed.

Lemma cj_rpow n w r k : vrow n w -> vrow n r -> rpow (cj w r) k = cj w (rpow r k).
Proof.
  intros Hw V. induction k as [|k IH]; cbn [rpow].
  - rewrite (proj2 (cj_vrow n w Hw r V)), (proj2 V). symmetry. apply (cj_rounds n); auto.
  - rewrite IH. apply (cj_rmul n); auto. apply vrow_rpow; auto.
Qed.
