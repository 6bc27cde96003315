(** Facts about rows with cover bells. *)
From Verif Require Import Base Spec ListFacts Bell Stage Parity Row RowFacts MulFacts SpecCover.
Local Open Scope list_scope.

Definition ext (n s : nat) (r : row) : row := r ++ seq n (s - n).

Section ext.
  Context (n s : nat).
  Hypothesis Hns : n <= s.

  Lemma length_ext r : length r = n -> length (ext n s r) = s.
  Proof. intros L. unfold ext. rewrite app_length, seq_length. lia. Qed.

  Lemma nth_ext_low r i : length r = n -> i < n -> nth i (ext n s r) 0 = nth i r 0.
  Proof. intros L H. unfold ext. rewrite app_nth1 by lia. reflexivity. Qed.

  Lemma nth_ext_high r i : length r = n -> n <= i < s -> nth i (ext n s r) 0 = i.
  Proof. intros L H. unfold ext. rewrite app_nth2 by lia. rewrite seq_nth by lia. lia. Qed.

  Lemma ext_covered r r' : length r = n -> covered s r r' <-> r' = ext n s r.
  Proof.
    intros L. split.
    - intros (H1 & H2 & H3). rewrite L in *. rewrite <- (firstn_skipn n r'). rewrite H2. unfold ext. f_equal.
      apply nth_ext with (d := 0) (d' := 0); [rewrite skipn_length, seq_length; lia|].
      intros i Hi. rewrite skipn_length in Hi. rewrite seq_nth by lia.
      assert (N : nth_error r' (n + i) = Some (n + i)) by (apply H3; lia).
      apply nth_error_nth with (d := 0) in N. transitivity (nth (n + i) r' 0); auto. rewrite <- (firstn_skipn n r') at 2.
      rewrite app_nth2 by (rewrite firstn_length; lia). f_equal. rewrite firstn_length. lia.
    - intros ->. split; [apply length_ext; auto|]. rewrite L. split.
      + unfold ext. rewrite <- L, firstn_app, firstn_all, Nat.sub_diag. cbn. apply app_nil_r.
      + intros i Hi. unfold ext. rewrite nth_error_app2 by lia. rewrite L.
        rewrite (nth_error_nth' _ 0) by (rewrite seq_length; lia). rewrite seq_nth by lia. f_equal. lia.
  Qed.

  Lemma ext_vrow r : vrow n r -> vrow s (ext n s r).
  Proof.
    intros ((H1 & H2 & H3) & L). split; [|apply length_ext; auto]. rewrite L in H3. split; [|split].
    - unfold ext. destruct r; [congruence|discriminate].
    - unfold ext. apply NoDup_app_intro; [auto|apply seq_NoDup|]. intros x X Y. apply H3 in X. apply in_seq in Y. lia.
    - intros b. rewrite length_ext by auto. unfold ext. rewrite in_app_iff, H3, in_seq. lia.
  Qed.

  Lemma ext_inj a b : length a = n -> length b = n -> ext n s a = ext n s b -> a = b.
  Proof.
    intros La Lb H. unfold ext in H. apply app_inv_tail in H. auto.
  Qed.

  Lemma ext_rmul a b : vrow n a -> vrow n b -> rmul (ext n s a) (ext n s b) = ext n s (rmul a b).
  Proof.
    intros (Va & La) (Vb & Lb). unfold ext at 2 3. unfold rmul. rewrite map_app. f_equal.
    - apply map_ext_in. intros x X. apply Vb in X. apply nth_ext_low; auto. lia.
    - rewrite <- (map_id (seq n (s - n))) at 2. apply map_ext_in. intros x X. apply in_seq in X. apply nth_ext_high; auto. lia.
  Qed.

  Lemma ext_rounds : ext n s (row_rounds n) = row_rounds s.
  Proof. unfold ext. rewrite !rounds_seq, <- seq_app. f_equal. lia. Qed.

  Lemma ext_rinv a : vrow n a -> rinv (ext n s a) = ext n s (rinv a).
  Proof.
    intros V. symmetry. apply (rinv_unique s); [apply ext_vrow; auto|apply ext_vrow, valid_rinv; auto|].
    rewrite ext_rmul by (auto using valid_rinv). rewrite rmul_rinv_r with (n := n) by auto. apply ext_rounds.
  Qed.

  Lemma ext_is_rounds r : length r = n -> is_rounds (ext n s r) = is_rounds r.
  Proof.
    intros L. apply Bool.eq_iff_eq_true. rewrite (is_rounds_vrow s) by (apply length_ext; auto). rewrite (is_rounds_vrow n) by auto.
    rewrite <- ext_rounds. split; [intros H; apply ext_inj in H; auto; apply length_rounds|intros ->; reflexivity].
  Qed.

  Lemma ext_list_eqb a b : length a = n -> length b = n -> list_eqb (ext n s a) (ext n s b) = list_eqb a b.
  Proof.
    intros La Lb. apply Bool.eq_iff_eq_true. rewrite !list_eqb_eq. split; [apply ext_inj; auto|intros ->; reflexivity].
  Qed.

  Lemma ext_row_mem r set : length r = n -> Forall (vrow n) set -> row_mem (ext n s r) (map (ext n s) set) = row_mem r set.
  Proof.
    intros L F. unfold row_mem. induction F as [|x l (V & Lx) F IH]; [reflexivity|]. cbn [map existsb]. rewrite ext_list_eqb, IH; auto.
  Qed.

  Lemma ext_closure_loop fuel r : vrow n r -> forall last, vrow n last ->
    closure_loop fuel (ext n s r) (ext n s last) = (l <- closure_loop fuel r last;; Ret (map (ext n s) l)).
  Proof.
    intros V. induction fuel as [|fuel IH]; intros last Vl; [reflexivity|]. cbn [closure_loop].
    rewrite ext_is_rounds by apply Vl. destruct (is_rounds last); [reflexivity|].
    rewrite (mul_unchecked_vrow s) by (auto using ext_vrow). rewrite (mul_unchecked_vrow n) by auto. cbn [bind].
    rewrite ext_rmul, IH by (auto using valid_rmul). destruct (closure_loop fuel r (rmul last r)); reflexivity.
  Qed.

  Lemma ext_closure_from_rounds_loop fuel r : vrow n r -> forall last, vrow n last ->
    closure_from_rounds_loop fuel (ext n s r) (ext n s last) = (l <- closure_from_rounds_loop fuel r last;; Ret (map (ext n s) l)).
  Proof.
    intros V. induction fuel as [|fuel IH]; intros last Vl; [reflexivity|]. cbn [closure_from_rounds_loop].
    rewrite (mul_unchecked_vrow s) by (auto using ext_vrow). rewrite (mul_unchecked_vrow n) by auto. cbn [bind].
    rewrite ext_rmul by auto. rewrite ext_is_rounds by (apply (valid_rmul n); auto).
    destruct (is_rounds (rmul last r)); [reflexivity|].
    rewrite IH by (auto using valid_rmul). destruct (closure_from_rounds_loop fuel r (rmul last r)); reflexivity.
  Qed.

  Lemma row_stage_vrow m r : vrow m r -> row_stage r = Ret m.
  Proof. intros ((N & _) & L). unfold row_stage, stage_new. rewrite L. destruct m; [destruct r; [congruence|discriminate]|reflexivity]. Qed.

  Definition lift_ok (x : exec (result (list row) incompatible_stages)) : exec (result (list row) incompatible_stages) :=
    y <- x;; Ret match y with Ok l => Ok (map (ext n s) l) | Err e => Err e end.

  Lemma test_err_same k : test_err k k = Ok tt.
  Proof. unfold test_err. rewrite Nat.eqb_refl. reflexivity. Qed.

  (** ** Products of sets *)
  Lemma ext_mcp_step set from : Forall (vrow n) set -> Forall (vrow n) from ->
    exists l, mcp_step n from set = Ret (Ok l) /\ Forall (vrow n) l /\
      mcp_step s (map (ext n s) from) (map (ext n s) set) = Ret (Ok (map (ext n s) l)).
  Proof.
    intros F G. induction F as [|r l V F (l' & IH1 & IH2 & IH3)]; [exists []; splits; auto|].
    cbn [mcp_step map]. rewrite (row_stage_vrow n), (row_stage_vrow s) by (auto using ext_vrow). cbn [bind].
    rewrite !test_err_same.
    assert (E : exists h, mapM (fun r1 => mul_unchecked r1 r) from = Ret h /\ Forall (vrow n) h /\
      mapM (fun r1 => mul_unchecked r1 (ext n s r)) (map (ext n s) from) = Ret (map (ext n s) h)).
    { clear -G V Hns. induction G as [|x l Vx G (h & E1 & E2 & E3)]; [exists []; splits; auto|]. cbn [mapM map].
      rewrite (mul_unchecked_vrow n), (mul_unchecked_vrow s) by (auto using ext_vrow). cbn [bind]. rewrite E1, E3. cbn [bind].
      rewrite ext_rmul by auto. eexists. splits; [reflexivity| |reflexivity]. constructor; auto using valid_rmul. }
    destruct E as (h & E1 & E2 & E3). rewrite E1, E3. cbn [bind]. rewrite IH1, IH3. cbn [bind].
    exists (h ++ l'). splits; auto; [apply Forall_app; auto|]. rewrite map_app. reflexivity.
  Qed.

  Lemma ext_mcp_loop sets : Forall (Forall (vrow n)) sets -> forall st from, Forall (vrow n) from -> (from <> [] -> st = Some n) ->
    exists l, mcp_loop st from sets = Ret (Ok l) /\ Forall (vrow n) l /\
      mcp_loop (match st with Some _ => Some s | None => None end) (map (ext n s) from) (map (map (ext n s)) sets) = Ret (Ok (map (ext n s) l)).
  Proof.
    intros F. induction F as [|set t Hset F IH]; intros st from G Hst; [exists from; splits; auto|].
    cbn [mcp_loop map]. destruct from as [|x from]; [exists []; splits; auto|].
    rewrite Hst by discriminate. destruct (ext_mcp_step set (x :: from) Hset G) as (l & E1 & E2 & E3).
    cbn [map unwrap bind] in *. rewrite E1, E3. cbn [bind]. destruct (IH (Some n) l E2 (fun _ => eq_refl)) as (l' & X1 & X2 & X3).
    exists l'. splits; auto.
  Qed.

  Lemma mcp_first_ext set : forall st, Forall (vrow n) set -> (st = None \/ st = Some n) ->
    exists st', mcp_first st set = Ret (Ok (st', set)) /\ (set <> [] -> st' = Some n) /\ (st = Some n -> st' = Some n) /\
      mcp_first (match st with Some _ => Some s | None => None end) (map (ext n s) set)
        = Ret (Ok (match st' with Some _ => Some s | None => None end, map (ext n s) set)).
  Proof.
    induction set as [|r l IH]; intros st F Hst.
    - exists st. cbn. splits; auto. congruence.
    - inversion F as [|? ? V F']; subst. cbn [mcp_first map]. rewrite (row_stage_vrow n), (row_stage_vrow s) by (auto using ext_vrow). cbn [bind].
      destruct (IH (Some n) F' (or_intror eq_refl)) as (st' & H1 & H2 & H3 & H4). exists st'.
      destruct Hst as [->| ->]; cbn [test_err_opt]; rewrite ?test_err_same, H1, H4; cbn [bind]; splits; auto.
  Qed.

  Lemma ext_mcp sets : Forall (Forall (vrow n)) sets ->
    exists l, multi_cartesian_product sets = Ret (Ok l) /\ Forall (vrow n) l /\
      multi_cartesian_product (map (map (ext n s)) sets) = Ret (Ok (map (ext n s) l)).
  Proof.
    intros F. destruct F as [|set t H F]; [exists []; splits; auto|]. unfold multi_cartesian_product. cbn [map].
    destruct (mcp_first_ext set None H (or_introl eq_refl)) as (st' & H1 & H2 & _ & H4). rewrite H1, H4. cbn [bind].
    apply ext_mcp_loop; auto.
  Qed.

  (** ** Least groups *)
  Lemma ext_lgc_seed rows : Forall (vrow n) rows -> forall st set frontier, (st = None \/ st = Some n) -> Forall (vrow n) set -> Forall (vrow n) frontier ->
    exists set' frontier', lgc_seed st set frontier rows = Ret (Ok (set', frontier')) /\ Forall (vrow n) set' /\ Forall (vrow n) frontier' /\
      lgc_seed (match st with Some _ => Some s | None => None end) (map (ext n s) set) (map (ext n s) frontier) (map (ext n s) rows)
        = Ret (Ok (map (ext n s) set', map (ext n s) frontier')).
  Proof.
    intros F. induction F as [|r l V F IH]; intros st set frontier Hst Fs Ff; [exists set, frontier; splits; auto|].
    cbn [lgc_seed map]. rewrite (row_stage_vrow n), (row_stage_vrow s) by (auto using ext_vrow). cbn [bind].
    rewrite ext_row_mem by (auto; apply V).
    assert (X : forall b : bool, exists set' frontier',
       (if b then lgc_seed (Some n) set frontier l else lgc_seed (Some n) (set ++ [r]) (frontier ++ [r]) l) = Ret (Ok (set', frontier')) /\
       Forall (vrow n) set' /\ Forall (vrow n) frontier' /\
       (if b then lgc_seed (Some s) (map (ext n s) set) (map (ext n s) frontier) (map (ext n s) l)
        else lgc_seed (Some s) (map (ext n s) set ++ [ext n s r]) (map (ext n s) frontier ++ [ext n s r]) (map (ext n s) l))
        = Ret (Ok (map (ext n s) set', map (ext n s) frontier'))).
    { intros []; [apply (IH (Some n)); auto|].
      destruct (IH (Some n) (set ++ [r]) (frontier ++ [r])) as (a & b & X1 & X2 & X3 & X4); auto; try (apply Forall_app; auto).
      exists a, b. rewrite !map_app in X4. splits; auto. }
    destruct Hst as [->| ->]; cbn [test_err_opt]; rewrite ?test_err_same; apply X.
  Qed.

  Lemma ext_lgc_expand r rows : vrow n r -> Forall (vrow n) rows -> forall set frontier, Forall (vrow n) set -> Forall (vrow n) frontier ->
    exists set' frontier', lgc_expand r set frontier rows = Ret (set', frontier') /\ Forall (vrow n) set' /\ Forall (vrow n) frontier' /\
      lgc_expand (ext n s r) (map (ext n s) set) (map (ext n s) frontier) (map (ext n s) rows) = Ret (map (ext n s) set', map (ext n s) frontier').
  Proof.
    intros V F. induction F as [|x l Vx F IH]; intros set frontier Fs Ff; [exists set, frontier; splits; auto|].
    cbn [lgc_expand map]. rewrite (mul_unchecked_vrow n), (mul_unchecked_vrow s) by (auto using ext_vrow). cbn [bind].
    rewrite ext_rmul by auto. pose proof (valid_rmul n r x V Vx) as Vr. rewrite ext_row_mem by (auto; apply Vr).
    destruct (row_mem (rmul r x) set); [apply IH; auto|].
    destruct (IH (set ++ [rmul r x]) (frontier ++ [rmul r x])) as (a & b & X1 & X2 & X3 & X4); try (apply Forall_app; auto).
    exists a, b. rewrite !map_app in X4. splits; auto.
  Qed.

  Lemma ext_lgc_loop fuel rows : Forall (vrow n) rows -> forall set frontier, Forall (vrow n) set -> Forall (vrow n) frontier ->
    lgc_loop fuel (map (ext n s) rows) (map (ext n s) set) (map (ext n s) frontier) = (l <- lgc_loop fuel rows set frontier;; Ret (map (ext n s) l)).
  Proof.
    intros F. induction fuel as [|fuel IH]; intros set frontier Fs Ff; [reflexivity|]. cbn [lgc_loop].
    destruct Ff as [|r l V Ff]; [reflexivity|]. cbn [map].
    destruct (ext_lgc_expand r rows V F set l Fs Ff) as (a & b & X1 & X2 & X3 & X4). rewrite X1, X4. cbn [bind]. apply IH; auto.
  Qed.

  Lemma ext_lgc fuel rows : Forall (vrow n) rows ->
    least_group_containing fuel (map (ext n s) rows) = lift_ok (least_group_containing fuel rows).
  Proof.
    intros F. unfold least_group_containing, lift_ok.
    destruct (ext_lgc_seed rows F None [] []) as (a & b & X1 & X2 & X3 & X4); auto. cbn [map] in X4. rewrite X1, X4. cbn [bind].
    rewrite ext_lgc_loop by auto. destruct (lgc_loop fuel rows a b); reflexivity.
  Qed.

  (** ** The group test *)
  Lemma ext_is_group_stages set : Forall (vrow n) set -> forall st, (st = None \/ st = Some n) -> is_group_stages st set = Ret (Ok tt).
  Proof.
    intros F. induction F as [|r l V F IH]; intros st Hst; [reflexivity|]. cbn [is_group_stages]. rewrite (row_stage_vrow n) by auto. cbn [bind].
    destruct Hst as [->| ->]; rewrite ?test_err_same; apply IH; auto.
  Qed.

  Lemma ext_is_group_inner set b_inv todo : Forall (vrow n) set -> vrow n b_inv -> Forall (vrow n) todo -> forall buf buf',
    exists x x' ok, is_group_inner set b_inv buf todo = Ret (x, ok) /\
      is_group_inner (map (ext n s) set) (ext n s b_inv) buf' (map (ext n s) todo) = Ret (x', ok).
  Proof.
    intros Fs V F. induction F as [|a l Va F IH]; intros buf buf'; [exists buf, buf', true; auto|].
    cbn [is_group_inner map]. unfold mul_into_unchecked.
    pose proof (mul_unchecked_vrow n a b_inv Va V) as E. pose proof (mul_unchecked_vrow s _ _ (ext_vrow _ Va) (ext_vrow _ V)) as E'.
    unfold mul_unchecked in E, E'. rewrite E, E'. cbn [bind app]. rewrite ext_rmul by auto.
    pose proof (valid_rmul n a b_inv Va V) as Vr. rewrite ext_row_mem by (auto; apply Vr).
    destruct (row_mem (rmul a b_inv) set); [apply IH|do 3 eexists; split; reflexivity].
  Qed.

  Lemma ext_is_group_outer set todo : Forall (vrow n) set -> Forall (vrow n) todo -> forall b_inv b_inv' buf buf', b_inv <> [] -> b_inv' <> [] ->
    exists ok, is_group_outer set b_inv buf todo = Ret ok /\
      is_group_outer (map (ext n s) set) b_inv' buf' (map (ext n s) todo) = Ret ok.
  Proof.
    intros Fs F. induction F as [|b l V F IH]; intros b_inv b_inv' buf buf' N N'; [exists true; auto|].
    cbn [is_group_outer map]. pose proof (ext_vrow _ V) as V'. rewrite inv_into_buf_ok by (auto; apply V). rewrite inv_into_buf_ok by (auto; apply V').
    cbn [bind]. rewrite ext_rinv by auto. pose proof (valid_rinv n b V) as Vi.
    destruct (ext_is_group_inner set (rinv b) set Fs Vi Fs buf buf') as (x & x' & ok & E & E'). rewrite E, E'. cbn [bind].
    destruct ok; [|exists false; auto]. apply IH; [apply Vi|apply (ext_vrow _ Vi)].
  Qed.

  Lemma ext_is_group set : Forall (vrow n) set -> is_group_set (map (ext n s) set) = is_group_set set.
  Proof.
    intros F. unfold is_group_set. destruct set as [|r l]; [reflexivity|].
    assert (E : is_group_stages None (map (ext n s) (r :: l)) = Ret (Ok tt)).
    { assert (G : Forall (vrow s) (map (ext n s) (r :: l))) by (apply Forall_map; eapply Forall_impl; [|exact F]; apply ext_vrow).
      revert G. generalize (map (ext n s) (r :: l)). clear. intros l G.
      assert (X : forall st, (st = None \/ st = Some s) -> is_group_stages st l = Ret (Ok tt)); [|apply X; auto].
      induction G as [|y l V G IH]; intros st Hst; [reflexivity|]. cbn [is_group_stages]. rewrite (row_stage_vrow s) by auto. cbn [bind].
      destruct Hst as [->| ->]; rewrite ?test_err_same; apply IH; auto. }
    rewrite E. rewrite ext_is_group_stages by auto. cbn [bind].
    destruct (ext_is_group_outer (r :: l) (r :: l) F F (row_rounds 1) (row_rounds 1) (row_rounds 1) (row_rounds 1)) as (ok & X1 & X2); try discriminate.
    rewrite X1, X2. reflexivity.
  Qed.

  (** ** Queries *)
  Lemma ext_swaps a k b : length a = n -> swaps_to a k b -> swaps_to (ext n s a) k (ext n s b).
  Proof.
    intros L H. revert L. induction H as [r|r i j t k u Hij Hs H IH]; intros L; [constructor|].
    destruct Hs as (A & B & C & D & E & F). apply swaps_more with i j (ext n s t); auto; [|apply IH; lia].
    unfold ext, swapped. rewrite !app_length. split; [lia|]. split; [lia|]. split; [lia|]. split; [|split].
    - rewrite !nth_error_app1 by lia. auto.
    - rewrite !nth_error_app1 by lia. auto.
    - intros m Hi Hj. destruct (Nat.lt_ge_cases m (length r)); [rewrite !nth_error_app1 by lia; auto|].
      rewrite !nth_error_app2 by lia. rewrite C. reflexivity.
  Qed.

  Lemma ext_effective_stage r : length r = n -> effective_stage (ext n s r) = effective_stage r.
  Proof.
    intros L. unfold ext. replace n with (length r) at 1. clear Hns. generalize (s - n) as k. intros k. clear L.
    assert (X : forall k r, effective_stage (r ++ seq (length r) k) = effective_stage r).
    { clear. induction k as [|k IH]; intros r; [cbn; rewrite app_nil_r; reflexivity|].
      cbn [seq]. replace (r ++ length r :: seq (S (length r)) k) with ((r ++ [length r]) ++ seq (length (r ++ [length r])) k)
        by (rewrite app_length, <- app_assoc; cbn [length]; rewrite Nat.add_1_r; reflexivity).
      rewrite IH, effective_stage_snoc, Nat.eqb_refl. reflexivity. }
    apply X.
  Qed.
End ext.

Lemma covered_Forall2 n s l l' : n <= s -> Forall (vrow n) l -> Forall2 (covered s) l l' <-> l' = map (ext n s) l.
Proof.
  intros Hns F. split.
  - intros H. induction H as [|x x' l l' Hx H IH]; [reflexivity|]. inversion F as [|? ? V F']; subst. cbn [map]. f_equal; auto.
    apply (ext_covered n s); auto. apply V.
  - intros ->. induction F as [|x l V F IH]; constructor; auto. apply (ext_covered n s); auto. apply V.
Qed.

Lemma covered_le s x x' : covered s x x' -> length x <= s.
Proof. intros (L & H & _). apply (f_equal (@length nat)) in H. rewrite firstn_length in H. lia. Qed.

Lemma extend_covered a s a' : valid_row a -> length a <= s -> extend_to_stage a s = Ret a' <-> covered s a a'.
Proof.
  intros V L. rewrite (ext_covered (length a) s) by auto. rewrite (proj1 (extend_to_stage_ok a s V L)).
  fold (ext (length a) s a).
  split; [intros X; injection X; auto|intros ->; reflexivity].
Qed.

Lemma fixed_gen k a m : k = length a -> fixed_bells (a ++ seq k m) = fixed_bells a ++ seq k m.
Proof.
  intros ->. unfold fixed_bells, enumerate. rewrite enumerate_from_app, filter_app, map_app. f_equal. cbn [Nat.add].
  generalize (length a). clear. induction m as [|m IH]; intros k; [reflexivity|]. cbn [seq enumerate_from filter].
  rewrite Nat.eqb_refl. cbn [map snd]. f_equal. apply IH.
Qed.
