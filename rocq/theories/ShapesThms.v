(** Property theorems C114: the plain courses of methods whose changes go round the same circle, or are each other
    upside down, are as long as each other, and have repeated rows together. *)

(* Generated from tools/props/Shapes.src: the proofs behind PropsShapes.v. *)
From Coq Require Import Permutation.
From Verif Require Import Base Bell Stage Row Utils SameStageVec Block PlaceNot Class Method Library Spec SpecVec SpecBlock SpecPn SpecClass SpecSym SpecUpside ListFacts
  BellFacts RowFacts MulFacts GroupFacts SsvFacts BlockFacts PnFacts PnFacts2 PnFacts3 ClassFacts ClassFacts2 ClassFacts3 SymFacts SymFacts2 SymFacts3
  UpsideFacts UpsideFacts2 ShapeFacts SpecMethod MethodFacts TruthFacts.
From Verif Require Import PnThms ClassThms.
Local Open Scope list_scope.

Lemma pf_C114_plain_courses_round_the_circle :
  forall s pns pns' m m', 0 < s -> pns <> [] ->
    Forall (fun pn => legal pn /\ pn_stage pn = s) pns -> same_circle pns pns' ->
    pn_block_to_block_from_rounds None pns = Ret (first_lead m) -> pn_block_to_block_from_rounds None pns' = Ret (first_lead m') ->
    exists k pc pc' pars pars' pe pe' h rows,
      (forall fuel, k <= fuel -> plain_course fuel m = Ret pc /\ plain_course fuel m' = Ret pc') /\
      block_holds pc s pars pe /\ block_holds pc' s pars' pe' /\ length pars = k * length pns /\
      In h (map fst pars) /\ Forall2 (composition h) (map fst pars') rows /\ Permutation rows (map fst pars).
Proof.
  intros s pns pns' m m' Hs N F (a & b & E & E') L L'.
  assert (Eb : exists c, c < length pns /\ b ++ a = skipn c pns ++ firstn c pns).
  { destruct b as [|x b].
    - exists 0. split; [destruct pns; [congruence|cbn; lia]|]. rewrite app_nil_r in E. subst a. cbn. rewrite app_nil_r. reflexivity.
    - exists (length a). subst pns. split; [rewrite app_length; cbn; lia|].
      rewrite skipn_app, skipn_all, Nat.sub_diag, firstn_app, firstn_all, Nat.sub_diag. cbn. rewrite app_nil_r. reflexivity. }
  destruct Eb as (c & Hc & Eb). set (q := b ++ a) in *.
  assert (Lq : length q = length pns) by (rewrite Eb, app_length, skipn_length, firstn_length; lia).
  assert (Fq : Forall (fun pn => legal pn /\ pn_stage pn = s) q).
  { unfold q. subst pns. apply Forall_app in F as [? ?]. apply Forall_app; auto. }
  assert (Nq : q <> []) by (intros K; rewrite K in Lq; cbn in Lq; lia).
  assert (L2 : length pns' = length pns) by (destruct E' as [-> | ->]; rewrite ?rev_length; auto).
  assert (F' : Forall (fun pn => legal pn /\ pn_stage pn = s) pns') by (destruct E' as [-> | ->]; auto; apply Forall_rev; auto).
  assert (N' : pns' <> []) by (intros K; rewrite K in L2; cbn in L2; lia).
  destruct (lead_course s pns m Hs N F L) as (K & pc & pars & pe & EK & Fu & H & M).
  destruct (lead_course s pns' m' Hs N' F' L') as (K' & pc' & pars' & pe' & EK' & Fu' & H' & M').
  rewrite L2 in *. set (n := length pns) in *. assert (Hn : 0 < n) by lia.
  pose proof (trof_v s pns Hs N F) as V. pose proof (trof_inv s pns Hs N F) as I. pose proof (trof_period s pns Hs N F) as P. fold n in P.
  assert (X : forall u, trof s q u = trof s pns (u + c)) by (intros; rewrite Eb; apply trof_rotated; auto).
  pose proof (turned_ends s n c K (trof s pns) Hs Hc V P EK) as EKq. pose proof (turned_course s n c K (trof s pns) Hs Hc V P EK) as PR.
  set (trq := fun t => trof s pns (t + c)) in *.
  assert (T : ends_after s n (trof s pns') K /\ Permutation (course_rows s n (trof s pns') K) (course_rows s n trq K)).
  { destruct E' as [-> | ->].
    - unfold ends_after, course_rows in *. split.
      + destruct EKq as (A & B & C). split; auto. rewrite (crs_ext s _ trq) by (intros; apply X). split; auto. intros j Hj. rewrite (crs_ext s _ trq) by (intros; apply X). auto.
      + rewrite (map_ext _ (crs s trq)); auto. intros t. apply crs_ext. intros; apply X.
    - assert (Y : forall u, trof s (rev q) u = trq (n - 1 - u mod n)).
      { intros u. rewrite trof_reversed by auto. rewrite X, Lq. unfold trq. reflexivity. }
      assert (Pq : forall t, trq (t + n) = trq t) by (intros t; unfold trq; replace (t + n + c) with (t + c + n) by lia; auto).
      pose proof (mirrored_ends s n K trq Hs Hn (fun t => V _) (fun t => I _) Pq EKq) as (A & B & C).
      pose proof (mirrored_course s n K trq Hs Hn (fun t => V _) (fun t => I _) Pq EKq) as R.
      unfold ends_after, course_rows in *. split.
      + split; auto. rewrite (crs_ext s _ (fun t => trq (n - 1 - t mod n))) by auto. split; auto. intros j Hj. rewrite (crs_ext s _ (fun t => trq (n - 1 - t mod n))) by auto. auto.
      + rewrite (map_ext _ (crs s (fun t => trq (n - 1 - t mod n)))); auto. intros t. apply crs_ext; auto. }
  destruct T as [EK2 PR2]. assert (K' = K) by (eapply (ends_fun s n (trof s pns')); eauto). subst K'.
  exists K, pc, pc', pars, pars', pe, pe', (crs s (trof s pns) c), (map (rmul (crs s (trof s pns) c)) (map fst pars')).
  split; [auto|]. split; [auto|]. split; [auto|].
  split; [rewrite <- (map_length fst), M; unfold course_rows; rewrite map_length, seq_length; auto|].
  split; [rewrite M; apply in_map; apply in_seq; destruct EK as (A & _); nia|]. split.
  - rewrite M'. pose proof (course_rows_v s n (trof s pns') Hs (trof_v s pns' Hs N' F') K) as W.
    assert (Vc : vrow s (crs s (trof s pns) c)) by (apply crs_v; auto). revert W. generalize (course_rows s n (trof s pns') K). intros w W.
    induction W as [|r l Vr W IH]; cbn [map]; constructor; auto. apply (composition_vrow s); auto.
  - rewrite M, M'. rewrite <- PR. apply Permutation_map. auto.
Qed.

Lemma pf_C114_plain_courses_upside_down :
  forall s pns pns' m m', 0 < s -> pns <> [] ->
    Forall (fun pn => legal pn /\ pn_stage pn = s) pns -> Forall (fun pn => legal pn /\ pn_stage pn = s) pns' ->
    Forall2 upside_down pns pns' ->
    pn_block_to_block_from_rounds None pns = Ret (first_lead m) -> pn_block_to_block_from_rounds None pns' = Ret (first_lead m') ->
    exists k pc pc' pars pars' pe pe',
      (forall fuel, k <= fuel -> plain_course fuel m = Ret pc /\ plain_course fuel m' = Ret pc') /\
      block_holds pc s pars pe /\ block_holds pc' s pars' pe' /\ length pars = k * length pns /\
      Forall2 (row_upside_down s) (map fst pars) (map fst pars').
Proof.
  intros s pns pns' m m' Hs N F F' U L L'.
  assert (L2 : length pns' = length pns) by (clear -U; induction U; cbn; auto).
  assert (N' : pns' <> []) by (intros K; rewrite K in L2; destruct pns; [auto|discriminate]).
  destruct (lead_course s pns m Hs N F L) as (K & pc & pars & pe & EK & Fu & H & M).
  destruct (lead_course s pns' m' Hs N' F' L') as (K' & pc' & pars' & pe' & EK' & Fu' & H' & M').
  rewrite L2 in *. set (n := length pns) in *. assert (Hn : 0 < n) by (unfold n; destruct pns; [congruence|cbn; lia]).
  pose proof (trof_v s pns Hs N F) as V. pose proof (over_ends s n K (trof s pns) Hs V EK) as (A & B & C).
  assert (X : forall u, trof s pns' u = conj_row s (trof s pns u)) by (intros; apply upside_trof; auto).
  assert (EK2 : ends_after s n (trof s pns') K).
  { split; auto. rewrite (crs_ext s _ (fun t => conj_row s (trof s pns t))) by auto. split; auto. intros j Hj.
    rewrite (crs_ext s _ (fun t => conj_row s (trof s pns t))) by auto. auto. }
  assert (K' = K) by (eapply (ends_fun s n (trof s pns')); eauto). subst K'.
  exists K, pc, pc', pars, pars', pe, pe'. split; [auto|]. split; [auto|]. split; [auto|].
  split; [rewrite <- (map_length fst), M; unfold course_rows; rewrite map_length, seq_length; auto|].
  rewrite M, M'. unfold course_rows. rewrite (map_ext (crs s (trof s pns')) (crs s (fun t => conj_row s (trof s pns t)))) by (intros; apply crs_ext; auto).
  generalize (seq 0 (K * n)). induction l as [|t l IH]; cbn [map]; constructor; auto. rewrite over_crs by auto. apply conj_upside, crs_v; auto.
Qed.

Lemma pf_C114_length_and_truth :
  forall s pns pns' m m' fuel fuel' pc pc' pars pars' pe pe', 0 < s -> pns <> [] ->
    Forall (fun pn => legal pn /\ pn_stage pn = s) pns -> Forall (fun pn => legal pn /\ pn_stage pn = s) pns' ->
    same_circle pns pns' \/ Forall2 upside_down pns pns' ->
    pn_block_to_block_from_rounds None pns = Ret (first_lead m) -> pn_block_to_block_from_rounds None pns' = Ret (first_lead m') ->
    plain_course fuel m = Ret pc -> plain_course fuel' m' = Ret pc' -> block_holds pc s pars pe -> block_holds pc' s pars' pe' ->
    length pars = length pars' /\ (NoDup (map fst pars) <-> NoDup (map fst pars')).
Proof.
  intros s pns pns' m m' fuel fuel' pc pc' pars pars' pe pe' Hs N F F' D L L' P P' H H'.
  assert (Same : forall b (x y : list (row * row_annot)) u v, block_holds b s x u -> block_holds b s y v -> x = y).
  { intros b x y u v (_ & _ & _ & _ & _ & E & _) (_ & _ & _ & _ & _ & E' & _). congruence. }
  assert (Vp : forall r, In r (map fst pars') -> vrow s r).
  { intros r R. destruct H' as (_ & _ & Fo & _). rewrite Forall_forall in Fo. apply in_map_iff in R as (x & <- & X). apply Fo; auto. }
  destruct D as [D|D].
  - destruct (pf_C114_plain_courses_round_the_circle s pns pns' m m' Hs N F D L L') as (k & c & c' & ps & ps' & e & e' & h & rows & Fu & B & B' & _ & Ih & Co & Pe).
    assert (c = pc) by (eapply (plain_course_det m k); eauto; intros; apply Fu; auto). assert (c' = pc') by (eapply (plain_course_det m' k); eauto; intros; apply Fu; auto).
    subst c c'. rewrite (Same _ _ _ _ _ B H) in *. rewrite (Same _ _ _ _ _ B' H') in *.
    assert (Vh : vrow s h).
    { destruct H as (_ & _ & Fo & _). rewrite Forall_forall in Fo. apply in_map_iff in Ih as (x & <- & X). apply Fo; auto. }
    assert (Er : rows = map (rmul h) (map fst pars')).
    { clear -Co. induction Co as [|x y l l' C _ IH]; auto. cbn [map]. f_equal; auto. apply composition_fun in C. auto. }
    split.
    + rewrite <- (map_length fst), <- (Permutation_length Pe), Er, !map_length. auto.
    + split; intros Nd.
      * apply Permutation_sym in Pe. apply (Permutation_NoDup Pe) in Nd. rewrite Er in Nd. eapply NoDup_map_inv; eauto.
      * apply (Permutation_NoDup Pe). rewrite Er. apply NoDup_map_inj; auto. intros x y Hx Hy E. apply (rmul_cancel_l s h); auto.
  - destruct (pf_C114_plain_courses_upside_down s pns pns' m m' Hs N F F' D L L') as (k & c & c' & ps & ps' & e & e' & Fu & B & B' & _ & Up).
    assert (c = pc) by (eapply (plain_course_det m k); eauto; intros; apply Fu; auto). assert (c' = pc') by (eapply (plain_course_det m' k); eauto; intros; apply Fu; auto).
    subst c c'. rewrite (Same _ _ _ _ _ B H) in *. rewrite (Same _ _ _ _ _ B' H') in *.
    assert (Er : map fst pars' = map (conj_row s) (map fst pars)).
    { assert (Vs : forall r, In r (map fst pars) -> vrow s r).
      { intros r R. destruct H as (_ & _ & Fo & _). rewrite Forall_forall in Fo. apply in_map_iff in R as (x & <- & X). apply Fo; auto. }
      clear -Up Vs Vp Hs. induction Up as [|x y l l' C _ IH]; auto. cbn [map]. f_equal; [|apply IH; intros; [apply Vp|apply Vs]; right; auto].
      assert (Vx : vrow s x) by (apply Vs; left; auto). assert (Vy : vrow s y) by (apply Vp; left; auto). destruct C as (_ & _ & C).
      pose proof (conj_upside s x Vx) as (_ & Lc & C'). apply (nth_ext _ _ 0 0); [rewrite Lc; apply Vy|]. intros i Hi. rewrite (proj2 Vy) in Hi.
      assert (Hb : nth (flip s i) x 0 < s).
      { pose proof (valid_row_nth_lt x (flip s i) (proj1 Vx)) as X. rewrite (proj2 Vx) in X. apply X. apply flip_lt; auto. }
      assert (Q : nth_error x (flip s i) = Some (nth (flip s i) x 0)) by (apply nth_error_nth'; rewrite (proj2 Vx); apply flip_lt; auto).
      assert (Z1 : flip s i + i + 1 = s) by (unfold flip; lia).
      assert (Z2 : nth (flip s i) x 0 + flip s (nth (flip s i) x 0) + 1 = s) by (unfold flip at 2; lia). apply (C _ _ _ _ Z1 Z2) in Q.
      rewrite (nth_error_nth _ _ 0 Q). symmetry. apply conj_nth; auto. }
    split; [apply (f_equal (@length row)) in Er; rewrite !map_length in Er; auto|]. rewrite Er. split; intros Nd.
    + apply NoDup_map_inj; auto. intros x y Hx Hy E.
      assert (Vs : forall r, In r (map fst pars) -> vrow s r).
      { intros r R. destruct H as (_ & _ & Fo & _). rewrite Forall_forall in Fo. apply in_map_iff in R as (z & <- & X). apply Fo; auto. }
      rewrite <- (conj_conj s Hs x), <- (conj_conj s Hs y) by auto. congruence.
    + eapply NoDup_map_inv; eauto.
Qed.
