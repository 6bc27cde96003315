(** Changes, courses and leads with the places counted from the back. *)
From Coq Require Import Sorted.
From Verif Require Import Base Spec SpecBlock Class SpecClass SpecVec SpecPn SpecUpside ListFacts Row RowFacts MulFacts GroupFacts SameStageVec Block SsvFacts BlockFacts
  PlaceNot PnFacts PnFacts2 PnFacts3 LawFacts ClassFacts ClassFacts2 ClassFacts3 ClassThms CtorFacts TouchFacts SymFacts SymFacts2 SymFacts3 UpsideFacts.
Local Open Scope list_scope.

(** ** Changes *)

Lemma rings_append made i r r' q q' : rings made i r r' -> rings made (i + length r) q q' -> rings made i (r ++ q) (r' ++ q').
Proof.
  intros H. revert q q'. induction H as [i|i b r r' I H IH|i a b r r' I1 I2 H IH]; intros q q' Q; cbn [app length] in *.
  - rewrite Nat.add_0_r in Q. auto.
  - apply rings_place; auto. apply IH. replace (i + 1 + length r) with (i + S (length r)) by lia. auto.
  - apply rings_swap; auto. apply IH. replace (i + 2 + length r) with (i + S (S (length r))) by lia. auto.
Qed.

Lemma rings_back made made' i j r r' : rings made i r r' ->
  (forall k, k < length r -> (In (i + k) made <-> In (j + length r - 1 - k) made')) -> rings made' j (rev r) (rev r').
Proof.
  intros H. revert j. induction H as [i|i b r r' I H IH|i a b r r' I1 I2 H IH]; intros j E; cbn [rev length] in *.
  - constructor.
  - apply rings_append.
    + apply IH. intros k Hk. replace (i + 1 + k) with (i + S k) by lia. rewrite E by lia. replace (j + S (length r) - 1 - S k) with (j + length r - 1 - k) by lia. tauto.
    + rewrite rev_length. apply rings_place; [|constructor]. replace (j + length r) with (j + S (length r) - 1 - 0) by lia. apply E; [lia|]. rewrite Nat.add_0_r; auto.
  - rewrite <- !app_assoc. cbn [app]. apply rings_append.
    + apply IH. intros k Hk. replace (i + 2 + k) with (i + S (S k)) by lia. rewrite E by lia.
      replace (j + S (S (length r)) - 1 - S (S k)) with (j + length r - 1 - k) by lia. tauto.
    + rewrite rev_length. apply rings_swap; [| |constructor].
      * intros X. apply I2. apply E; [lia|]. replace (j + S (S (length r)) - 1 - 1) with (j + length r) by lia. auto.
      * intros X. apply I1. replace i with (i + 0) by lia. apply E; [lia|]. replace (j + S (S (length r)) - 1 - 0) with (j + length r + 1) by lia. auto.
Qed.

Lemma rings_mapped made i (g : nat -> nat) r r' : rings made i r r' -> rings made i (map g r) (map g r').
Proof. induction 1; cbn [map]; constructor; auto. Qed.

Section Conj.
Context (s : nat).
Hypothesis Hs : 0 < s.
Definition conj_row (r : row) : row := map (flip s) (rev r).

Lemma conj_nth r p : vrow s r -> p < s -> nth p (conj_row r) 0 = flip s (nth (flip s p) r 0).
Proof.
  intros [_ L] Hp. unfold conj_row. rewrite (nth_indep _ 0 (flip s 0)) by (rewrite map_length, rev_length; lia).
  rewrite map_nth, rev_nth by lia. unfold flip. do 2 f_equal. lia.
Qed.
Lemma conj_nth_error r p : vrow s r -> p < s -> nth_error (conj_row r) p = Some (flip s (nth (flip s p) r 0)).
Proof.
  intros V Hp. rewrite <- conj_nth by auto. apply nth_error_nth'. unfold conj_row. rewrite map_length, rev_length, (proj2 V). auto.
Qed.
Lemma conj_v r : vrow s r -> vrow s (conj_row r).
Proof.
  intros V. assert (L : length (conj_row r) = s) by (unfold conj_row; rewrite map_length, rev_length; apply V). pose proof (proj2 V) as Lr.
  split; auto. apply valid_row_iff. split; [intros E; rewrite E in L; cbn in L; lia|]. rewrite L. split.
  - unfold conj_row. apply NoDup_map_inj; [|apply NoDup_rev; apply V].
    intros x y Hx Hy E. apply in_rev in Hx, Hy. apply (flip_inj s); auto; rewrite <- Lr; apply V; auto.
  - apply Forall_forall. intros b Hb. unfold conj_row in Hb. apply in_map_iff in Hb as (q & <- & Q). unfold flip. lia.
Qed.

Lemma conj_rounds : conj_row (row_rounds s) = row_rounds s.
Proof.
  pose proof (valid_rounds s Hs) as V. pose proof (conj_v _ V) as V'. apply (nth_ext _ _ 0 0); [rewrite (proj2 V), (proj2 V'); auto|].
  intros i Hi. rewrite (proj2 V') in Hi. rewrite conj_nth by auto. rewrite rounds_seq, !seq_nth by (auto; apply flip_lt; auto). apply flip_flip; auto.
Qed.

Lemma conj_rmul a b : vrow s a -> vrow s b -> conj_row (rmul a b) = rmul (conj_row a) (conj_row b).
Proof.
  intros Va Vb. unfold rmul, conj_row at 1 3. rewrite <- map_rev, !map_map. apply map_ext_in. intros q Q. apply in_rev in Q.
  assert (Hq : q < s) by (rewrite <- (proj2 Vb); apply Vb; auto). rewrite conj_nth by (auto; apply flip_lt; auto). rewrite flip_flip; auto.
Qed.

Lemma conj_place r x : vrow s r -> x < s -> place_in (conj_row r) (flip s x) = flip s (place_in r x).
Proof.
  intros V Hx. pose proof (place_in_vlt s r x V Hx) as L. apply place_in_unique; [apply conj_v; auto|].
  rewrite conj_nth_error by (auto; apply flip_lt; auto). rewrite flip_flip by auto. do 2 f_equal.
  apply nth_error_nth. apply place_in_ok; [apply V|rewrite (proj2 V); auto].
Qed.

Lemma rings_conj pl pl' t : (forall p, p < s -> (In p pl <-> In (flip s p) pl')) ->
  rings pl 0 (row_rounds s) t -> rings pl' 0 (row_rounds s) (conj_row t).
Proof.
  intros E R. rewrite <- conj_rounds. unfold conj_row. apply rings_mapped. apply (rings_back pl pl' 0 0); auto.
  intros k Hk. rewrite (proj2 (valid_rounds s Hs)) in *. cbn [Nat.add]. apply E; auto.
Qed.
End Conj.

(** ** Courses *)

Section Turned_over.
Context (s n : nat) (tr : nat -> row).
Hypothesis Hs : 0 < s.
Hypothesis Hn : 0 < n.
Hypothesis Vtr : forall t, vrow s (tr t).
Hypothesis Ptr : forall t, tr (t + n) = tr t.
Let tr' (t : nat) : row := conj_row s (tr t).
Let Vtr' t : vrow s (tr' t).
Proof. apply conj_v; auto. Qed.
Let Ptr' t : tr' (t + n) = tr' t.
Proof. unfold tr'. rewrite Ptr. auto. Qed.

Lemma over_crs t : crs s tr' t = conj_row s (crs s tr t).
Proof.
  induction t as [|t IH]; cbn [crs]; [symmetry; apply conj_rounds; auto|]. rewrite IH. symmetry. apply conj_rmul; auto. apply crs_v; auto.
Qed.
Lemma over_P x t : x < s -> P s tr' (flip s x) t = flip s (P s tr x t).
Proof. intros Hx. unfold P. rewrite over_crs. apply conj_place; auto. apply crs_v; auto. Qed.

Lemma over_returns x k : x < s -> (returns_after (crs s tr n) x k <-> returns_after (crs s tr' n) (flip s x) k).
Proof.
  intros Hx. pose proof (crs_v s tr Hs Vtr n) as V. pose proof (crs_v s tr' Hs Vtr' n) as V'. pose proof (flip_lt s x Hx) as Fx.
  rewrite (returns_after_order s), (returns_after_order s) by auto. unfold order.
  assert (E : forall j, it (crs s tr' n) (flip s x) j = flip s x <-> it (crs s tr n) x j = x).
  { intros j. rewrite !it_P, over_P by auto. split; [|congruence]. apply flip_inj; auto. apply P_lt; auto. }
  rewrite E. split; intros (H1 & H2 & H3); splits; auto; intros j Hj; specialize (H3 j Hj); rewrite ?E in *; auto.
Qed.

Lemma over_sharp x : x < s -> (turns_sharply (crows s n tr) (crs s tr n) x <-> turns_sharply (crows s n tr') (crs s tr' n) (flip s x)).
Proof.
  intros Hx. pose proof (flip_lt s x Hx) as Fx. rewrite !sharp_P by auto.
  assert (L : forall t, P s tr x t < s) by (intros; apply P_lt; auto).
  split; intros (t & H1 & H2); exists t; rewrite ?over_P in * by auto; pose proof (L t); pose proof (L (t + 1)); pose proof (L (t + 2)); unfold flip in *; lia.
Qed.

Lemma over_classify {A B} (b : block A) (b' : block B) ars ars' o o' :
  block_holds b s ars (crs s tr n) -> block_holds b' s ars' (crs s tr' n) -> map fst ars = crows s n tr -> map fst ars' = crows s n tr' ->
  (forall i r1 r2, change_at (crows s n tr) (crs s tr n) i r1 r2 -> no_jump r1 r2) ->
  (forall i r1 r2, change_at (crows s n tr') (crs s tr' n) i r1 r2 -> no_jump r1 r2) ->
  (forall l, collected_set l (o l)) -> (forall l, collected_set l (o' l)) ->
  exists fc, classify o b = Ret fc /\ classify o' b' = Ret fc.
Proof.
  intros Hb Hb' E E' J J' Ho Ho'. assert (Ls : forall x, hunt_bell (crs s tr n) x -> x < s).
  { intros x H. unfold hunt_bell in H. apply nth_error_lt in H. rewrite (proj2 (crs_v s tr Hs Vtr n)) in H. auto. }
  apply (u_classify s n (crows s n tr) (crows s n tr') (crs s tr n) (crs s tr' n)) with (ars := ars) (ars' := ars'); auto.
  - apply crs_v; auto.
  - apply crs_v; auto.
  - apply crows_len.
  - apply crows_len.
  - intros x Hx q Q. rewrite crows_path in Q. apply in_map_iff in Q as (t & <- & _). apply P_lt; auto.
  - intros x i Hh Hi. pose proof (Ls x Hh) as Hx. rewrite !crows_path_nth by (auto; apply modlt; auto). rewrite <- hunt_P by auto.
    assert (C : exists r1 r2, change_at (crows s n tr) (crs s tr n) i r1 r2).
    { unfold change_at. pose proof (crows_len s n tr) as L.
      destruct (nth_error (crows s n tr ++ [crs s tr n]) i) as [r1|] eqn:E1; [|apply nth_error_None in E1; rewrite app_length in E1; cbn in E1; lia].
      destruct (nth_error (crows s n tr ++ [crs s tr n]) (i + 1)) as [r2|] eqn:E2; [|apply nth_error_None in E2; rewrite app_length in E2; cbn in E2; lia].
      eauto. }
    destruct C as (r1 & r2 & C). pose proof (J i r1 r2 C) as N. apply crows_change in C as (_ & -> & ->); auto.
    apply (N x); unfold P; (apply place_in_ok; [apply (crs_v s tr Hs Vtr)|rewrite (proj2 (crs_v s tr Hs Vtr _)); auto]).
  - intros x k Hx. apply over_returns; auto.
  - intros x Hx. rewrite !crows_path, map_map. apply map_ext. intros t. apply over_P; auto.
  - intros x Hx. apply over_sharp; auto.
  - intros i r1 r2 r1' r2' Hi C C'. apply crows_change in C as (Hi1 & -> & ->); auto. apply crows_change in C' as (_ & -> & ->); auto.
    rewrite !internal_tr by auto. unfold tr'. pose proof (Vtr i) as V. split; intros (p & P1 & P2 & P3); exists (flip s p).
    + assert (p < s) by lia. unfold flip at 1 2. splits; try lia. rewrite conj_nth_error by (auto; apply flip_lt; auto). rewrite flip_flip by auto.
      rewrite (nth_error_nth _ _ 0 P3). auto.
    + assert (p < s) by lia. unfold flip at 1 2. splits; try lia. rewrite conj_nth_error in P3 by auto. injection P3 as P3.
      rewrite (nth_error_nth' _ 0) by (rewrite (proj2 V); apply flip_lt; auto). f_equal. rewrite <- P3 at 2. symmetry. apply flip_flip.
      rewrite <- (proj2 V) at 2. apply valid_row_nth_lt; [apply V|]. rewrite (proj2 V). apply flip_lt; auto.
  - rewrite crs_hd by auto. apply rounds_identity.
  - rewrite crs_hd by auto. apply rounds_identity.
Qed.
End Turned_over.

(** ** Changes which are each other upside down *)

Lemma legal_from_append e s i l l' : legal_from e i l -> e <= s -> legal_from s e l' -> legal_from s i (l ++ l').
Proof.
  intros H Le. revert l'. induction H as [|i l Hi H IH|i l Hi H IH]; intros l' Q; cbn [app]; auto.
  - apply lf_place; [lia|auto].
  - apply lf_swap; [lia|auto].
Qed.

Lemma legal_from_back s i l : legal_from s i l -> legal_from (s - i) 0 (rev (map (flip s) l)).
Proof.
  induction 1 as [|i l Hi H IH|i l Hi H IH]; cbn [map rev].
  - rewrite Nat.sub_diag. constructor.
  - apply (legal_from_append (s - (i + 1))); auto; [lia|]. replace (flip s i) with (s - (i + 1)) by (unfold flip; lia). apply lf_place; [lia|].
    replace (s - (i + 1) + 1) with (s - i) by lia. constructor.
  - rewrite <- (app_nil_r (rev _)). apply (legal_from_append (s - (i + 2))); auto; [lia|]. apply lf_swap; [lia|].
    replace (s - (i + 2) + 2) with (s - i) by lia. constructor.
Qed.

Lemma legal_from_below s i l p : legal_from s i l -> In p l -> p < s.
Proof. induction 1; cbn; intros I; intuition lia. Qed.

Lemma upside_flip pn pn' : (forall p, In p (pn_places pn) -> p < pn_stage pn) -> upside_down pn pn' ->
  forall p, p < pn_stage pn -> (In p (pn_places pn) <-> In (flip (pn_stage pn) p) (pn_places pn')).
Proof.
  intros B [_ E] p Hp. rewrite E. unfold flip. split.
  - intros I. exists p. split; auto. lia.
  - intros (q & Q & X). specialize (B q Q). replace p with q by lia. auto.
Qed.

Lemma upside_trof s pns pns' t : 0 < s -> pns <> [] ->
  Forall (fun pn => legal pn /\ pn_stage pn = s) pns -> Forall (fun pn => legal pn /\ pn_stage pn = s) pns' ->
  Forall2 upside_down pns pns' -> trof s pns' t = conj_row s (trof s pns t).
Proof.
  intros Hs N F F' U.
  assert (L : length pns = length pns') by (clear -U; induction U; cbn; auto).
  assert (N' : pns' <> []) by (intros ->; destruct pns; [auto|discriminate]).
  destruct (trof_ok s pns Hs N F t) as (pn & E & R). destruct (trof_ok s pns' Hs N' F' t) as (pn' & E' & R'). rewrite L in E.
  assert (X : upside_down pn pn').
  { clear -U E E'. revert E E'. generalize (t mod length pns'). induction U; intros [|k]; cbn; try discriminate; intros; eauto. congruence. }
  rewrite Forall_forall in F. destruct (F pn) as [[_ Lg] Sn]; [eapply nth_error_In; eauto|].
  apply (rings_conj s Hs _ (pn_places pn')) in R.
  - eapply rings_fun; eauto.
  - rewrite <- Sn. intros p Hp. apply upside_flip; auto. intros q Q. eapply legal_from_below; eauto.
Qed.

Lemma conj_upside s r : vrow s r -> row_upside_down s r (conj_row s r).
Proof.
  intros V. assert (Hs : 0 < s) by (rewrite <- (proj2 V); apply valid_row_pos, V). pose proof (conj_v s Hs r V) as V'. split; [apply V|]. split; [apply V'|]. intros p q b c Hp Hb.
  replace q with (flip s p) by (unfold flip; lia). replace c with (flip s b) by (unfold flip; lia).
  rewrite conj_nth_error by (auto; unfold flip; lia). rewrite flip_flip by lia. pose proof (proj2 V) as L.
  rewrite (nth_error_nth' r 0) by lia. split; intros E; injection E as E.
  - rewrite E. auto.
  - apply flip_inj in E; [congruence| |lia]. rewrite <- L. apply valid_row_nth_lt; [apply V|lia].
Qed.

Lemma sorted_same : forall l l' : list nat, StronglySorted lt l -> StronglySorted lt l' -> (forall x, In x l <-> In x l') -> l = l'.
Proof.
  induction l as [|x l IH]; intros [|y l'] S1 S2 E; auto.
  - exfalso. apply (proj2 (E y)). left; auto.
  - exfalso. apply (proj1 (E x)). left; auto.
  - apply StronglySorted_inv in S1 as [S1 F1]. apply StronglySorted_inv in S2 as [S2 F2]. rewrite Forall_forall in F1, F2.
    assert (x = y).
    { destruct (proj1 (E x) (or_introl eq_refl)) as [->|I]; auto. destruct (proj2 (E y) (or_introl eq_refl)) as [->|I']; auto.
      specialize (F1 _ I'). specialize (F2 _ I). lia. }
    subst y. f_equal. apply IH; auto. intros z. split; intros Z.
    + destruct (proj1 (E z) (or_intror Z)) as [->|I]; auto. specialize (F1 _ Z). lia.
    + destruct (proj2 (E z) (or_intror Z)) as [->|I]; auto. specialize (F2 _ Z). lia.
Qed.
