(** The plain course of a lead of changes, rung from another change on or backwards. *)
From Verif Require Import Base Spec SpecBlock Class SpecClass SpecVec SpecPn ListFacts Row RowFacts MulFacts GroupFacts SameStageVec Block SsvFacts BlockFacts
  PlaceNot PnFacts PnFacts2 PnFacts3 LawFacts ClassFacts ClassFacts2 ClassFacts3 ClassThms CtorFacts TouchFacts SymFacts SymFacts2.
Local Open Scope list_scope.

Lemma place_in_rmul s a b x : vrow s a -> vrow s b -> x < s -> place_in (rmul a b) x = place_in b (place_in a x).
Proof.
  intros Va Vb Hx. apply place_in_unique; [apply (valid_rmul s); auto|].
  assert (Ha : place_in a x < s) by (rewrite <- (proj2 Va); apply place_in_lt; [apply Va|rewrite (proj2 Va); auto]).
  unfold rmul. rewrite nth_error_map, place_in_ok; [|apply Vb|rewrite (proj2 Vb); auto]. cbn. f_equal.
  apply nth_error_nth. apply place_in_ok; [apply Va|rewrite (proj2 Va); auto].
Qed.

Lemma place_in_rounds s x : 0 < s -> x < s -> place_in (row_rounds s) x = x.
Proof.
  intros Hs Hx. apply place_in_unique; [apply valid_rounds; auto|]. rewrite rounds_seq.
  rewrite (nth_error_nth' _ 0) by (rewrite seq_length; auto). rewrite seq_nth; auto.
Qed.

Lemma place_in_vlt s r x : vrow s r -> x < s -> place_in r x < s.
Proof. intros [V L] H. rewrite <- L. apply place_in_lt; auto. lia. Qed.

(** ** Courses *)

Section OneCourse.
Context (s n : nat) (tr : nat -> row).
Hypothesis Hs : 0 < s.
Hypothesis Hn : 0 < n.
Hypothesis Vtr : forall t, vrow s (tr t).
Hypothesis Itr : forall t, rmul (tr t) (tr t) = row_rounds s.
Hypothesis Ptr : forall t, tr (t + n) = tr t.

Fixpoint crs (t : nat) : row := match t with O => row_rounds s | S u => rmul (crs u) (tr u) end.

Lemma crs_v t : vrow s (crs t).
Proof. induction t; cbn; [apply valid_rounds; auto|apply valid_rmul; auto]. Qed.

Lemma tr_mod t : tr t = tr (t mod n).
Proof.
  rewrite (Nat.div_mod t n) at 1 by lia. rewrite Nat.add_comm. generalize (t / n) as k, (t mod n) as u. clear t. intros k u.
  induction k as [|k IH]; [rewrite Nat.mul_0_r, Nat.add_0_r; auto|]. replace (u + n * S k) with (u + n * k + n) by lia. rewrite Ptr; auto.
Qed.

Lemma crs_shift t : crs (t + n) = rmul (crs n) (crs t).
Proof.
  induction t as [|t IH]; cbn [crs Nat.add].
  - rewrite rmul_rounds_r; auto. apply crs_v.
  - rewrite IH, Ptr. apply (rmul_assoc_vrow s); auto. apply crs_v.
Qed.

Lemma crs_add t k : crs (t + k * n) = rmul (rpow (crs n) k) (crs t).
Proof.
  induction k as [|k IH].
  - rewrite Nat.add_0_r. cbn [rpow]. rewrite (proj2 (crs_v n)). symmetry. apply (rmul_rounds_l_vrow s). apply crs_v.
  - replace (t + S k * n) with (t + k * n + n) by lia. rewrite crs_shift, IH.
    rewrite <- (rmul_assoc_vrow s) by (try apply vrow_rpow; apply crs_v). f_equal.
    replace (S k) with (1 + k) by lia. rewrite (rpow_add s), (rpow_1 s) by apply crs_v. reflexivity.
Qed.

Definition P (x t : nat) : nat := place_in (crs t) x.

Lemma P_lt x t : x < s -> P x t < s.
Proof. intros. apply place_in_vlt; auto. apply crs_v. Qed.

Lemma it_P x k : x < s -> it (crs n) x k = P x (k * n).
Proof.
  intros Hx. assert (V := crs_v n). symmetry. apply place_in_unique; [apply crs_v|].
  pose proof (crs_add 0 k) as E. cbn [Nat.add crs] in E. rewrite E.
  rewrite rmul_rounds_r by (apply vrow_rpow; auto). apply (rpow_nth s); auto.
Qed.

Lemma P_add x t k : x < s -> P x (t + k * n) = P (it (crs n) x k) t.
Proof.
  intros Hx. assert (V := crs_v n). unfold P. rewrite crs_add, (place_in_rmul s) by (try apply vrow_rpow; auto; apply crs_v). f_equal.
  apply place_in_unique; [apply (vrow_rpow s); auto|]. apply (rpow_nth s); auto.
Qed.

Definition crows : list row := map crs (seq 0 n).

Lemma crows_nth i : i < n -> nth_error crows i = Some (crs i).
Proof.
  intros H. unfold crows. rewrite nth_error_map, (nth_error_nth' _ 0) by (rewrite seq_length; auto). rewrite seq_nth by auto. reflexivity.
Qed.

Lemma crows_len : length crows = n.
Proof. unfold crows. rewrite map_length, seq_length. auto. Qed.

Lemma crows_path x : path_in crows x = map (P x) (seq 0 n).
Proof. unfold path_in, crows. rewrite map_map. reflexivity. Qed.

Lemma crows_path_nth x i : i < n -> nth i (path_in crows x) 0 = P x i.
Proof.
  intros H. rewrite crows_path. rewrite (nth_indep _ 0 (P x 0)) by (rewrite map_length, seq_length; auto).
  rewrite map_nth, seq_nth; auto.
Qed.

Lemma crows_change i r1 r2 : change_at crows (crs n) i r1 r2 -> i < n /\ r1 = crs i /\ r2 = crs (i + 1).
Proof.
  intros [H1 H2]. assert (Hi : i + 1 < length (crows ++ [crs n])) by (apply nth_error_Some; congruence).
  rewrite app_length, crows_len in Hi. cbn in Hi. split; [lia|].
  rewrite nth_error_app1, crows_nth in H1 by (rewrite ?crows_len; lia). injection H1 as <-. split; auto.
  destruct (Nat.eq_dec (i + 1) n) as [E|E].
  - rewrite E in *. rewrite nth_error_app2 in H2 by (rewrite crows_len; lia). rewrite crows_len, Nat.sub_diag in H2. injection H2 as <-. auto.
  - rewrite nth_error_app1, crows_nth in H2 by (rewrite ?crows_len; lia). injection H2 as <-. auto.
Qed.

Lemma internal_tr i : internal_place (crs i) (crs (i + 1)) <-> exists p, 0 < p /\ p + 1 < s /\ nth_error (tr i) p = Some p.
Proof.
  replace (i + 1) with (S i) by lia. cbn [crs]. pose proof (crs_v i) as V. unfold internal_place. rewrite (proj2 V). split.
  - intros (p & b & H1 & H2 & E1 & E2). exists p. splits; auto. unfold rmul in E2. rewrite nth_error_map in E2.
    destruct (nth_error (tr i) p) as [q|] eqn:Eq; [|discriminate]. cbn in E2. f_equal.
    assert (Hq : q < s) by (rewrite <- (proj2 (Vtr i)); eapply valid_row_nth_error_lt; eauto; apply Vtr).
    assert (E3 : nth_error (crs i) q = Some b) by (rewrite (nth_error_nth' _ 0); [auto|rewrite (proj2 V); auto]).
    rewrite <- (place_in_unique _ _ _ (proj1 V) E3). apply place_in_unique; auto. apply V.
  - intros (p & H1 & H2 & E). exists p, (nth p (crs i) 0). splits; auto.
    + apply nth_error_nth'. rewrite (proj2 V). lia.
    + unfold rmul. rewrite nth_error_map, E. reflexivity.
Qed.

Lemma course_P x t p : x < s -> (course_place crows (crs n) x t p <-> p = P x t).
Proof.
  intros Hx. assert (V := crs_v n). assert (Hm : t mod n < n) by (apply Nat.mod_upper_bound; lia).
  assert (E : P x t = place_in (crs (t mod n)) (it (crs n) x (t / n))).
  { rewrite (Nat.div_mod t n) at 1 by lia. rewrite Nat.add_comm, Nat.mul_comm, P_add by auto. reflexivity. }
  unfold course_place. rewrite crows_len. split.
  - intros (r & h & r' & H1 & H2 & H3 & H4). rewrite crows_nth in H1 by auto. injection H1 as <-.
    apply power_fun in H2. apply composition_fun in H3. subst h r'.
    rewrite <- crs_add in H4. replace (t mod n + t / n * n) with t in H4 by (rewrite (Nat.div_mod t n) at 1 by lia; lia).
    symmetry. apply place_in_unique; auto. apply crs_v.
  - intros ->. exists (crs (t mod n)), (rpow (crs n) (t / n)), (crs t). splits.
    + apply crows_nth; auto.
    + eapply power_rpow; eauto.
    + replace (crs t) with (crs (t mod n + t / n * n)) by (f_equal; rewrite (Nat.div_mod t n) at 3 by lia; lia). rewrite crs_add.
      apply (composition_vrow s); [apply vrow_rpow; auto|apply crs_v].
    + apply place_in_ok; [apply crs_v|rewrite (proj2 (crs_v t)); auto].
Qed.

Lemma sharp_P x : x < s -> (turns_sharply crows (crs n) x <-> exists t, P x t = P x (t + 2) /\ (P x (t + 1) = P x t + 1 \/ P x t = P x (t + 1) + 1)).
Proof.
  intros Hx. unfold turns_sharply. split.
  - intros (t & p & q & H1 & H2 & H3 & H4). apply course_P in H1, H2, H3; auto. exists t. subst p q. rewrite <- H3. auto.
  - intros (t & H1 & H2). exists t, (P x t), (P x (t + 1)). rewrite !course_P by auto. auto.
Qed.

Lemma hunt_P x t : x < s -> hunt_bell (crs n) x -> P x t = P x (t mod n).
Proof.
  intros Hx H. assert (V := crs_v n). apply (hunt_order s) in H; auto.
  rewrite (Nat.div_mod t n) at 1 by lia. rewrite Nat.add_comm, Nat.mul_comm, P_add by auto. f_equal.
  rewrite (it_mod _ _ _ _ H). rewrite Nat.mod_1_r. reflexivity.
Qed.

Lemma P_period x t K : x < s -> rpow (crs n) K = row_rounds s -> P x (t + K * n) = P x t.
Proof.
  intros Hx H. rewrite P_add by auto. f_equal. rewrite it_P by auto. unfold P.
  pose proof (crs_add 0 K) as E. cbn [Nat.add crs] in E. rewrite E, H.
  rewrite (rmul_rounds_l_vrow s) by (apply valid_rounds; auto). apply place_in_rounds; auto.
Qed.

Lemma crs_hd : hd [] crows = row_rounds s.
Proof. unfold crows. destruct n; [lia|reflexivity]. Qed.
End OneCourse.

Lemma crs_ext s tr tr' t : (forall u, u < t -> tr u = tr' u) -> crs s tr t = crs s tr' t.
Proof. induction t as [|t IH]; intros H; cbn; auto. rewrite IH, H; auto. Qed.

(** ** From another change on *)

Section Turned.
Context (s n c : nat) (tr : nat -> row).
Hypothesis Hs : 0 < s.
Hypothesis Hc : c < n.
Hypothesis Vtr : forall t, vrow s (tr t).
Hypothesis Itr : forall t, rmul (tr t) (tr t) = row_rounds s.
Hypothesis Ptr : forall t, tr (t + n) = tr t.
Let Hn : 0 < n.
Proof. lia. Qed.

Let tr' (t : nat) : row := tr (t + c).
Let Vtr' t : vrow s (tr' t).
Proof. apply Vtr. Qed.
Let Ptr' t : tr' (t + n) = tr' t.
Proof. unfold tr'. replace (t + n + c) with (t + c + n) by lia. auto. Qed.

Lemma turned_crs t : crs s tr (t + c) = rmul (crs s tr c) (crs s tr' t).
Proof.
  induction t as [|t IH]; cbn [crs Nat.add].
  - rewrite rmul_rounds_r; auto. apply crs_v; auto.
  - rewrite IH. apply (rmul_assoc_vrow s); auto. apply crs_v; auto.
Qed.

Lemma turned_P x t : x < s -> P s tr' (P s tr x c) t = P s tr x (t + c).
Proof. intros Hx. unfold P. rewrite turned_crs, (place_in_rmul s); auto; apply crs_v; auto. Qed.

Let f x := P s tr x c.
Let f' x := nth x (crs s tr c) 0.

Lemma turned_f x : x < s -> f x < s /\ f' x < s /\ f (f' x) = x /\ f' (f x) = x.
Proof.
  intros Hx. pose proof (crs_v s tr Hs Vtr c) as V. unfold f, f', P.
  pose proof (valid_row_nth_lt _ x (proj1 V)) as L. rewrite (proj2 V) in L.
  splits; auto.
  - apply place_in_vlt; auto.
  - apply place_in_unique; [apply V|]. apply nth_error_nth'. rewrite (proj2 V); auto.
  - apply nth_error_nth. apply place_in_ok; [apply V|rewrite (proj2 V); auto].
Qed.

Lemma f_inj x y : x < s -> y < s -> f x = f y -> x = y.
Proof. intros Hx Hy E. rewrite <- (proj2 (proj2 (proj2 (turned_f x Hx)))), <- (proj2 (proj2 (proj2 (turned_f y Hy)))). congruence. Qed.

Lemma turned_it x k : x < s -> it (crs s tr' n) (f x) k = f (it (crs s tr n) x k).
Proof.
  intros Hx. rewrite it_P; auto; [|apply turned_f; auto]. unfold f. rewrite turned_P by auto.
  rewrite Nat.add_comm. rewrite P_add; auto.
Qed.

Lemma turned_returns x k : x < s -> (returns_after (crs s tr n) x k <-> returns_after (crs s tr' n) (f x) k).
Proof.
  intros Hx. pose proof (crs_v s tr Hs Vtr n) as V. pose proof (crs_v s tr' Hs Vtr' n) as V'. destruct (turned_f x Hx) as (Fx & _).
  rewrite (returns_after_order s), (returns_after_order s) by auto. unfold order.
  assert (E : forall j, it (crs s tr' n) (f x) j = f x <-> it (crs s tr n) x j = x).
  { intros j. rewrite turned_it by auto. split; [|congruence]. apply f_inj; auto. apply it_lt; auto. }
  rewrite E. split; intros (H1 & H2 & H3); splits; auto; intros j Hj; specialize (H3 j Hj); rewrite ?E in *; auto.
Qed.

Lemma turned_sharp x : x < s -> (turns_sharply (crows s n tr) (crs s tr n) x <-> turns_sharply (crows s n tr') (crs s tr' n) (f x)).
Proof.
  intros Hx. destruct (turned_f x Hx) as (Fx & _). rewrite !sharp_P by auto. unfold f. split; intros (t & H1 & H2).
  - destruct (finite_order s (crs s tr n)) as (K & HK & EK); [apply crs_v; auto|].
    assert (Q : forall u, P s tr x (u + K * n) = P s tr x u) by (intros; apply P_period; auto).
    exists (t + K * n - c). rewrite !turned_P by auto.
    assert (c <= K * n) by nia.
    replace (t + K * n - c + c) with (t + K * n) by lia. replace (t + K * n - c + 2 + c) with (t + 2 + K * n) by lia.
    replace (t + K * n - c + 1 + c) with (t + 1 + K * n) by lia. rewrite !Q. auto.
  - rewrite !turned_P in * by auto. exists (t + c). replace (t + c + 2) with (t + 2 + c) by lia. replace (t + c + 1) with (t + 1 + c) by lia. auto.
Qed.

Lemma turned_classify {A B} (b : block A) (b' : block B) ars ars' o o' :
  block_holds b s ars (crs s tr n) -> block_holds b' s ars' (crs s tr' n) -> map fst ars = crows s n tr -> map fst ars' = crows s n tr' ->
  (forall i r1 r2, change_at (crows s n tr) (crs s tr n) i r1 r2 -> no_jump r1 r2) ->
  (forall i r1 r2, change_at (crows s n tr') (crs s tr' n) i r1 r2 -> no_jump r1 r2) ->
  (forall l, collected_set l (o l)) -> (forall l, collected_set l (o' l)) ->
  exists fc, classify o b = Ret fc /\ classify o' b' = Ret fc.
Proof.
  intros Hb Hb' E E' J J' Ho Ho'.
  apply (t_classify s n (crows s n tr) (crows s n tr') (crs s tr n) (crs s tr' n) f f' (turned n c) (turned n c)
    (turned n (if c =? 0 then 0 else n - c))) with (ars := ars) (ars' := ars'); auto.
  - apply crs_v; auto.
  - apply crs_v; auto.
  - apply crows_len.
  - apply crows_len.
  - apply turned_f.
  - exists c. split; auto.
  - intros i Hi. unfold turned. splits; try (apply Nat.mod_upper_bound; lia).
    destruct (Nat.eqb_spec c 0) as [->|N].
    + rewrite !Nat.add_0_r. rewrite Nat.mod_mod, Nat.mod_small; lia.
    + rewrite Nat.add_mod_idemp_l by lia. replace (i + (n - c) + c) with (i + 1 * n) by lia. rewrite Nat.mod_add, Nat.mod_small; lia.
  - intros i Hi. left. split; auto. unfold turned. rewrite !Nat.add_mod_idemp_l by lia. f_equal. lia.
  - intros x k Hx. apply turned_returns; auto.
  - intros x Hx Hh. apply (nth_ext _ _ 0 0).
    { rewrite read_length, !path_len, !crows_len. auto. }
    intros i Hi. rewrite path_len, crows_len in Hi. rewrite read_nth by (rewrite path_len, crows_len; auto).
    rewrite !crows_path_nth by (auto; apply Nat.mod_upper_bound; lia). unfold f. rewrite turned_P by auto. unfold turned. apply hunt_P; auto.
  - intros x Hx. apply turned_sharp; auto.
  - intros i r1 r2 r1' r2' Hi C C'. apply crows_change in C as (Hi1 & -> & ->); auto. apply crows_change in C' as (_ & -> & ->); auto.
    rewrite !internal_tr by auto. unfold tr', turned. rewrite (tr_mod s n tr Hs Hn Ptr (i + c)). reflexivity.
  - rewrite crs_hd by auto. apply rounds_identity.
  - rewrite crs_hd by auto. apply rounds_identity.
Qed.
End Turned.

(** ** Backwards *)

Section Mirrored.
Context (s n : nat) (tr : nat -> row).
Hypothesis Hs : 0 < s.
Hypothesis Hn : 0 < n.
Hypothesis Vtr : forall t, vrow s (tr t).
Hypothesis Itr : forall t, rmul (tr t) (tr t) = row_rounds s.
Hypothesis Ptr : forall t, tr (t + n) = tr t.

Let tr' (t : nat) : row := tr (n - 1 - t mod n).
Let Vtr' t : vrow s (tr' t).
Proof. apply Vtr. Qed.
Let Ptr' t : tr' (t + n) = tr' t.
Proof. unfold tr'. replace (t + n) with (t + 1 * n) by lia. rewrite Nat.mod_add by lia. auto. Qed.

Lemma mirrored_crs K : rpow (crs s tr n) K = row_rounds s -> forall t, t <= K * n -> crs s tr' t = crs s tr (K * n - t).
Proof.
  intros HK. assert (Z : crs s tr (K * n) = row_rounds s).
  { pose proof (crs_add s n tr Hs Hn Vtr Ptr 0 K) as E. cbn [Nat.add crs] in E. rewrite E, HK. apply (rmul_rounds_l_vrow s), valid_rounds; auto. }
  induction t as [|t IH]; intros Ht.
  - rewrite Nat.sub_0_r, Z. reflexivity.
  - cbn [crs]. rewrite IH by lia. replace (K * n - t) with (S (K * n - S t)) by lia. cbn [crs].
    assert (E : tr' t = tr (K * n - S t)).
    { unfold tr'. rewrite (tr_mod s n tr Hs Hn Ptr (K * n - S t)). f_equal.
      pose proof (Nat.div_mod t n ltac:(lia)) as D. pose proof (Nat.mod_upper_bound t n ltac:(lia)) as B. set (q := t / n) in *. set (u := t mod n) in *.
      assert (q < K) by nia. replace (K * n - S t) with (n - 1 - u + (K - 1 - q) * n) by nia. rewrite Nat.mod_add by lia. symmetry. apply Nat.mod_small. lia. }
    rewrite E. rewrite (rmul_assoc_vrow s) by auto. rewrite Itr. apply rmul_rounds_r. apply crs_v; auto.
Qed.

Lemma mirrored_P K x t : rpow (crs s tr n) K = row_rounds s -> t <= K * n -> P s tr' x t = P s tr x (K * n - t).
Proof. intros HK Ht. unfold P. rewrite (mirrored_crs K); auto. Qed.

Lemma mirrored_it K x k : rpow (crs s tr n) K = row_rounds s -> x < s -> k <= K -> it (crs s tr' n) x k = it (crs s tr n) x (K - k).
Proof.
  intros HK Hx Hk. rewrite !it_P by auto. rewrite (mirrored_P K); auto; [|nia]. f_equal. nia.
Qed.

Lemma it_whole K x : rpow (crs s tr n) K = row_rounds s -> x < s -> it (crs s tr n) x K = x.
Proof. intros HK Hx. rewrite it_P by auto. replace (K * n) with (0 + K * n) by lia. rewrite P_period by auto. apply place_in_rounds; auto. Qed.

Lemma mirrored_back K x k : rpow (crs s tr n) K = row_rounds s -> x < s -> k <= K ->
  (it (crs s tr' n) x k = x <-> it (crs s tr n) x k = x).
Proof.
  intros HK Hx Hk. rewrite (mirrored_it K) by auto. pose proof (it_whole K x HK Hx) as W.
  assert (V := crs_v s tr Hs Vtr n). split; intros E.
  - rewrite <- E at 1. rewrite <- it_add. replace (k + (K - k)) with K by lia. auto.
  - rewrite <- E at 1. rewrite <- it_add. replace (K - k + k) with K by lia. auto.
Qed.

Lemma mirrored_returns x k : x < s -> (returns_after (crs s tr n) x k <-> returns_after (crs s tr' n) x k).
Proof.
  intros Hx. pose proof (crs_v s tr Hs Vtr n) as V. pose proof (crs_v s tr' Hs Vtr' n) as V'.
  destruct (finite_order s (crs s tr n) V) as (K0 & HK0 & EK0).
  assert (EK : rpow (crs s tr n) (K0 * S k) = row_rounds s) by (apply rpow_mul_rounds; auto). set (K := K0 * S k) in *.
  assert (Lk : k <= K) by (unfold K; nia).
  rewrite !(returns_after_order s) by auto. unfold order.
  assert (E : forall j, j <= k -> (it (crs s tr' n) x j = x <-> it (crs s tr n) x j = x)) by (intros j Hj; apply (mirrored_back K); auto; lia).
  rewrite E by auto. split; intros (H1 & H2 & H3); splits; auto; intros j Hj Q; apply (H3 j Hj), E; auto; lia.
Qed.

Lemma mirrored_sharp x : x < s -> (turns_sharply (crows s n tr) (crs s tr n) x <-> turns_sharply (crows s n tr') (crs s tr' n) x).
Proof.
  intros Hx. pose proof (crs_v s tr Hs Vtr n) as V. rewrite !sharp_P by auto.
  destruct (finite_order s (crs s tr n) V) as (K0 & HK0 & EK0). split; intros (t & H1 & H2);
  assert (EK : rpow (crs s tr n) (K0 * (t + 2)) = row_rounds s) by (apply rpow_mul_rounds; auto); set (K := K0 * (t + 2)) in *;
  assert (Lk : t + 2 <= K) by (unfold K; nia); assert (LK : t + 2 <= K * n) by nia.
  - exists (K * n - (t + 2)). rewrite !(mirrored_P K) by (auto; lia).
    replace (K * n - (K * n - (t + 2))) with (t + 2) by lia. replace (K * n - (K * n - (t + 2) + 2)) with t by lia.
    replace (K * n - (K * n - (t + 2) + 1)) with (t + 1) by lia. rewrite <- H1. auto.
  - rewrite !(mirrored_P K) in H1, H2 by (auto; lia). exists (K * n - (t + 2)).
    replace (K * n - (t + 2) + 2) with (K * n - t) by lia. replace (K * n - (t + 2) + 1) with (K * n - (t + 1)) by lia. rewrite <- H1. auto.
Qed.

Lemma mirrored_classify {A B} (b : block A) (b' : block B) ars ars' o o' :
  block_holds b s ars (crs s tr n) -> block_holds b' s ars' (crs s tr' n) -> map fst ars = crows s n tr -> map fst ars' = crows s n tr' ->
  (forall i r1 r2, change_at (crows s n tr) (crs s tr n) i r1 r2 -> no_jump r1 r2) ->
  (forall i r1 r2, change_at (crows s n tr') (crs s tr' n) i r1 r2 -> no_jump r1 r2) ->
  (forall l, collected_set l (o l)) -> (forall l, collected_set l (o' l)) ->
  exists fc, classify o b = Ret fc /\ classify o' b' = Ret fc.
Proof.
  intros Hb Hb' E E' J J' Ho Ho'.
  apply (t_classify s n (crows s n tr) (crows s n tr') (crs s tr n) (crs s tr' n) (fun x => x) (fun x => x) (mirrored n 0) (fun i => n - 1 - i)
    (fun i => n - 1 - i)) with (ars := ars) (ars' := ars'); auto.
  - apply crs_v; auto.
  - apply crs_v; auto.
  - apply crows_len.
  - apply crows_len.
  - exists 0. split; auto.
  - intros i Hi. lia.
  - intros i Hi. right. unfold mirrored. split.
    + destruct (mod_cases (i + 1) n Hn ltac:(lia)) as [[? ->]|[? ->]].
      * rewrite Nat.mod_small; lia.
      * replace (i + 1 - n) with 0 by lia. replace (0 + n - 0) with (0 + 1 * n) by lia. rewrite Nat.mod_add, Nat.mod_0_l by lia. lia.
    + f_equal. lia.
  - intros x k Hx. apply mirrored_returns; auto.
  - intros x Hx Hh. apply (nth_ext _ _ 0 0).
    { rewrite read_length, !path_len, !crows_len. auto. }
    intros i Hi. rewrite path_len, crows_len in Hi. rewrite read_nth by (rewrite path_len, crows_len; auto).
    rewrite !crows_path_nth by (auto; apply Nat.mod_upper_bound; lia).
    pose proof (crs_v s tr Hs Vtr n) as V. destruct (finite_order s (crs s tr n) V) as (K & HK & EK).
    rewrite (mirrored_P K); auto; [|nia]. rewrite (hunt_P s n tr Hs Hn Vtr Ptr x (K * n - i)) by auto. f_equal. unfold mirrored.
    replace (K * n - i) with (0 + n - i + (K - 1) * n) by nia. rewrite Nat.mod_add; lia.
  - intros x Hx. apply mirrored_sharp; auto.
  - intros i r1 r2 r1' r2' Hi C C'. apply crows_change in C as (Hi1 & -> & ->); auto. apply crows_change in C' as (_ & -> & ->); auto.
    rewrite !internal_tr by auto. unfold tr'. rewrite (Nat.mod_small i) by auto. reflexivity.
  - rewrite crs_hd by auto. apply rounds_identity.
  - rewrite crs_hd by auto. apply rounds_identity.
Qed.
End Mirrored.

(** ** Leads of changes *)

Definition trof (s : nat) (pns : list place_not) (t : nat) : row :=
  match nth_error pns (t mod length pns) with
  | Some pn => match pn_transposition pn with Ret r => r | _ => row_rounds s end
  | None => row_rounds s
  end.

Section Lead.
Context (s : nat) (pns : list place_not).
Hypothesis Hs : 0 < s.
Hypothesis N : pns <> [].
Hypothesis F : Forall (fun pn => legal pn /\ pn_stage pn = s) pns.

Lemma trof_ok t : exists pn, nth_error pns (t mod length pns) = Some pn /\ rings (pn_places pn) 0 (row_rounds s) (trof s pns t).
Proof.
  assert (L : 0 < length pns) by (destruct pns; [congruence|cbn; lia]).
  unfold trof. destruct (nth_error pns (t mod length pns)) as [pn|] eqn:E.
  2:{ apply nth_error_None in E. pose proof (Nat.mod_upper_bound t (length pns) ltac:(lia)). lia. }
  exists pn. split; auto. rewrite Forall_forall in F. destruct (F pn) as [Lg Sn]; [eapply nth_error_In; eauto|].
  destruct (pn_transposition_ok pn Lg) as (r & -> & _ & R). rewrite Sn in R. auto.
Qed.

Lemma trof_v t : vrow s (trof s pns t).
Proof. destruct (trof_ok t) as (pn & _ & R). eapply rings_vrow; [|exact R]. apply valid_rounds; auto. Qed.

Lemma trof_inv t : rmul (trof s pns t) (trof s pns t) = row_rounds s.
Proof. destruct (trof_ok t) as (pn & _ & R). eapply rings_involution; eauto. Qed.

Lemma trof_period t : trof s pns (t + length pns) = trof s pns t.
Proof.
  unfold trof. replace (t + length pns) with (t + 1 * length pns) by lia. rewrite Nat.mod_add; auto.
  destruct pns; [congruence|discriminate].
Qed.

Lemma rung_crs : rung (row_rounds s) pns (map (crs s (trof s pns)) (seq 1 (length pns))) (crs s (trof s pns) (length pns)).
Proof.
  set (C := crs s (trof s pns)). set (n := length pns).
  assert (L : 0 < n) by (unfold n; destruct pns; [congruence|cbn; lia]).
  assert (E : row_rounds s :: map C (seq 1 n) = map C (seq 0 (S n))) by reflexivity.
  assert (El : last (map C (seq 1 n)) (row_rounds s) = C n).
  { replace n with (S (n - 1)) by lia. rewrite seq_S, map_app. cbn [map]. rewrite last_last. f_equal. }
  rewrite <- El. apply rung_intro; [rewrite map_length, seq_length; auto|].
  intros i a b Ha Hb. rewrite E in Ha, Hb.
  assert (Hi : i + 1 < S n).
  { assert (i + 1 < length (map C (seq 0 (S n)))) by (apply nth_error_Some; congruence). rewrite map_length, seq_length in *. auto. }
  rewrite nth_error_map, (nth_error_nth' _ 0), seq_nth in Ha by (rewrite ?seq_length; lia).
  rewrite nth_error_map, (nth_error_nth' _ 0), seq_nth in Hb by (rewrite ?seq_length; lia). cbn [option_map Nat.add] in Ha, Hb.
  injection Ha as <-. injection Hb as <-. destruct (trof_ok i) as (pn & En & R). rewrite Nat.mod_small in En by (fold n; lia).
  exists pn. split; auto. replace (i + 1) with (S i) by lia. unfold C. cbn [crs]. apply (rings_rmul s); auto.
  apply crs_v; auto. apply trof_v.
Qed.

Lemma lead_crs {A} (d : A) : exists b ars, pn_block_to_block_from_rounds d pns = Ret b /\
  block_holds b s ars (crs s (trof s pns) (length pns)) /\ map fst ars = crows s (length pns) (trof s pns) /\
  forall i r1 r2, change_at (crows s (length pns) (trof s pns)) (crs s (trof s pns) (length pns)) i r1 r2 -> no_jump r1 r2.
Proof.
  destruct (rblk_rounds d s pns Hs N F) as (x & b & E & (rs & V & R & B)).
  pose proof rung_crs as R'. destruct (rung_fun _ _ _ _ _ _ R R') as [-> ->].
  set (C := crs s (trof s pns)) in *. set (n := length pns) in *.
  assert (L : 0 < n) by (unfold n; destruct pns; [congruence|cbn; lia]).
  assert (Ec : removelast (row_rounds s :: map C (seq 1 n)) = crows s n (trof s pns)).
  { change (row_rounds s :: map C (seq 1 n)) with (map C (seq 0 (S n))). rewrite seq_S, map_app. cbn [map].
    rewrite removelast_app by discriminate. cbn [removelast]. rewrite app_nil_r. reflexivity. }
  exists b, (map (fun r => (r, d)) (removelast (row_rounds s :: map C (seq 1 n)))). split; auto. split; [apply brep_holds; auto|].
  split; [rewrite map_map, map_id; auto|].
  intros i r1 r2 [H1 H2]. unfold crows in H1, H2.
  assert (Ea : map (crs s (trof s pns)) (seq 0 n) ++ [C n] = row_rounds s :: map C (seq 1 n)).
  { change (row_rounds s :: map C (seq 1 n)) with (map C (seq 0 (S n))). rewrite seq_S, map_app. reflexivity. }
  rewrite Ea in H1, H2. destruct V as [V1 V2].
  exact (rung_no_jump s _ _ _ _ F V1 V2 R i r1 r2 H1 H2).
Qed.
End Lead.

Lemma crows_ext s n tr tr' : (forall u, tr u = tr' u) -> crows s n tr = crows s n tr'.
Proof. intros H. unfold crows. apply map_ext. intros t. apply crs_ext. auto. Qed.

Lemma nth_error_rotated {X} (l : list X) c t : c < length l -> nth_error (skipn c l ++ firstn c l) (t mod length l) = nth_error l ((t + c) mod length l).
Proof.
  intros Hc. set (n := length l) in *. assert (Hn : 0 < n) by lia. pose proof (Nat.mod_upper_bound t n ltac:(lia)) as B.
  rewrite <- (Nat.add_mod_idemp_l t) by lia. set (u := t mod n) in *. rewrite <- (firstn_skipn c l) at 3.
  assert (L1 : length (firstn c l) = c) by (rewrite firstn_length; fold n; lia).
  assert (L2 : length (skipn c l) = n - c) by (rewrite skipn_length; auto).
  destruct (mod_cases (u + c) n Hn ltac:(lia)) as [[? ->]|[? ->]].
  - rewrite nth_error_app1 by lia. rewrite nth_error_app2 by lia. f_equal. lia.
  - rewrite nth_error_app2 by lia. rewrite nth_error_app1 by lia. f_equal. lia.
Qed.

Lemma nth_error_reversed {X} (l : list X) i : i < length l -> nth_error (rev l) i = nth_error l (length l - 1 - i).
Proof.
  intros H. destruct l as [|x l]; [cbn in H; lia|]. set (m := x :: l) in *.
  rewrite (nth_error_nth' (rev m) x) by (rewrite rev_length; auto). rewrite rev_nth by auto.
  rewrite (nth_error_nth' m x) by lia. do 2 f_equal. lia.
Qed.

Lemma trof_rotated s pns c t : c < length pns -> trof s (skipn c pns ++ firstn c pns) t = trof s pns (t + c).
Proof.
  intros H. unfold trof. assert (E : length (skipn c pns ++ firstn c pns) = length pns) by (rewrite app_length, skipn_length, firstn_length; lia).
  rewrite E, nth_error_rotated; auto.
Qed.

Lemma trof_reversed s pns t : pns <> [] -> trof s (rev pns) t = trof s pns (length pns - 1 - t mod length pns).
Proof.
  intros N. assert (0 < length pns) by (destruct pns; [congruence|cbn; lia]). unfold trof. rewrite rev_length.
  pose proof (Nat.mod_upper_bound t (length pns) ltac:(lia)). rewrite nth_error_reversed by auto.
  rewrite (Nat.mod_small (length pns - 1 - t mod length pns)) by lia. reflexivity.
Qed.
