(** Grandsire. *)
From Coq Require Import Permutation.
From Verif Require Import Base Spec SpecBlock Class SpecClass SpecVec SpecPn SpecSym SpecHunt SpecGrandsire ListFacts Row RowFacts MulFacts GroupFacts SameStageVec Block SsvFacts BlockFacts
  PlaceNot PnFacts PnFacts2 PnFacts3 LawFacts ClassFacts ClassFacts2 ClassFacts3 TouchFacts SymFacts SymFacts2 SymFacts3 ShapeFacts HuntFacts BobFacts.
Local Open Scope list_scope.

Definition gs_first (n : nat) : place_not := PlaceNot (if Nat.even n then [2; n - 1] else [2]) n.

Lemma gs_length n : 0 < n -> length (grandsire n) = 2 * n.
Proof.
  intros H. unfold grandsire, hunting. cbn [length]. pose proof (repeat2_len (nth 0 (hunting n) (gs_first n)) (nth 1 (hunting n) (gs_first n)) n) as L. unfold hunting in L. cbn [nth] in L.
  destruct (concat _) as [|x l]; cbn [length tl] in *; lia.
Qed.

Lemma gs_nonempty n : grandsire n <> [].
Proof. discriminate. Qed.

Lemma gs_first_legal n : 3 <= n -> legal (gs_first n).
Proof.
  intros H. split; [cbn; lia|]. cbn [gs_first pn_stage pn_places]. destruct (parts_of n) as [[-> [m E]]|[-> [m E]]]; (apply lf_swap; [lia|]; apply lf_place; [lia|]).
  - apply (legal_pairs_one n (m - 2)). lia.
  - apply (legal_pairs n (m - 1)). lia.
Qed.

Lemma gs_legal n : 3 <= n -> Forall (fun pn => legal pn /\ pn_stage pn = n) (grandsire n).
Proof.
  intros H. apply Forall_cons; [split; auto; apply gs_first_legal; auto|].
  apply Forall_forall. intros pn I. assert (J : In pn (concat (repeat (hunting n) n))) by (destruct (concat (repeat (hunting n) n)); [destruct I|right; auto]).
  apply in_concat in J as (l & J & K). apply repeat_spec in J. subst l. pose proof (hunting_legal n ltac:(lia)) as F. rewrite Forall_forall in F. auto.
Qed.

Definition gs_from (n p : nat) : nat :=
  if p =? 0 then 1 else if p =? 1 then 0 else if p =? 2 then 2 else if Nat.even p then p - 1 else if p + 1 <? n then p + 1 else p.

Lemma even32 j : Nat.even (3 + 2 * j) = false. Proof. replace (3 + 2 * j) with (2 * (j + 1) + 1) by lia. apply even21. Qed.
Lemma even321 j : Nat.even (3 + 2 * j + 1) = true. Proof. replace (3 + 2 * j + 1) with (2 * (j + 2)) by lia. apply even2. Qed.

Lemma gs_first_rings n : 3 <= n -> rings (pn_places (gs_first n)) 0 (seq 0 n) (map (gs_from n) (seq 0 n)).
Proof.
  intros H. cbn [gs_first pn_places]. destruct n as [|[|[|k]]]; try lia. set (n := S (S (S k))) in *. cbn [seq map].
  assert (R : rings (if Nat.even n then [2; n - 1] else [2]) 3 (seq 3 k) (map (gs_from n) (seq 3 k))).
  { destruct (parts_of n) as [[-> [m E]]|[-> [m E]]].
    - pose proof (rings_swaps [2; n - 1] n (m - 2) 3 1) as R. rewrite (pairs_map (gs_from n)) in R.
      + replace (2 * (m - 2) + 1) with k in R by lia.
        replace (map (gs_from n) (seq 3 (2 * (m - 2))) ++ seq (3 + 2 * (m - 2)) 1) with (map (gs_from n) (seq 3 k)) in R.
        * apply R; cbn [In]; intros; lia.
        * replace k with (2 * (m - 2) + 1) by lia. rewrite seq_app, map_app. f_equal. cbn [seq map]. f_equal. unfold gs_from. rewrite even32. bools.
      + intros j Hj. unfold gs_from. rewrite even32, even321. bools.
    - pose proof (rings_swaps [2] n (m - 1) 3 0) as R. rewrite (pairs_map (gs_from n)) in R.
      + cbn [seq] in R. rewrite app_nil_r in R. replace (2 * (m - 1) + 0) with k in R by lia. replace (2 * (m - 1)) with k in R by lia. apply R; cbn [In]; intros; lia.
      + intros j Hj. unfold gs_from. rewrite even32, even321. bools. }
  change (gs_from n 0) with 1. change (gs_from n 1) with 0. change (gs_from n 2) with 2.
  assert (A : forall p, p < 2 -> ~ In p (if Nat.even n then [2; n - 1] else [2])) by (intros p Hp; destruct (Nat.even n); cbn [In]; lia).
  apply rings_swap; [apply A; lia|apply A; lia|]. apply rings_place; [destruct (Nat.even n); left; auto|]. exact R.
Qed.

Lemma gs_at n t : 3 <= n -> 0 < t < 2 * n -> nth_error (grandsire n) t = Some (if Nat.even t then nth 0 (hunting n) (gs_first n) else nth 1 (hunting n) (gs_first n)).
Proof.
  intros H Ht. unfold grandsire. destruct t as [|t]; [lia|]. cbn [nth_error].
  pose proof (repeat2_nth (nth 0 (hunting n) (gs_first n)) (nth 1 (hunting n) (gs_first n)) n (S t) ltac:(lia)) as R. rewrite <- R. unfold hunting. cbn [nth].
  destruct (concat _) as [|x l]; cbn [tl nth_error]; auto. destruct t; auto.
Qed.

Lemma trof_gs n t : 3 <= n -> 0 < t < 2 * n -> trof n (grandsire n) t = trof n (hunting n) t.
Proof.
  intros H Ht. unfold trof. rewrite gs_length, Nat.mod_small by lia. rewrite gs_at by lia.
  change (length (hunting n)) with 2. destruct (parts_of t) as [[-> [m Em]]|[-> [m Em]]].
  - replace (t mod 2) with 0 by (rewrite Em, Nat.mul_comm, Nat.mod_mul; lia). reflexivity.
  - replace (t mod 2) with 1 by (rewrite Em, Nat.add_comm, Nat.mul_comm, Nat.mod_add; [reflexivity|lia]). reflexivity.
Qed.

Lemma trof_gs_first n : 3 <= n -> trof n (grandsire n) 0 = map (gs_from n) (seq 0 n).
Proof.
  intros H. destruct (trof_ok n (grandsire n) ltac:(lia) (gs_nonempty n) (gs_legal n H) 0) as (pn & E & R). rewrite rounds_seq in R.
  rewrite gs_length, Nat.mod_small in E by lia. injection E as <-. apply (rings_fun _ _ _ _ _ R). apply gs_first_rings; auto.
Qed.

Definition grow (n t : nat) : row := crs n (trof n (grandsire n)) t.
Definition gs_head (n : nat) : row := grow n (2 * n).

Lemma gs_trof_v n t : 3 <= n -> vrow n (trof n (grandsire n) t).
Proof. intros H. apply trof_v; auto using gs_legal, gs_nonempty. lia. Qed.

Lemma grow_v n t : 3 <= n -> vrow n (grow n t).
Proof. intros H. apply crs_v; [lia|]. intros. apply gs_trof_v. auto. Qed.

Definition gs_turn (n : nat) : row := rmul (trof n (grandsire n) 0) (trof n (hunting n) 0).

Lemma gs_turn_v n : 3 <= n -> vrow n (gs_turn n).
Proof. intros H. apply valid_rmul; [apply gs_trof_v; auto|]. apply trof_v; auto using hunting_legal, hunting_nonempty; try lia. apply hunting_legal. lia. Qed.

Lemma grow_hrow n t : 3 <= n -> t < 2 * n -> grow n (S t) = rmul (gs_turn n) (hrow n (S t)).
Proof.
  intros H. assert (Hn : 0 < n) by lia. pose proof (gs_turn_v n H) as V. assert (Vh : forall i, vrow n (trof n (hunting n) i)) by (intros; apply trof_v; auto using hunting_legal, hunting_nonempty).
  induction t as [|t IH]; intros Ht.
  - unfold grow, hrow. cbn [crs]. rewrite !rmul_rounds_l_vrow by auto using gs_trof_v. unfold gs_turn. rewrite (rmul_assoc_vrow n) by auto using gs_trof_v.
    rewrite (trof_inv n (hunting n)) by auto using hunting_legal, hunting_nonempty. symmetry. apply rmul_rounds_r. apply gs_trof_v. auto.
  - unfold grow, hrow in *. cbn [crs] in *. rewrite IH by lia. rewrite trof_gs by lia. rewrite (rmul_assoc_vrow n); auto. apply (hrow_v n (S t) Hn).
Qed.

Lemma hrow_full n : 0 < n -> hrow n (2 * n) = row_rounds n.
Proof. intros H. rewrite <- hrow_period, Nat.mod_same by lia. reflexivity. Qed.

Lemma gs_head_turn n : 3 <= n -> gs_head n = gs_turn n.
Proof.
  intros H. unfold gs_head. pose proof (grow_hrow n (2 * n - 1) H ltac:(lia)) as E. replace (S (2 * n - 1)) with (2 * n) in E by lia. rewrite E, hrow_full by lia. apply rmul_rounds_r. apply gs_turn_v. auto.
Qed.

Lemma gs_head_v n : 3 <= n -> vrow n (gs_head n).
Proof. intros H. apply grow_v. auto. Qed.

Lemma first_from_lt n p : p < n -> first_from n p < n.
Proof. intros H. unfold first_from. destruct (Nat.even p); bools. Qed.

Lemma gs_head_nth n p : 3 <= n -> p < n -> nth p (gs_head n) 0 = gs_from n (first_from n p).
Proof.
  intros H Hp. assert (Hn : 0 < n) by lia. rewrite gs_head_turn by auto. unfold gs_turn. rewrite trof_gs_first, trof_hunting by auto. cbn [Nat.even].
  rewrite nth_rmul by (rewrite map_length, seq_length; auto). rewrite (nth_indep (map (first_from n) (seq 0 n)) 0 (first_from n 0)) by (rewrite map_length, seq_length; auto).
  rewrite (map_nth (first_from n)), seq_nth by auto. cbn [Nat.add].
  rewrite (nth_indep _ 0 (gs_from n 0)) by (rewrite map_length, seq_length; apply first_from_lt; auto). rewrite map_nth, seq_nth by (apply first_from_lt; auto). reflexivity.
Qed.

(** The working bells stand in a circle: 3, 5, 7, ... and back by ..., 6, 4. *)
Definition gs_bell (n c : nat) : nat := if 2 * c + 2 <? n then 2 * (c + 1) else 2 * (n - 2 - c) + 1.

Lemma gs_bell_lt n c : 3 <= n -> c < n - 2 -> 1 < gs_bell n c < n.
Proof. intros H Hc. unfold gs_bell. bools. Qed.

Lemma gs_bell_inj n c d : 3 <= n -> c < n - 2 -> d < n - 2 -> gs_bell n c = gs_bell n d -> c = d.
Proof. intros H Hc Hd. unfold gs_bell. bools. Qed.

Lemma gs_bell_ex n b : 1 < b < n -> exists c, c < n - 2 /\ gs_bell n c = b.
Proof.
  intros H. destruct (parts_of b) as [[_ [m E]]|[_ [m E]]].
  - exists (m - 1). split; [lia|]. unfold gs_bell. bools.
  - exists (n - 2 - m). split; [lia|]. unfold gs_bell. bools.
Qed.

Lemma gs_head_01 n p : 3 <= n -> p < 2 -> nth p (gs_head n) 0 = p.
Proof.
  intros H Hp. rewrite gs_head_nth by lia. destruct p as [|[|p]]; try lia.
  - unfold first_from. cbn [Nat.even Nat.add]. bools. reflexivity.
  - unfold first_from. cbn [Nat.even Nat.sub]. reflexivity.
Qed.

Lemma gs_head_step n c : 3 <= n -> c < n - 2 -> nth (gs_bell n c) (gs_head n) 0 = gs_bell n ((c + 1) mod (n - 2)).
Proof.
  intros H Hc. pose proof (gs_bell_lt n c H Hc) as L. rewrite gs_head_nth by lia. rewrite mod_next by auto. unfold gs_bell at 1.
  destruct (Nat.ltb_spec (2 * c + 2) n) as [A|A].
  - unfold first_from. rewrite even2. destruct (Nat.ltb_spec (2 * (c + 1) + 1) n) as [B|B].
    + unfold gs_from. rewrite even21. destruct (Nat.eqb_spec (c + 1) (n - 2)); unfold gs_bell; bools.
    + unfold gs_from. rewrite even2. destruct (Nat.eqb_spec (c + 1) (n - 2)); unfold gs_bell; bools.
  - unfold first_from. rewrite even21. replace (2 * (n - 2 - c) + 1 - 1) with (2 * (n - 2 - c)) by lia. unfold gs_from. rewrite even2.
    destruct (Nat.eqb_spec (c + 1) (n - 2)); unfold gs_bell; bools.
Qed.

Lemma gs_pow n j c : 3 <= n -> c < n - 2 -> nth (gs_bell n c) (rpow (gs_head n) j) 0 = gs_bell n ((c + j) mod (n - 2)).
Proof.
  intros H Hc. pose proof (gs_head_v n H) as [V L]. revert c Hc. induction j as [|j IH]; intros c Hc; pose proof (gs_bell_lt n c H Hc) as Lt; cbn [rpow].
  - rewrite L, rounds_seq, seq_nth by lia. rewrite Nat.add_0_r, Nat.mod_small by auto. reflexivity.
  - rewrite nth_rmul by lia. rewrite gs_head_step by auto. rewrite IH by (apply Nat.mod_upper_bound; lia). rewrite Nat.add_mod_idemp_l by lia. f_equal. f_equal. lia.
Qed.

Lemma gs_pow_01 n j p : 3 <= n -> p < 2 -> nth p (rpow (gs_head n) j) 0 = p.
Proof.
  intros H Hp. pose proof (gs_head_v n H) as [V L]. induction j as [|j IH]; cbn [rpow]; [rewrite L, rounds_seq, seq_nth by lia; auto|].
  rewrite nth_rmul by lia. rewrite gs_head_01 by auto. auto.
Qed.

Lemma gs_home n j c : 3 <= n -> c < n - 2 -> (nth (gs_bell n c) (rpow (gs_head n) j) 0 = gs_bell n c <-> j mod (n - 2) = 0).
Proof.
  intros H Hc. rewrite gs_pow by auto. split.
  - intros E. apply gs_bell_inj in E; auto; [|apply Nat.mod_upper_bound; lia]. rewrite <- (Nat.mod_small c (n - 2)) in E at 2 by auto.
    symmetry in E. destruct (mod_eq_sub c (c + j) (n - 2) ltac:(lia) ltac:(lia) E) as [k Ek]. replace j with (k * (n - 2)) by lia. apply Nat.mod_mul. lia.
  - intros E. f_equal. apply Nat.mod_divides in E; [|lia]. destruct E as [k ->]. rewrite Nat.mul_comm, Nat.mod_add by lia. apply Nat.mod_small. auto.
Qed.

Lemma gs_period n : 3 <= n -> forall t, trof n (grandsire n) (t + 2 * n) = trof n (grandsire n) t.
Proof. intros H t. pose proof (trof_period n (grandsire n) ltac:(lia) (gs_nonempty n) (gs_legal n H) t) as Q. rewrite gs_length in Q by lia. exact Q. Qed.

Lemma gs_ends n : 3 <= n -> ends_after n (2 * n) (trof n (grandsire n)) (n - 2).
Proof.
  intros H. pose proof (gs_head_v n H) as V. assert (Hn : 0 < n) by lia.
  assert (Pow : forall j, crs n (trof n (grandsire n)) (j * (2 * n)) = rpow (gs_head n) j) by (intros j; apply (crs_pow n (2 * n)); auto using gs_trof_v, gs_period; lia).
  assert (Vp : forall j, vrow n (rpow (gs_head n) j)) by (intros; apply vrow_rpow; auto).
  split; [lia|]. split.
  - rewrite Pow. pose proof (Vp (n - 2)) as [_ L]. apply (nth_ext _ _ 0 0); [rewrite length_rounds; auto|]. intros b Hb. rewrite L in Hb. rewrite rounds_seq, seq_nth by auto. cbn [Nat.add].
    destruct (Nat.lt_ge_cases b 2) as [N|N]; [apply gs_pow_01; auto|]. destruct (gs_bell_ex n b ltac:(lia)) as (c & Hc & <-). apply gs_home; auto. apply Nat.mod_same. lia.
  - intros j Hj E. rewrite Pow in E. pose proof (proj1 (gs_home n j 0 H ltac:(lia))) as Q. rewrite E, rounds_seq, seq_nth in Q by (pose proof (gs_bell_lt n 0 H ltac:(lia)); lia).
    specialize (Q eq_refl). rewrite Nat.mod_small in Q; lia.
Qed.

Lemma grow_split n : 3 <= n -> forall a, grow n a = rmul (rpow (gs_head n) (a / (2 * n))) (grow n (a mod (2 * n))).
Proof.
  intros H a. unfold gs_head, grow. rewrite <- (crs_add n (2 * n)) by (auto using gs_trof_v, gs_period; lia). f_equal.
  rewrite (Nat.div_mod a (2 * n)) at 1 by lia. lia.
Qed.

(** The treble and the 2 hunt. *)
Lemma gs_hunts n p a : 3 <= n -> p < 2 -> nth_error (grow n a) (hunting_place n p a) = Some p.
Proof.
  intros H Hp. pose proof (hunting_place_lt n p a ltac:(lia)) as Lt. rewrite (nth_error_nth' _ 0) by (rewrite (proj2 (grow_v n a H)); auto). f_equal.
  rewrite grow_split by auto. pose proof (grow_v n (a mod (2 * n)) H) as [_ L]. rewrite nth_rmul by lia.
  assert (M : a mod (2 * n) < 2 * n) by (apply Nat.mod_upper_bound; lia). rewrite <- place_period in * by lia. set (t := a mod (2 * n)) in *.
  assert (E : nth (hunting_place n p t) (grow n t) 0 = p).
  { destruct t as [|t]; [change (grow n 0) with (hrow n 0); apply hrow_nth; lia|]. rewrite grow_hrow by lia. rewrite nth_rmul by (rewrite (proj2 (hrow_v n (S t) ltac:(lia))); auto).
    rewrite hrow_nth by lia. rewrite <- gs_head_turn by auto. apply gs_head_01; auto. }
  rewrite E. apply gs_pow_01; auto.
Qed.

Lemma gs_same n a b : 3 <= n -> grow n a = grow n b -> a mod (2 * n) = b mod (2 * n).
Proof.
  intros H E. assert (P : forall p, p < 2 -> hunting_place n p a = hunting_place n p b).
  { intros p Hp. pose proof (gs_hunts n p a H Hp) as A. pose proof (gs_hunts n p b H Hp) as B. rewrite E in A. destruct (grow_v n b H) as [(_ & N & _) _].
    apply (proj1 (NoDup_nth_error _) N); [apply nth_error_Some; congruence|congruence]. }
  pose proof (same_place n 0 a b ltac:(lia) (P 0 ltac:(lia))) as A. pose proof (same_place n 1 a b ltac:(lia) (P 1 ltac:(lia))) as B. unfold start_of in A, B. cbn [Nat.even Nat.add] in A, B.
  destruct A as [A|A]; auto.
  rewrite <- (Nat.add_mod_idemp_r _ a), <- (Nat.add_mod_idemp_r _ b) in B by lia.
  pose proof (Nat.mod_upper_bound a (2 * n) ltac:(lia)) as Ma. pose proof (Nat.mod_upper_bound b (2 * n) ltac:(lia)) as Mb. set (t := a mod (2 * n)) in *. set (u := b mod (2 * n)) in *.
  assert (C : forall x, x < 2 * n -> (2 * n - 1 - 1 + x) mod (2 * n) = if x <? 2 then 2 * n - 2 + x else x - 2).
  { intros x Hx. destruct (Nat.ltb_spec x 2); [rewrite Nat.mod_small; lia|]. replace (2 * n - 1 - 1 + x) with (x - 2 + 1 * (2 * n)) by lia. rewrite Nat.mod_add, Nat.mod_small; lia. }
  rewrite !C in B by auto. destruct (Nat.ltb_spec t 2); destruct (Nat.ltb_spec u 2); lia.
Qed.

Lemma gs_inj n : 3 <= n -> forall a b, a < (n - 2) * (2 * n) -> b < (n - 2) * (2 * n) -> grow n a = grow n b -> a = b.
Proof.
  intros H. pose proof (gs_head_v n H) as V.
  assert (Le : forall a b, a < (n - 2) * (2 * n) -> b < (n - 2) * (2 * n) -> a / (2 * n) <= b / (2 * n) -> grow n a = grow n b -> a = b).
  { intros a b Ha Hb L E. pose proof (gs_same n a b H E) as M. rewrite (grow_split n H a), (grow_split n H b), <- M in E. set (k := a / (2 * n)) in *. set (j := b / (2 * n)) in *.
    assert (Vp : forall i, vrow n (rpow (gs_head n) i)) by (intros; apply vrow_rpow; auto).
    apply (rmul_cancel_r n) in E; auto using grow_v.
    assert (R : rpow (gs_head n) (j - k) = row_rounds n).
    { apply (rmul_cancel_l n (rpow (gs_head n) k)); auto; [apply valid_rounds; lia|]. rewrite <- (rpow_add n) by auto. replace (k + (j - k)) with j by lia. rewrite rmul_rounds_r by apply Vp. auto. }
    assert (Hj : j < n - 2) by (apply Nat.div_lt_upper_bound; lia).
    pose proof (proj1 (gs_home n (j - k) 0 H ltac:(lia))) as Q. rewrite R, rounds_seq, seq_nth in Q by (pose proof (gs_bell_lt n 0 H ltac:(lia)); lia).
    specialize (Q eq_refl). rewrite Nat.mod_small in Q by lia. rewrite (Nat.div_mod a (2 * n)), (Nat.div_mod b (2 * n)) by lia. fold k j. rewrite M. replace j with k by lia. auto. }
  intros a b Ha Hb E. destruct (Nat.le_ge_cases (a / (2 * n)) (b / (2 * n))); [|symmetry]; apply Le; auto.
Qed.
