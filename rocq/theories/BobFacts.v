(** Plain Bob. *)
From Coq Require Import Permutation.
From Verif Require Import Base Spec SpecBlock Class SpecClass SpecVec SpecPn SpecSym SpecHunt ListFacts Row RowFacts MulFacts GroupFacts SameStageVec Block SsvFacts BlockFacts
  PlaceNot PnFacts PnFacts2 PnFacts3 LawFacts ClassFacts ClassFacts2 ClassFacts3 TouchFacts SymFacts SymFacts2 SymFacts3 ShapeFacts HuntFacts.
Local Open Scope list_scope.

Lemma repeat2_nth {X} (a b : X) : forall k t, t < 2 * k -> nth_error (concat (repeat [a; b] k)) t = Some (if Nat.even t then a else b).
Proof.
  induction k as [|k IH]; intros t H; [lia|]. cbn [repeat concat app]. destruct t as [|[|t]]; auto. cbn [nth_error]. rewrite IH by lia. cbn [Nat.even]. auto.
Qed.

Lemma repeat2_len {X} (a b : X) k : length (concat (repeat [a; b] k)) = 2 * k.
Proof. induction k; cbn [repeat concat app length]; lia. Qed.

Definition bob_end (n : nat) : place_not := PlaceNot (if Nat.even n then [0; 1] else [0; 1; n - 1]) n.

Lemma bob_length n : 0 < n -> length (plain_bob n) = 2 * n.
Proof. intros H. unfold plain_bob, hunting. rewrite app_length, firstn_length, repeat2_len. cbn [length]. lia. Qed.

Lemma bob_nonempty n : plain_bob n <> [].
Proof. unfold plain_bob. intros E. apply app_eq_nil in E as [_ E]. discriminate. Qed.

Lemma bob_end_legal n : 2 <= n -> legal (bob_end n).
Proof.
  intros H. split; [cbn; lia|]. cbn [bob_end pn_stage pn_places]. destruct (parts_of n) as [[-> [m E]]|[-> [m E]]].
  - apply lf_place; [lia|]. apply lf_place; [lia|]. apply (legal_pairs n (m - 1)). lia.
  - apply lf_place; [lia|]. apply lf_place; [lia|]. apply (legal_pairs_one n (m - 1)). lia.
Qed.

Lemma bob_legal n : 2 <= n -> Forall (fun pn => legal pn /\ pn_stage pn = n) (plain_bob n).
Proof.
  intros H. apply Forall_app. split; [|constructor; auto; split; auto; apply bob_end_legal; auto].
  apply Forall_forall. intros pn I. assert (In pn (concat (repeat (hunting n) n))) as J by (rewrite <- (firstn_skipn (2 * n - 1)); apply in_or_app; auto).
  apply in_concat in J as (l & J & K). apply repeat_spec in J. subst l. pose proof (hunting_legal n ltac:(lia)) as F. rewrite Forall_forall in F. auto.
Qed.

Definition end_from (n p : nat) : nat := if p <? 2 then p else first_from n p.

Lemma end_rings n : 2 <= n -> rings (pn_places (bob_end n)) 0 (seq 0 n) (map (end_from n) (seq 0 n)).
Proof.
  intros H. cbn [bob_end pn_places]. destruct n as [|[|k]]; try lia. set (n := S (S k)) in *. cbn [seq map].
  assert (R : rings (if Nat.even n then [0; 1] else [0; 1; n - 1]) 2 (seq 2 k) (map (end_from n) (seq 2 k))).
  { destruct (parts_of n) as [[-> [m E]]|[-> [m E]]].
    - pose proof (rings_swaps [0; 1] n (m - 1) 2 0) as R. rewrite (pairs_map (end_from n)) in R.
      + cbn [seq] in R. rewrite app_nil_r in R. replace (2 * (m - 1) + 0) with k in R by lia. replace (2 * (m - 1)) with k in R by lia. apply R; cbn [In]; intros; lia.
      + intros j Hj. unfold end_from, first_from. replace (2 + 2 * j) with (2 * (j + 1)) by lia. rewrite even2, even21. bools.
    - pose proof (rings_swaps [0; 1; n - 1] n (m - 1) 2 1) as R. rewrite (pairs_map (end_from n)) in R.
      + replace (2 * (m - 1) + 1) with k in R by lia.
        replace (map (end_from n) (seq 2 (2 * (m - 1))) ++ seq (2 + 2 * (m - 1)) 1) with (map (end_from n) (seq 2 k)) in R.
        * apply R; cbn [In]; intros; lia.
        * replace k with (2 * (m - 1) + 1) by lia. rewrite seq_app, map_app. f_equal. cbn [seq map]. f_equal. unfold end_from, first_from. replace (2 + 2 * (m - 1)) with (2 * m) by lia. rewrite even2. bools.
      + intros j Hj. unfold end_from, first_from. replace (2 + 2 * j) with (2 * (j + 1)) by lia. rewrite even2, even21. bools. }
  apply rings_place; [destruct (Nat.even n); left; auto|]. apply rings_place; [destruct (Nat.even n); right; left; auto|]. exact R.
Qed.

Lemma bob_at n t : 2 <= n -> t < 2 * n -> nth_error (plain_bob n) t = Some (if t =? 2 * n - 1 then bob_end n else if Nat.even t then nth 0 (hunting n) (bob_end n) else nth 1 (hunting n) (bob_end n)).
Proof.
  intros H Ht. unfold plain_bob. destruct (Nat.eqb_spec t (2 * n - 1)) as [E|E].
  - rewrite nth_error_app2 by (rewrite firstn_length; unfold hunting; rewrite repeat2_len; lia). rewrite firstn_length. unfold hunting. rewrite repeat2_len.
    replace (t - Nat.min (2 * n - 1) (2 * n)) with 0 by lia. reflexivity.
  - rewrite nth_error_app1 by (rewrite firstn_length; unfold hunting; rewrite repeat2_len; lia).
    rewrite <- (firstn_skipn (2 * n - 1) (concat _)) at 1. 
    assert (E1 : forall {X} (l : list X) k i, i < k -> nth_error (firstn k l) i = nth_error l i).
    { clear. intros X l k. revert l. induction k as [|k IH]; intros l i Hi; [lia|]. destruct l, i; auto. cbn. apply IH. lia. }
    rewrite firstn_skipn, E1 by lia. unfold hunting. rewrite repeat2_nth by lia. reflexivity.
Qed.

Lemma trof_bob n t : 2 <= n -> t < 2 * n - 1 -> trof n (plain_bob n) t = trof n (hunting n) t.
Proof.
  intros H Ht. unfold trof. rewrite bob_length, Nat.mod_small by lia. rewrite bob_at by lia. replace (t =? 2 * n - 1) with false by (symmetry; apply Nat.eqb_neq; lia).
  change (length (hunting n)) with 2. destruct (parts_of t) as [[-> [m Em]]|[-> [m Em]]].
  - replace (t mod 2) with 0 by (rewrite Em, Nat.mul_comm, Nat.mod_mul; lia). reflexivity.
  - replace (t mod 2) with 1 by (rewrite Em, Nat.add_comm, Nat.mul_comm, Nat.mod_add; [reflexivity|lia]). reflexivity.
Qed.

Lemma trof_bob_end n : 2 <= n -> trof n (plain_bob n) (2 * n - 1) = map (end_from n) (seq 0 n).
Proof.
  intros H. destruct (trof_ok n (plain_bob n) ltac:(lia) (bob_nonempty n) (bob_legal n H) (2 * n - 1)) as (pn & E & R). rewrite rounds_seq in R.
  rewrite bob_length, Nat.mod_small in E by lia. rewrite bob_at, Nat.eqb_refl in E by lia. injection E as <-. apply (rings_fun _ _ _ _ _ R). apply end_rings; auto.
Qed.

Definition brow (n t : nat) : row := crs n (trof n (plain_bob n)) t.

Lemma brow_hrow n t : 2 <= n -> t < 2 * n -> brow n t = hrow n t.
Proof.
  intros H. unfold brow, hrow. induction t as [|t IH]; intros Ht; auto. cbn [crs]. rewrite IH by lia. rewrite trof_bob by lia. auto.
Qed.

Definition lead_end_row (n : nat) : row := hrow n (2 * n - 1).

Lemma lead_end_nth n p : 0 < n -> p < n -> nth p (lead_end_row n) 0 = second_from n p.
Proof.
  intros Hn Hp. unfold lead_end_row.
  assert (E : rmul (hrow n (2 * n - 1)) (trof n (hunting n) (2 * n - 1)) = row_rounds n).
  { change (crs n (trof n (hunting n)) (S (2 * n - 1)) = row_rounds n). replace (S (2 * n - 1)) with (n * 2) by lia. apply (hunting_ends n Hn). }
  pose proof (trof_inv n (hunting n) Hn (hunting_nonempty n) (hunting_legal n Hn) (2 * n - 1)) as I.
  pose proof (trof_v n (hunting n) Hn (hunting_nonempty n) (hunting_legal n Hn) (2 * n - 1)) as V.
  assert (Q : hrow n (2 * n - 1) = trof n (hunting n) (2 * n - 1)) by (apply (rmul_cancel_r n (trof n (hunting n) (2 * n - 1))); auto using hrow_v; congruence).
  rewrite Q, trof_hunting by auto. replace (2 * n - 1) with (2 * (n - 1) + 1) by lia. rewrite even21.
  rewrite (nth_indep _ 0 (second_from n 0)) by (rewrite map_length, seq_length; auto). rewrite map_nth, seq_nth by auto. reflexivity.
Qed.

Definition bob_head (n : nat) : row := brow n (2 * n).

Lemma bob_head_v n : 2 <= n -> vrow n (bob_head n).
Proof. intros H. apply crs_v; [lia|]. intros. apply trof_v; auto using bob_legal, bob_nonempty. lia. Qed.

Lemma end_from_lt n p : p < n -> end_from n p < n.
Proof. intros H. unfold end_from, first_from. destruct (Nat.even p); bools. Qed.

Lemma bob_head_rmul n : 2 <= n -> bob_head n = rmul (lead_end_row n) (map (end_from n) (seq 0 n)).
Proof.
  intros H. unfold bob_head, brow. replace (2 * n) with (S (2 * n - 1)) at 1 by lia. cbn [crs]. rewrite trof_bob_end by auto. f_equal. apply (brow_hrow n (2 * n - 1)); lia.
Qed.

Lemma bob_head_end n p : 2 <= n -> p < n -> nth p (bob_head n) 0 = nth (end_from n p) (lead_end_row n) 0.
Proof.
  intros H Hp. rewrite bob_head_rmul by auto. rewrite nth_rmul by (rewrite map_length, seq_length; auto). f_equal.
  rewrite (nth_indep _ 0 (end_from n 0)) by (rewrite map_length, seq_length; auto). rewrite map_nth, seq_nth by auto. reflexivity.
Qed.

Lemma bob_head_nth n p : 2 <= n -> p < n -> nth p (bob_head n) 0 = second_from n (end_from n p).
Proof. intros H Hp. rewrite bob_head_end by auto. apply lead_end_nth; [lia|]. apply end_from_lt. auto. Qed.

(** The working bells stand in a circle: 2, 3, 5, 7, ... and back by ..., 6, 4. *)
Definition working_bell (n c : nat) : nat := if c =? 0 then 1 else if 2 * c <? n then 2 * c else 2 * (n - 1 - c) + 1.

Lemma working_lt n c : 2 <= n -> c < n - 1 -> 0 < working_bell n c < n.
Proof. intros H Hc. unfold working_bell. bools. Qed.

Lemma working_inj n c d : 2 <= n -> c < n - 1 -> d < n - 1 -> working_bell n c = working_bell n d -> c = d.
Proof. intros H Hc Hd. unfold working_bell. bools. Qed.

Lemma working_ex n b : 0 < b < n -> exists c, c < n - 1 /\ working_bell n c = b.
Proof.
  intros H. destruct (parts_of b) as [[_ [m E]]|[_ [m E]]].
  - exists m. split; [lia|]. unfold working_bell. bools.
  - destruct (Nat.eq_dec m 0) as [->|N].
    + exists 0. split; [lia|]. unfold working_bell. bools.
    + exists (n - 1 - m). split; [lia|]. unfold working_bell. bools.
Qed.

Lemma mod_next c k : c < k -> (c + 1) mod k = if c + 1 =? k then 0 else c + 1.
Proof. intros H. destruct (Nat.eqb_spec (c + 1) k) as [->|]; [apply Nat.mod_same; lia|apply Nat.mod_small; lia]. Qed.

Lemma bob_head_step n c : 2 <= n -> c < n - 1 -> nth (working_bell n c) (bob_head n) 0 = working_bell n ((c + 1) mod (n - 1)).
Proof.
  intros H Hc. pose proof (working_lt n c H Hc) as L. rewrite bob_head_nth by lia. rewrite mod_next by auto. destruct (Nat.eqb_spec (c + 1) (n - 1)) as [W|W]; unfold working_bell;
  (destruct (Nat.eqb_spec c 0) as [->|C0];
  [|destruct (Nat.ltb_spec (2 * c) n) as [A|A]]).
  1,4: change (end_from n 1) with 1; unfold second_from; cbn [Nat.eqb Nat.even Nat.add]; bools.
  1,3: unfold end_from, first_from; rewrite even2; destruct (Nat.ltb_spec (2 * c) 2); [lia|]; destruct (Nat.ltb_spec (2 * c + 1) n) as [B|B];
      unfold second_from; rewrite ?even21, ?even2; bools.
  1,2: set (k := n - 1 - c); unfold end_from, first_from; rewrite even21; destruct (Nat.ltb_spec (2 * k + 1) 2); [lia|];
      replace (2 * k + 1 - 1) with (2 * k) by lia; unfold second_from; rewrite even2; bools.
Qed.

Lemma bob_head_0 n : 2 <= n -> nth 0 (bob_head n) 0 = 0.
Proof. intros H. rewrite bob_head_nth by lia. reflexivity. Qed.

Lemma bob_pow n j c : 2 <= n -> c < n - 1 -> nth (working_bell n c) (rpow (bob_head n) j) 0 = working_bell n ((c + j) mod (n - 1)).
Proof.
  intros H Hc. pose proof (bob_head_v n H) as [V L]. revert c Hc. induction j as [|j IH]; intros c Hc; pose proof (working_lt n c H Hc) as Lt; cbn [rpow].
  - rewrite L, rounds_seq, seq_nth by lia. rewrite Nat.add_0_r, Nat.mod_small by auto. reflexivity.
  - rewrite nth_rmul by lia. rewrite bob_head_step by auto. rewrite IH by (apply Nat.mod_upper_bound; lia). rewrite Nat.add_mod_idemp_l by lia. f_equal. f_equal. lia.
Qed.

Lemma bob_pow_0 n j : 2 <= n -> nth 0 (rpow (bob_head n) j) 0 = 0.
Proof.
  intros H. pose proof (bob_head_v n H) as [V L]. induction j as [|j IH]; cbn [rpow]; [rewrite L, rounds_seq, seq_nth by lia; auto|].
  rewrite nth_rmul by lia. rewrite bob_head_0 by auto. auto.
Qed.

Lemma bob_home n j c : 2 <= n -> c < n - 1 -> (nth (working_bell n c) (rpow (bob_head n) j) 0 = working_bell n c <-> j mod (n - 1) = 0).
Proof.
  intros H Hc. rewrite bob_pow by auto. split.
  - intros E. apply working_inj in E; auto; [|apply Nat.mod_upper_bound; lia]. rewrite <- (Nat.mod_small c (n - 1)) in E at 2 by auto.
    symmetry in E. destruct (mod_eq_sub c (c + j) (n - 1) ltac:(lia) ltac:(lia) E) as [k Ek]. replace j with (k * (n - 1)) by lia. apply Nat.mod_mul. lia.
  - intros E. f_equal. apply Nat.mod_divides in E; [|lia]. destruct E as [k ->]. rewrite Nat.mul_comm, Nat.mod_add by lia. apply Nat.mod_small. auto.
Qed.

Lemma bob_ends n : 2 <= n -> ends_after n (2 * n) (trof n (plain_bob n)) (n - 1).
Proof.
  intros H. pose proof (bob_head_v n H) as V.
  assert (Vtr : forall t, vrow n (trof n (plain_bob n) t)) by (intros; apply trof_v; auto using bob_legal, bob_nonempty; lia).
  assert (Ptr : forall t, trof n (plain_bob n) (t + 2 * n) = trof n (plain_bob n) t) by (intros t; pose proof (trof_period n (plain_bob n) ltac:(lia) (bob_nonempty n) (bob_legal n H) t) as Q; rewrite bob_length in Q by lia; exact Q).
  assert (Pow : forall j, crs n (trof n (plain_bob n)) (j * (2 * n)) = rpow (bob_head n) j) by (intros j; apply (crs_pow n (2 * n)); auto; lia).
  assert (Vp : forall j, vrow n (rpow (bob_head n) j)) by (intros; apply vrow_rpow; auto).
  split; [lia|]. split.
  - rewrite Pow. pose proof (Vp (n - 1)) as [_ L]. apply (nth_ext _ _ 0 0); [rewrite length_rounds; auto|]. intros b Hb. rewrite L in Hb. rewrite rounds_seq, seq_nth by auto. cbn [Nat.add].
    destruct (Nat.eq_dec b 0) as [->|N]; [apply bob_pow_0; auto|]. destruct (working_ex n b ltac:(lia)) as (c & Hc & <-). apply bob_home; auto. apply Nat.mod_same. lia.
  - intros j Hj E. rewrite Pow in E. pose proof (proj1 (bob_home n j 0 H ltac:(lia))) as Q. rewrite E, rounds_seq, seq_nth in Q by (pose proof (working_lt n 0 H ltac:(lia)); lia).
    specialize (Q eq_refl). rewrite Nat.mod_small in Q; lia.
Qed.

(** ** No row comes twice *)

Lemma out_in_fold n x y : x + y = 2 * n - 1 -> x < 2 * n -> out_and_in n x = out_and_in n y.
Proof. unfold out_and_in. intros. bools. Qed.

Lemma mod_sum a b m : 0 < m -> (a + b) mod m = m - 1 -> a mod m + b mod m = m - 1.
Proof.
  intros Hm E. rewrite Nat.add_mod in E by lia. pose proof (Nat.mod_upper_bound a m ltac:(lia)). pose proof (Nat.mod_upper_bound b m ltac:(lia)).
  destruct (Nat.lt_ge_cases (a mod m + b mod m) m) as [L|L]; [rewrite Nat.mod_small in E; auto|].
  replace (a mod m + b mod m) with ((a mod m + b mod m - m) + 1 * m) in E by lia. rewrite Nat.mod_add, Nat.mod_small in E; lia.
Qed.

Lemma hrow_nth n b t : b < n -> nth (hunting_place n b t) (hrow n t) 0 = b.
Proof. intros H. apply nth_error_nth, hrow_place. auto. Qed.

Lemma taken_to n x t u b b' : vrow n x -> b < n -> b' < n -> rmul x (hrow n t) = hrow n u -> hunting_place n b t = hunting_place n b' u -> nth b x 0 = b'.
Proof.
  intros V Hb Hb' E P. assert (Hn : 0 < n) by lia. rewrite <- (hrow_nth n b' u Hb'), <- P, <- E. rewrite nth_rmul by (rewrite (proj2 (hrow_v n t Hn)); apply hunting_place_lt; auto).
  rewrite hrow_nth by auto. auto.
Qed.

Lemma bob_true n t u j : 4 <= n -> t < 2 * n -> u < 2 * n -> rmul (rpow (bob_head n) j) (hrow n t) = hrow n u -> t = u.
Proof.
  intros Hn Ht Hu E. assert (H2 : 2 <= n) by lia. pose proof (vrow_rpow n _ j (bob_head_v n H2)) as V.
  assert (P : hunting_place n 0 t = hunting_place n 0 u).
  { apply (hrow_only n _ 0 u ltac:(lia)). rewrite <- E. rewrite (nth_error_nth' _ 0).
    - f_equal. rewrite nth_rmul by (rewrite (proj2 (hrow_v n t ltac:(lia))); apply hunting_place_lt; lia). rewrite hrow_nth by lia. apply bob_pow_0. auto.
    - unfold rmul. rewrite map_length, (proj2 (hrow_v n t ltac:(lia))). apply hunting_place_lt. lia. }
  destruct (same_place n 0 t u ltac:(lia) P) as [Q|Q]; unfold start_of in Q; cbn [Nat.even Nat.add] in Q; rewrite !Nat.mod_small in Q by auto; auto. exfalso.
  assert (A : nth 1 (rpow (bob_head n) j) 0 = 2).
  { apply (taken_to n _ t u 1 2 V); auto; try lia. unfold hunting_place. cbn [Nat.even]. apply out_in_fold; [|apply Nat.mod_upper_bound; lia]. apply mod_sum; [lia|].
    replace (2 * n - 1 - 1 + t + (2 + u)) with (2 * n - 1 + 1 * (2 * n)) by lia. rewrite Nat.mod_add, Nat.mod_small; lia. }
  assert (B : nth 2 (rpow (bob_head n) j) 0 = 1).
  { apply (taken_to n _ t u 2 1 V); auto; try lia. unfold hunting_place. cbn [Nat.even]. apply out_in_fold; [|apply Nat.mod_upper_bound; lia]. apply mod_sum; [lia|].
    replace (2 + t + (2 * n - 1 - 1 + u)) with (2 * n - 1 + 1 * (2 * n)) by lia. rewrite Nat.mod_add, Nat.mod_small; lia. }
  assert (W0 : working_bell n 0 = 1) by reflexivity. assert (W1 : working_bell n 1 = 2) by (unfold working_bell; bools).
  rewrite <- W0 in A at 1. rewrite <- W1 in A. rewrite bob_pow in A by lia. apply working_inj in A; try lia; [|apply Nat.mod_upper_bound; lia].
  rewrite <- W1 in B at 1. rewrite <- W0 in B. rewrite bob_pow in B by lia. apply working_inj in B; try lia; [|apply Nat.mod_upper_bound; lia].
  cbn [Nat.add] in A. rewrite <- (Nat.add_mod_idemp_r 1 j), A in B by lia. change (1 + 1) with 2 in B. rewrite Nat.mod_small in B; lia.
Qed.

(** ** The class *)

Lemma treble_path n : 0 < n -> map (hunting_place n 0) (seq 0 (2 * n)) = seq 0 n ++ rev (seq 0 n).
Proof.
  intros Hn. apply (nth_ext _ _ 0 0); [rewrite map_length, app_length, rev_length, !seq_length; lia|]. intros t Ht. rewrite map_length, seq_length in Ht.
  rewrite (nth_indep _ 0 (hunting_place n 0 0)) by (rewrite map_length, seq_length; auto). rewrite map_nth, seq_nth by auto. unfold hunting_place. cbn [Nat.even Nat.add]. rewrite Nat.mod_small by auto.
  unfold out_and_in. destruct (Nat.ltb_spec t n) as [L|L].
  - rewrite app_nth1, seq_nth by (rewrite ?seq_length; auto). reflexivity.
  - rewrite app_nth2 by (rewrite seq_length; auto). rewrite seq_length, rev_nth, seq_length by (rewrite seq_length; lia). rewrite seq_nth; lia.
Qed.

Lemma treble_visits n q : q < n -> visits (seq 0 n ++ rev (seq 0 n)) q = 2.
Proof.
  intros H. unfold visits. rewrite count_occ_app. assert (E : count_occ Nat.eq_dec (seq 0 n) q = 1).
  { apply NoDup_count_occ'; [apply seq_NoDup|]. apply in_seq. lia. }
  assert (E' : count_occ Nat.eq_dec (rev (seq 0 n)) q = 1).
  { apply NoDup_count_occ'; [apply NoDup_rev, seq_NoDup|]. apply in_rev. rewrite rev_involutive. apply in_seq. lia. }
  lia.
Qed.

Lemma brow_split n : 2 <= n -> forall a, brow n a = rmul (rpow (bob_head n) (a / (2 * n))) (hrow n (a mod (2 * n))).
Proof.
  intros H2. assert (Vtr : forall t, vrow n (trof n (plain_bob n) t)) by (intros; apply trof_v; auto using bob_legal, bob_nonempty; lia).
  assert (Ptr : forall t, trof n (plain_bob n) (t + 2 * n) = trof n (plain_bob n) t) by (intros t; pose proof (trof_period n (plain_bob n) ltac:(lia) (bob_nonempty n) (bob_legal n H2) t) as Q; rewrite bob_length in Q by lia; exact Q).
  intros a. assert (M : a mod (2 * n) < 2 * n) by (apply Nat.mod_upper_bound; lia). rewrite <- brow_hrow by auto. unfold brow, bob_head, brow. rewrite <- (crs_add n (2 * n)) by (auto; lia). f_equal.
  rewrite (Nat.div_mod a (2 * n)) at 1 by lia. lia.
Qed.

Lemma treble_in_course n a : 2 <= n -> nth_error (brow n a) (hunting_place n 0 (a mod (2 * n))) = Some 0.
Proof.
  intros H. pose proof (hrow_v n (a mod (2 * n)) ltac:(lia)) as [_ L]. pose proof (hunting_place_lt n 0 (a mod (2 * n)) ltac:(lia)) as Lt.
  rewrite brow_split by auto. rewrite (nth_error_nth' _ 0) by (unfold rmul; rewrite map_length; lia). f_equal. rewrite nth_rmul by lia. rewrite hrow_nth by lia. apply bob_pow_0. auto.
Qed.

Lemma seq_blocks {X} (f : nat -> X) L k : 0 < L -> map (fun a => f (a mod L)) (seq 0 (k * L)) = concat (repeat (map f (seq 0 L)) k).
Proof.
  intros HL. assert (G : forall j, map (fun a => f (a mod L)) (seq (j * L) (k * L)) = concat (repeat (map f (seq 0 L)) k)).
  { induction k as [|k IH]; intros j; auto. replace (S k * L) with (L + k * L) by lia. rewrite seq_app, map_app. cbn [repeat concat]. f_equal.
    - assert (E : seq (j * L) L = map (fun i => j * L + i) (seq 0 L)).
      { generalize (j * L). clear. intros a. replace a with (a + 0) at 1 by lia. generalize 0. induction L as [|L IH]; intros i; cbn [seq map]; auto. f_equal. rewrite <- IH. f_equal. lia. }
      rewrite E, map_map. apply map_ext_in. intros i Hi. apply in_seq in Hi. rewrite Nat.add_comm, Nat.mod_add, Nat.mod_small by lia. auto.
    - replace (j * L + L) with (S j * L) by lia. apply IH. }
  apply (G 0).
Qed.

Lemma bob_inj n : 4 <= n -> forall a b, a < (n - 1) * (2 * n) -> b < (n - 1) * (2 * n) -> brow n a = brow n b -> a = b.
Proof.
  intros Hn. assert (H2 : 2 <= n) by lia. pose proof (bob_head_v n H2) as V.
  pose proof (brow_split n H2) as S.
  assert (Le : forall a b, a < (n - 1) * (2 * n) -> b < (n - 1) * (2 * n) -> a / (2 * n) <= b / (2 * n) -> brow n a = brow n b -> a = b).
  { intros a b Ha Hb L E. rewrite !S in E. set (k := a / (2 * n)) in *. set (j := b / (2 * n)) in *. set (t := a mod (2 * n)) in *. set (u := b mod (2 * n)) in *.
    assert (Ht : t < 2 * n) by (apply Nat.mod_upper_bound; lia). assert (Hu : u < 2 * n) by (apply Nat.mod_upper_bound; lia).
    assert (Vp : forall i, vrow n (rpow (bob_head n) i)) by (intros; apply vrow_rpow; auto).
    pose proof (hrow_v n t ltac:(lia)) as Vt. pose proof (hrow_v n u ltac:(lia)) as Vu.
    assert (E' : rmul (rpow (bob_head n) (j - k)) (hrow n u) = hrow n t).
    { apply (rmul_cancel_l n (rpow (bob_head n) k)); auto using valid_rmul. rewrite <- (rmul_assoc_vrow n) by auto. rewrite <- (rpow_add n) by auto. replace (k + (j - k)) with j by lia. auto. }
    assert (u = t) as Eu by (apply (bob_true n u t (j - k)); auto). rewrite Eu in *.
    assert (R : rpow (bob_head n) (j - k) = row_rounds n).
    { apply (rmul_cancel_r n (hrow n t)); auto using valid_rounds. - apply valid_rounds. lia. - rewrite E'. symmetry. apply rmul_rounds_l_vrow. auto. }
    assert (Hj : j < n - 1) by (apply Nat.div_lt_upper_bound; lia).
    pose proof (proj1 (bob_home n (j - k) 0 H2 ltac:(lia))) as Q. rewrite R, rounds_seq, seq_nth in Q by (pose proof (working_lt n 0 H2 ltac:(lia)); lia).
    specialize (Q eq_refl). rewrite Nat.mod_small in Q by lia. rewrite (Nat.div_mod a (2 * n)), (Nat.div_mod b (2 * n)) by lia. fold k j t u. rewrite Eu. replace j with k by lia. auto. }
  intros a b Ha Hb E. destruct (Nat.le_ge_cases (a / (2 * n)) (b / (2 * n))); [|symmetry]; apply Le; auto.
Qed.
