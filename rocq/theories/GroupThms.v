(** Property theorems C17 to C21: closures, products of sets, groups of rows, fast_hash. *)

(* Generated from tools/props/Group.src: the proofs behind PropsGroup.v. *)
From Verif Require Import Base Bell Stage Parity Row Spec ListFacts BellFacts RowFacts MulFacts
  GroupFacts GroupFacts2.
Local Open Scope list_scope.

Lemma pf_C17_closure_lists_the_powers :
  forall r, valid_row r ->
    exists k l fuel0, (forall fuel, fuel0 <= fuel -> closure fuel r = Ret l) /\
      0 < k /\ length l = k /\
      (forall i x, nth_error l i = Some x -> power r (i + 1) x) /\
      (forall i x, nth_error l i = Some x -> (is_identity x <-> i + 1 = k)) /\
      NoDup l /\
      (forall n p, power r n p -> In p l).
Proof.
  intros r H. pose proof (vrow_intro r H) as V.
  destruct (closure_ok _ r V) as (k & Hk & E & Hl & C & _).
  exists k, (map (rpow r) (seq 1 k)), (S k).
  assert (Hn : forall i x, nth_error (map (rpow r) (seq 1 k)) i = Some x -> i < k /\ x = rpow r (i + 1)).
  { intros i x Hx. apply nth_error_map_iff in Hx as (j & Hj & <-).
    assert (Hi : i < k). { rewrite <- (seq_length k 1). apply nth_error_Some. congruence. }
    split; auto. rewrite (nth_error_nth' _ 0) in Hj by (rewrite seq_length; auto).
    rewrite seq_nth in Hj by auto. injection Hj as <-. f_equal; lia. }
  splits.
  - intros fuel Hf. apply C. lia.
  - auto.
  - rewrite map_length, seq_length; auto.
  - intros i x Hx. apply Hn in Hx as [_ ->]. eapply power_rpow; eauto.
  - intros i x Hx. apply Hn in Hx as [Hi ->]. rewrite identity_rounds, (proj2 (vrow_rpow _ r _ V)).
    split.
    + intros Hr. destruct (Nat.eq_dec (i + 1) k); auto. exfalso. apply (Hl (i + 1)); auto. lia.
    + intros ->. auto.
  - eapply rpow_NoDup; eauto.
  - intros n p Hp. apply power_fun in Hp. subst p. rewrite (rpow_mod _ r k V Hk E).
    pose proof (Nat.mod_upper_bound n k ltac:(lia)) as Hm.
    destruct (n mod k) as [|j].
    + cbn [rpow]. rewrite <- E. apply in_map. apply in_seq. lia.
    + apply in_map. apply in_seq. lia.
Qed.

Lemma pf_C17_closure_from_rounds_is_a_rotation :
  forall r, valid_row r ->
    exists init e fuel0, is_identity e /\ length e = length r /\
      (forall fuel, fuel0 <= fuel -> closure fuel r = Ret (init ++ [e])) /\
      (forall fuel, fuel0 <= fuel -> closure_from_rounds fuel r = Ret (e :: init)).
Proof.
  intros r H. pose proof (vrow_intro r H) as V.
  destruct (closure_ok _ r V) as (k & Hk & E & Hl & C & C').
  exists (map (rpow r) (seq 1 (k - 1))), (row_rounds (length r)), (S k). splits.
  - apply rounds_identity.
  - apply length_rounds.
  - intros fuel Hf. rewrite C by lia. f_equal. replace k with (S (k - 1)) at 1 by lia.
    rewrite seq_S, map_app. cbn [map]. replace (1 + (k - 1)) with k by lia. rewrite E. reflexivity.
  - intros fuel Hf. rewrite C' by lia. f_equal. replace k with (S (k - 1)) at 1 by lia. reflexivity.
Qed.

Lemma pf_C18_cartesian_product :
  forall n sets, sets <> [] -> Forall (Forall (fun r => valid_row r /\ length r = n)) sets ->
    exists l choices, multi_cartesian_product sets = Ret (Ok l) /\
      Permutation choices (picks sets) /\ Forall2 is_product choices l.
Proof.
  intros n sets Hne H. destruct sets as [|set sets]; [congruence|]. exact (mcp_products n set sets H).
Qed.

Lemma pf_C18_cartesian_product_errors :
  multi_cartesian_product [] = Ret (Ok []) /\
  (forall sets, Forall (Forall valid_row) sets ->
     let mixed := exists s1 s2 a b, In s1 sets /\ In s2 sets /\ In a s1 /\ In b s2 /\
                                    length a <> length b in
     ((exists l, multi_cartesian_product sets = Ret (Ok l)) \/
      ((exists e, multi_cartesian_product sets = Ret (Err e)) /\ mixed)) /\
     (mixed -> Forall (fun s => s <> []) sets ->
      exists e, multi_cartesian_product sets = Ret (Err e))).
Proof.
  split; [reflexivity|]. intros sets H mixed. split.
  - apply mcp_total; auto.
  - intros Hm Hne. apply mcp_mixed; auto.
Qed.

Lemma pf_C18_cartesian_product_error_stages :
  forall sets e, Forall (Forall valid_row) sets -> multi_cartesian_product sets = Ret (Err e) ->
    exists a b, first_of_another_stage (concat sets) a b /\ e = IncompatibleStages (length a) (length b).
Proof. apply mcp_err_first. Qed.

Lemma pf_C19_least_group :
  forall n rows, rows <> [] -> Forall (fun r => valid_row r /\ length r = n) rows ->
    exists fuel0, forall fuel, fuel0 <= fuel ->
    exists set, least_group_containing fuel rows = Ret (Ok set) /\ NoDup set /\
      Forall (fun r => valid_row r /\ length r = n) set /\
      subgroup n (fun x => In x set) /\
      (forall r, In r rows -> In r set) /\
      (forall S, subgroup n S -> (forall r, In r rows -> S r) -> forall x, In x set -> S x).
Proof.
  intros n rows Hne H. destruct (lgc_ok n rows H) as (fuel0 & K). exists fuel0. intros fuel Hf.
  destruct (K fuel Hf) as (set & E & Hnd & Hw). exists set. splits; auto.
  - apply Forall_forall. intros x Hx. apply Hw in Hx. exact (word_vrow n rows x H Hx).
  - destruct (word_subgroup n rows Hne H) as [S1 S2 S3]. split.
    + intros e L I. apply Hw; auto.
    + intros a b c Ha Hb C. apply Hw. apply (S2 a b c); auto; apply Hw; auto.
    + intros a b e Ha L Le Vb I C. apply Hw. apply (S3 a b e); auto; apply Hw; auto.
  - intros r Hr. apply Hw, word_gen; auto.
  - intros S HS Hin x Hx. apply Hw in Hx. eapply word_least; eauto.
Qed.

Lemma pf_C19_least_group_errors :
  forall rows fuel, Forall valid_row rows ->
    (exists x y, In x rows /\ In y rows /\ length x <> length y) ->
    exists a b, first_of_another_stage rows a b /\
      least_group_containing fuel rows = Ret (Err (IncompatibleStages (length a) (length b))).
Proof.
  intros rows fuel H K. assert (E : exists e, least_group_containing fuel rows = Ret (Err e)).
  { unfold least_group_containing. destruct (lgc_seed_err rows H None [] []) as (e & E); auto. rewrite E. cbn [bind]. eauto. }
  destruct E as (e & E). destruct (lgc_err_first rows fuel e H E) as (a & b & F & ->). eauto.
Qed.

Lemma pf_C19_least_group_of_nothing_refuted :
  forall fuel, 0 < fuel -> least_group_containing fuel [] = Ret (Ok []) /\
    forall n, 0 < n -> ~ subgroup n (fun x => In x []).
Proof.
  intros fuel Hf. split.
  - destruct fuel; [lia|]. reflexivity.
  - intros n Hn [S1 _ _]. exact (S1 (row_rounds n) (length_rounds n) (rounds_identity n)).
Qed.

Lemma pf_C20_group_test :
  forall rows set, Forall valid_row rows -> collected_set rows set ->
    ((exists e, is_group_set set = Ret (Err e)) <->
       exists x y, In x rows /\ In y rows /\ length x <> length y) /\
    (forall n, Forall (fun r => length r = n) rows ->
       exists ok, is_group_set set = Ret (Ok ok) /\
         (ok = true <-> rows <> [] /\ subgroup n (fun x => In x rows))).
Proof.
  intros rows set H [Hnd Hs].
  assert (Hset : Forall valid_row set).
  { apply Forall_forall. intros x Hx. apply Hs in Hx. rewrite Forall_forall in H; auto. }
  assert (B : forall n, Forall (fun r => length r = n) rows ->
       exists ok, is_group_set set = Ret (Ok ok) /\
         (ok = true <-> rows <> [] /\ subgroup n (fun x => In x rows))).
  { intros n Hn. destruct set as [|s0 set'].
    - exists false. split; [reflexivity|]. split; [discriminate|]. intros [Hne _].
      destruct rows as [|r rows]; [congruence|]. destruct (proj2 (Hs r) (or_introl eq_refl)).
    - assert (V : Forall (vrow n) (s0 :: set')).
      { apply Forall_forall. intros x Hx. split; [rewrite Forall_forall in Hset; auto|].
        apply Hs in Hx. rewrite Forall_forall in Hn; auto. }
      assert (Hne : s0 :: set' <> []) by discriminate.
      destruct (is_group_set_ok n _ Hne V) as (ok & E & K). exists ok. split; auto.
      rewrite K, (subgroup_test n) by auto. split.
      + intros [S1 S2 S3]. split.
        * intros ->. destruct (proj1 (Hs s0) (or_introl eq_refl)).
        * split.
          -- intros e L I. apply Hs; auto.
          -- intros a b c Ha Hb C. apply Hs. apply (S2 a b c); auto; apply Hs; auto.
          -- intros a b e Ha L Le Vb I C. apply Hs. apply (S3 a b e); auto; apply Hs; auto.
      + intros [_ [S1 S2 S3]]. split.
        * intros e L I. apply Hs; auto.
        * intros a b c Ha Hb C. apply Hs. apply (S2 a b c); auto; apply Hs; auto.
        * intros a b e Ha L Le Vb I C. apply Hs. apply (S3 a b e); auto; apply Hs; auto. }
  split; auto. split.
  - intros [e E].
    assert (D : forall l : list row, (exists x y, In x l /\ In y l /\ length x <> length y) \/
                  exists n, Forall (fun r => length r = n) l).
    { induction l as [|r l [(x & y & Hx & Hy & Hne)|(n & Hn)]].
      - right; exists 0; constructor.
      - left; exists x, y; splits; auto; right; auto.
      - destruct l as [|r' l]; [right; exists (length r); repeat constructor|].
        destruct (Nat.eq_dec (length r) n) as [En|En].
        + right; exists n; constructor; auto.
        + left; exists r, r'. splits; [left; auto|right; left; auto|]. inversion Hn; subst. congruence. }
    destruct (D rows) as [K|(n & Hn)]; auto. destruct (B n Hn) as (ok & E' & _). congruence.
  - intros (x & y & Hx & Hy & Hne). apply Hs in Hx, Hy. unfold is_group_set.
    destruct set as [|s0 set']; [destruct Hx|].
    destruct (is_group_stages_err (s0 :: set') Hset None) as (e & E).
    + discriminate.
    + intros _. eauto 6.
    + rewrite E. cbn [bind]. eauto.
Qed.

Lemma pf_C20_group_test_error_stages :
  forall rows set e, Forall valid_row rows -> collected_set rows set -> is_group_set set = Ret (Err e) ->
    exists a b, In a rows /\ In b rows /\ length a <> length b /\ first_of_another_stage set a b /\
      e = IncompatibleStages (length a) (length b).
Proof.
  intros rows set e H [_ Hs] E.
  assert (Hset : Forall valid_row set).
  { apply Forall_forall. intros x Hx. apply Hs in Hx. rewrite Forall_forall in H; auto. }
  destruct (is_group_err_first set e Hset E) as (a & b & F & ->). exists a, b. pose proof F as (bt & af & -> & _ & D).
  splits; auto.
  - apply Hs. left; auto.
  - apply Hs. right. apply in_or_app. right; left; auto.
Qed.

Lemma pf_C21_fast_hash_has_no_collisions :
  forall w a b h, valid_row a -> valid_row b -> length a = length b ->
    (N.of_nat (length a) ^ N.of_nat (length a) <= 2 ^ w)%N ->
    fast_hash_wrapping w a = Ret h -> fast_hash_wrapping w b = Ret h -> a = b.
Proof.
  intros w a b h Ha Hb L Hw Ea Eb. rewrite fast_hash_wrapping_ok in Ea, Eb by auto.
  assert (Fa : Forall (fun x => (N.of_nat x < N.of_nat (length a))%N) a).
  { pose proof (valid_row_Forall a Ha) as F. rewrite Forall_forall in F |- *. intros x Hx. specialize (F x Hx). lia. }
  assert (Fb : Forall (fun x => (N.of_nat x < N.of_nat (length a))%N) b).
  { pose proof (valid_row_Forall b Hb) as F. rewrite Forall_forall in F |- *. intros x Hx. specialize (F x Hx). lia. }
  rewrite <- L in Eb. pose proof (hval_bound _ _ Fa) as Ba. pose proof (hval_bound _ _ Fb) as Bb. rewrite <- L in Bb.
  rewrite N.mod_small in Ea, Eb by (eapply N.lt_le_trans; eauto).
  eapply hval_inj; eauto. congruence.
Qed.

Lemma pf_C21_fast_hash_is_a_number_in_base_stage :
  forall w r, valid_row r ->
    let s := N.of_nat (length r) in
    fast_hash_wrapping w r = Ret (fold_right (fun b value => N.of_nat b + s * value)%N 0%N r mod 2 ^ w)%N.
Proof.
  intros w r V s. rewrite fast_hash_wrapping_ok by auto. do 2 f_equal. fold s. clearbody s. clear V.
  induction r as [|b t IH]; auto. cbn [hval fold_right]. rewrite IH. reflexivity.
Qed.

Lemma pf_C21_documented_stages_are_covered :
  forall w s, (w = 16 /\ s <= 6 \/ w = 32 /\ s <= 9 \/ w = 64 /\ s <= 16)%N ->
    (0 < s)%N -> (s ^ s <= 2 ^ w)%N.
Proof.
  intros w s H Hs.
  assert (M : forall m, (s <= m -> s ^ s <= m ^ m)%N).
  { intros m Hm. transitivity (s ^ m)%N.
    - apply N.pow_le_mono_r; lia.
    - apply N.pow_le_mono_l; auto. }
  destruct H as [[-> Hm]|[[-> Hm]|[-> Hm]]]; (eapply N.le_trans; [apply (M _ Hm)|]); vm_compute; discriminate.
Qed.

Lemma pf_C21_fast_hash_overflow_checked :
  forall w r, valid_row r ->
    ((N.of_nat (length r) ^ N.of_nat (length r) < 2 ^ w)%N ->
       exists h, fast_hash_checked w r = Ret h /\ fast_hash_wrapping w r = Ret h) /\
    ((2 ^ w <= N.of_nat (length r) ^ N.of_nat (length r))%N -> fast_hash_checked w r = Panic).
Proof.
  intros w r H. split.
  - intros Hlt. eexists. split; [apply fast_hash_checked_ok; auto|].
    rewrite fast_hash_wrapping_ok by auto. f_equal. apply N.mod_small.
    eapply N.lt_trans; [|exact Hlt]. apply hval_bound.
    pose proof (valid_row_Forall r H) as F. rewrite Forall_forall in F |- *. intros x Hx. specialize (F x Hx). lia.
  - apply fast_hash_checked_panics; auto.
Qed.

Lemma pf_C21_sixteen_bells_overflow_refuted :
  forall r, valid_row r -> length r = 16 -> fast_hash_checked 64 r = Panic.
Proof.
  intros r H L. apply fast_hash_checked_panics; auto. rewrite L. vm_compute. discriminate.
Qed.
