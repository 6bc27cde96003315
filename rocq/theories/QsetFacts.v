(** Lemmas for C154: in a round touch whose lead heads are closed under plain leads, the calls come in sets. *)
From Verif Require Import Base Spec SpecBlock SpecVec SpecPn SpecSym SpecHunt SpecGrandsire SpecRound ListFacts Row RowFacts MulFacts ParityFacts GroupFacts SameStageVec Block SsvFacts BlockFacts
  PlaceNot SpecCycle CycleFacts RoundFacts RoundFacts2 ShareFacts.
Local Open Scope list_scope.

(** Rows closed under multiplication by [q] come in sets of as many as the order of [q]. *)
Lemma orbits n M d q (g : nat -> row) : vrow n q -> 0 < d -> rpow q d = row_rounds n -> (forall j, 0 < j < d -> rpow q j <> row_rounds n) ->
  (forall i, i < M -> vrow n (g i)) -> (forall i j, i < M -> j < M -> g i = g j -> i = j) ->
  (forall i, i < M -> exists j, j < M /\ g j = rmul (g i) q) -> Nat.divide d M.
Proof.
  intros Vq Hd Pd Pm Vg Inj Closed. destruct (Nat.eq_dec M 0) as [->|M0]; [apply Nat.divide_0_r|].
  destruct (table_exists (fun i j => j < M /\ g j = rmul (g i) q) M Closed) as (P & LP & HP).
  assert (VP : vrow M P).
  { apply vrow_table; auto; [lia|intros i Hi; apply HP; auto|]. intros i j Hi Hj E. apply Inj; auto. apply (rmul_cancel_r n q); auto.
    rewrite <- (proj2 (HP i Hi)), <- (proj2 (HP j Hj)), E. auto. }
  assert (FP : forall k i, i < M -> follow P k i < M /\ g (follow P k i) = rmul (g i) (rpow q k)).
  { induction k as [|k IH]; intros i Hi; cbn [follow rpow].
    - split; auto. rewrite (proj2 Vq). symmetry. apply rmul_rounds_r, Vg. auto.
    - destruct (IH i Hi) as [B E]. destruct (HP _ B) as [B' E']. split; auto. rewrite E', E. apply (rmul_assoc_vrow n); auto using vrow_rpow. }
  destruct (reps_exist P (proj1 VP)) as (reps & R). exists (length reps).
  rewrite <- LP. apply equal_cycles; auto; [apply VP|]. rewrite LP. intros i Hi. split; auto. split.
  - apply Inj; auto; [apply FP; auto|]. rewrite (proj2 (FP d i Hi)), Pd. apply rmul_rounds_r, Vg. auto.
  - intros j Hj E. apply (Pm j Hj). apply (rmul_cancel_l n (g i)); auto using vrow_rpow.
    + apply valid_rounds. rewrite <- (proj2 Vq). apply valid_row_pos, Vq.
    + rewrite <- (proj2 (FP j i Hi)), E. symmetry. apply rmul_rounds_r, Vg. auto.
Qed.

Section Qsets.
  Context (n N d : nat) (h : nat -> row) (p b : row) (call : nat -> bool).
  Hypothesis HN : 0 < N.
  Hypothesis Vp : vrow n p.
  Hypothesis Vb : vrow n b.
  Hypothesis Vh : forall i, i < N -> vrow n (h i).
  Hypothesis Hinj : forall i j, i < N -> j < N -> h i = h j -> i = j.
  Hypothesis Step : forall i, i < N -> h (S i mod N) = rmul (h i) (if call i then b else p).
  Hypothesis Closed : forall i, i < N -> exists j, j < N /\ h j = rmul (h i) p.

  Lemma called_together i : i < N -> call i = true -> exists j, j < N /\ call j = true /\ h j = rmul (h i) (rmul b (rinv p)).
  Proof.
    intros Hi C. destruct (table_exists (fun i j => j < N /\ h j = rmul (h i) p) N Closed) as (P & LP & HP).
    assert (VP : vrow N P).
    { apply vrow_table; auto; [intros k Hk; apply HP; auto|]. intros k j Hk Hj E. apply Hinj; auto. apply (rmul_cancel_r n p); auto.
      rewrite <- (proj2 (HP k Hk)), <- (proj2 (HP j Hj)), E. auto. }
    assert (B : S i mod N < N) by (apply Nat.mod_upper_bound; lia).
    assert (I : In (S i mod N) P) by (apply (proj2 (proj2 (proj1 VP))); rewrite LP; auto).
    destruct (In_nth _ _ 0 I) as (j & Lj & Ej). rewrite LP in Lj. destruct (HP j Lj) as [_ E]. rewrite Ej in E.
    exists j. split; auto. split.
    - destruct (call j) eqn:Cj; auto. exfalso. pose proof (Step j Lj) as X. rewrite Cj, <- E in X. apply Hinj in X; [|apply Nat.mod_upper_bound; lia|auto].
      assert (MS : forall i, i < N -> S i mod N = if S i =? N then 0 else S i).
      { intros k Hk. destruct (Nat.eqb_spec (S k) N) as [->|Ne]; [apply Nat.mod_same; lia|apply Nat.mod_small; lia]. }
      assert (i = j); [|congruence]. rewrite !MS in X by auto. destruct (Nat.eqb_spec (S i) N), (Nat.eqb_spec (S j) N); lia.
    - rewrite Step, C in E by auto. rewrite <- (rmul_assoc_vrow n), E by auto using valid_rinv.
      rewrite (rmul_assoc_vrow n), (rmul_rinv_r n) by auto using valid_rinv. symmetry. apply rmul_rounds_r, Vh. auto.
  Qed.

  Lemma calls_in_sets : 0 < d -> rpow (rmul b (rinv p)) d = row_rounds n -> (forall j, 0 < j < d -> rpow (rmul b (rinv p)) j <> row_rounds n) ->
    Nat.divide d (length (filter call (seq 0 N))).
  Proof.
    intros Hd Pd Pm. set (B := filter call (seq 0 N)). assert (Vq : vrow n (rmul b (rinv p))) by auto using valid_rmul, valid_rinv.
    assert (IB : forall i, i < length B -> nth i B 0 < N /\ call (nth i B 0) = true).
    { intros i Hi. pose proof (nth_In B 0 Hi) as X. apply filter_In in X as [X Y]. apply in_seq in X. split; auto. lia. }
    apply (orbits n (length B) d (rmul b (rinv p)) (fun i => h (nth i B 0))); auto.
    - intros i Hi. apply Vh, IB. auto.
    - intros i j Hi Hj E. apply Hinj in E; try apply IB; auto. apply (proj1 (NoDup_nth B 0)) in E; auto. apply NoDup_filter, seq_NoDup.
    - intros i Hi. destruct (IB i Hi) as [X Y]. destruct (called_together _ X Y) as (j & Lj & Cj & E).
      destruct (In_nth B j 0) as (k & Lk & Ek); [apply filter_In; split; auto; apply in_seq; lia|]. exists k. split; auto. rewrite Ek. auto.
  Qed.
End Qsets.

Lemma count_calls calls : length (filter (fun i => nth i calls false) (seq 0 (length calls))) = length (filter (fun c : bool => c) calls).
Proof.
  rewrite (tot_list _ 0), (tot_list (fun c : bool => c) false), seq_length. apply tot_ext. intros i Hi. rewrite seq_nth by auto. auto.
Qed.
