(** Facts about even and odd rows of groups and stages. *)
From Coq Require Import Permutation.
From Verif Require Import Base Spec ListFacts Row RowFacts MulFacts ParityFacts GroupFacts GroupFacts2 MaskFacts LawFacts2.
Local Open Scope list_scope.

Definition evens (l : list row) : list row := filter (fun r => negb (sgn r)) l.
Definition odds (l : list row) : list row := filter sgn l.

Lemma evens_odds l : Permutation l (evens l ++ odds l).
Proof.
  unfold evens, odds. induction l as [|x l IH]; cbn; [constructor|]. destruct (sgn x); cbn.
  - apply Permutation_cons_app. exact IH.
  - constructor. exact IH.
Qed.

Lemma in_evens l r : In r (evens l) <-> In r l /\ sgn r = false.
Proof. unfold evens. rewrite filter_In, negb_true_iff. reflexivity. Qed.
Lemma in_odds l r : In r (odds l) <-> In r l /\ sgn r = true.
Proof. unfold odds. rewrite filter_In. reflexivity. Qed.

Lemma halves n o G : NoDup G -> Forall (vrow n) G -> vrow n o -> sgn o = true -> (forall x, In x G -> In (rmul o x) G) ->
  length (evens G) = length (odds G).
Proof.
  intros N V Vo So C. rewrite Forall_forall in V.
  assert (I : forall l, NoDup l -> (forall x, In x l -> In x G) -> NoDup (map (rmul o) l)).
  { intros l Nl Il. apply NoDup_map_inj; auto. intros x y X Y. apply (rmul_cancel_l n); auto. }
  assert (S : forall x, In x G -> sgn (rmul o x) = negb (sgn x)).
  { intros x X. rewrite (sgn_rmul n), So; auto. }
  apply Nat.le_antisymm.
  - rewrite <- (map_length (rmul o) (evens G)). apply NoDup_incl_length.
    + apply I; [apply NoDup_filter; auto|]. intros x X. apply in_evens in X. apply X.
    + intros y Y. apply in_map_iff in Y as (x & <- & X). apply in_evens in X as [X E]. apply in_odds. split; auto. rewrite S, E; auto.
  - rewrite <- (map_length (rmul o) (odds G)). apply NoDup_incl_length.
    + apply I; [apply NoDup_filter; auto|]. intros x X. apply in_odds in X. apply X.
    + intros y Y. apply in_map_iff in Y as (x & <- & X). apply in_odds in X as [X E]. apply in_evens. split; auto. rewrite S, E; auto.
Qed.

(** A row of odd parity: the first two bells of rounds exchanged. *)
Lemma an_odd_row n : 2 <= n -> exists o, vrow n o /\ sgn o = true.
Proof.
  intros H. destruct n as [|[|n]]; [lia|lia|]. exists (1 :: 0 :: seq 2 n). assert (L : length (1 :: 0 :: seq 2 n) = S (S n)) by (cbn; rewrite seq_length; auto).
  split.
  - split; auto. apply valid_row_perm. split; [discriminate|]. rewrite L. cbn. apply perm_swap.
  - change (1 :: 0 :: seq 2 n) with ([1; 0] ++ seq 2 n). rewrite sgn_app, sgn_rounds. change (sgn [1; 0]) with true.
    assert (Z : forall k l, (forall x, In x l -> k <= x) -> xor_all (fun y => y <? k) l = false).
    { intros k l. induction l as [|x l IH]; intros K; auto. change (xorb (x <? k) (xor_all (fun y => y <? k) l) = false). rewrite IH by (intros; apply K; right; auto).
      replace (x <? k) with false; auto. symmetry. apply Nat.ltb_ge, K. left; auto. }
    change (cross [1; 0] (seq 2 n)) with (xorb (xor_all (fun y => y <? 1) (seq 2 n)) (xorb (xor_all (fun y => y <? 0) (seq 2 n)) false)).
    rewrite !Z; auto; intros x X; apply in_seq in X; lia.
Qed.

Lemma all_rows n : 0 < n -> NoDup (perms (seq 0 n)) /\ length (perms (seq 0 n)) = fact n /\ forall r, In r (perms (seq 0 n)) <-> vrow n r.
Proof.
  intros Hn. splits.
  - apply NoDup_perms, seq_NoDup.
  - rewrite length_perms, seq_length. auto.
  - intros r. rewrite In_perms. split.
    + intros P. assert (L : length r = n) by (rewrite <- (Permutation_length P); apply seq_length). split; auto.
      apply valid_row_perm. rewrite L. split; [|symmetry; auto]. intros ->. cbn in L. lia.
    + intros [V L]. apply valid_row_perm in V. rewrite L in V. symmetry. apply V.
Qed.

Lemma extent_halves n l : 2 <= n -> NoDup l -> (forall r, In r l <-> vrow n r) -> length (evens l) = length (odds l) /\ 2 * length (evens l) = fact n.
Proof.
  intros Hn N I. destruct (an_odd_row n Hn) as (o & Vo & So).
  assert (H : length (evens l) = length (odds l)).
  { apply (halves n o); auto; [apply Forall_forall; intros x; apply I|]. intros x X. apply I. apply I in X. apply valid_rmul; auto. }
  split; auto. destruct (all_rows n ltac:(lia)) as (N' & L & I').
  assert (P : Permutation l (perms (seq 0 n))) by (apply NoDup_Permutation; auto; intros r; rewrite I, I'; reflexivity).
  apply Permutation_length in P. pose proof (Permutation_length (evens_odds l)) as Q. rewrite app_length in Q. lia.
Qed.

(** Rows of one parity, none twice, are at most half of the extent. *)
Lemma one_parity_bound n b l : 2 <= n -> NoDup l -> Forall (vrow n) l -> (forall r, In r l -> sgn r = b) -> 2 * length l <= fact n.
Proof.
  intros Hn N V S. rewrite Forall_forall in V. destruct (all_rows n ltac:(lia)) as (N' & L & I').
  destruct (extent_halves n _ Hn N' I') as [E H].
  assert (K : length l <= length (if b then odds (perms (seq 0 n)) else evens (perms (seq 0 n)))).
  { apply NoDup_incl_length; auto. intros r R. destruct b; [apply in_odds|apply in_evens]; split; auto; apply I'; auto. }
  destruct b; lia.
Qed.
