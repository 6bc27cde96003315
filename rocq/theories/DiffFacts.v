(** The working bells of a lead which all come home after the same number of leads. *)
From Verif Require Import Base Spec SpecBlock Class SpecClass SpecVec ListFacts Row RowFacts MulFacts GroupFacts SpecCycle CycleFacts ClassFacts.
Local Open Scope list_scope.

Lemma returns_cycle s lo x k : vrow s lo -> x < s -> (returns_after lo x k <-> cycle_length lo x k).
Proof.
  intros V X. unfold returns_after, cycle_length.
  assert (Q : forall j, nth_error (rpow lo j) x = Some (follow lo j x)).
  { intros j. rewrite (nth_error_nth' _ 0) by (rewrite (proj2 (vrow_rpow s lo j V)); auto).
    rewrite follow_rpow; auto; [apply V|rewrite (proj2 V); auto]. }
  split.
  - intros (A & (h & P & E) & C). split; auto. apply power_fun in P. subst h. rewrite Q in E. split; [congruence|].
    intros j J F. apply (C j (rpow lo j) J (power_rpow s lo j V)). rewrite Q, F. auto.
  - intros (A & E & C). split; auto. split.
    + exists (rpow lo k). split; [apply (power_rpow s); auto|]. rewrite Q, E. auto.
    + intros j h J P F. apply power_fun in P. subst h. rewrite Q in F. apply (C j J). congruence.
Qed.

Lemma cycle_fun r x k l : cycle_length r x k -> cycle_length r x l -> k = l.
Proof.
  intros A B. pose proof (proj1 (cycle_divide r x k l A)) as D1. pose proof (proj1 (cycle_divide r x l k B)) as D2.
  apply Nat.divide_antisym; [apply D1, B|apply D2, A].
Qed.

Lemma filter_both {A} (p : A -> bool) l : length l = length (filter p l) + length (filter (fun x => negb (p x)) l).
Proof. induction l as [|a l IH]; auto. cbn. destruct (p a); cbn; lia. Qed.

Lemma orbits_divide r k : valid_row r -> forall n L, length L <= n -> NoDup L -> (forall x, In x L -> x < length r) ->
  (forall x j, In x L -> In (follow r j x) L) -> (forall x, In x L -> cycle_length r x k) -> Nat.divide k (length L).
Proof.
  intros V. induction n as [|n IH]; intros L Ln N R C Y.
  { destruct L; [exists 0; auto|cbn in Ln; lia]. }
  destruct L as [|x L']; [exists 0; auto|]. set (L := x :: L') in *. assert (X : In x L) by (left; auto).
  pose proof (Y x X) as Cx. set (Orb := map (fun j => follow r j x) (seq 0 k)).
  assert (NO : NoDup Orb).
  { apply NoDup_map_inj; [|apply seq_NoDup]. intros i j I J E. apply in_seq in I, J.
    assert (G : forall a b, a < b -> b < k -> follow r a x = follow r b x -> False).
    { intros a b L1 L2 E'. replace b with (a + (b - a)) in E' by lia. rewrite follow_add in E'.
      apply follow_inj in E'; auto using follow_lt. apply (proj2 (proj2 Cx) (b - a)); auto. lia. }
    destruct (Nat.lt_trichotomy i j) as [T|[T|T]]; auto; exfalso; [apply (G i j)|apply (G j i)]; auto; lia. }
  assert (IO : forall y, In y Orb <-> exists j, y = follow r j x).
  { intros y. unfold Orb. rewrite in_map_iff. split.
    - intros (j & <- & _). eauto.
    - intros (j & ->). exists (j mod k). split; [symmetry; apply follow_mod; auto|]. apply in_seq. pose proof (proj1 Cx). pose proof (Nat.mod_upper_bound j k). lia. }
  set (p := fun y => existsb (Nat.eqb y) Orb).
  assert (P : forall y, p y = true <-> In y Orb).
  { intros y. unfold p. rewrite existsb_exists. split.
    - intros (z & Z & E). apply Nat.eqb_eq in E. subst; auto.
    - intros H. exists y. split; auto. apply Nat.eqb_refl. }
  assert (F1 : length (filter p L) = k).
  { replace k with (length Orb) by (unfold Orb; rewrite map_length, seq_length; auto). apply Nat.le_antisymm.
    - apply NoDup_incl_length; [apply NoDup_filter; auto|]. intros y H. apply filter_In in H as [_ H]. apply P; auto.
    - apply NoDup_incl_length; auto. intros y H. apply filter_In. split; [|apply P; auto]. apply IO in H as (j & ->). apply C; auto. }
  pose proof (filter_both p L) as FB. rewrite F1 in FB. pose proof (proj1 Cx) as K.
  assert (D : Nat.divide k (length (filter (fun y => negb (p y)) L))).
  { apply IH.
    - lia.
    - apply NoDup_filter; auto.
    - intros y H. apply filter_In in H as [H _]. auto.
    - intros y j H. apply filter_In in H as [H H']. apply filter_In. split; auto. apply Bool.negb_true_iff.
      apply Bool.negb_true_iff in H'. destruct (p (follow r j y)) eqn:E; auto. exfalso. apply P, IO in E as (i & E).
      assert (In y Orb); [|apply P in H0; congruence]. apply IO. pose proof (Y y H) as Cy.
      exists (j * k - j + i). rewrite follow_add, <- E, <- follow_add. replace (j * k - j + j) with (j * k) by nia.
      symmetry. apply follow_mul. apply Cy.
    - intros y H. apply filter_In in H as [H _]. auto. }
  destruct D as [q D]. exists (S q). lia.
Qed.

Lemma fixed_count r : valid_row r ->
  exists W, NoDup W /\ (forall x, In x W <-> x < length r /\ nth_error r x <> Some x) /\ length r = length (fixed_bells r) + length W.
Proof.
  intros V. set (p := fun x => match nth_error r x with Some y => x =? y | None => false end).
  assert (P : forall x, p x = true <-> nth_error r x = Some x).
  { intros x. unfold p. destruct (nth_error r x) as [y|]; [|split; discriminate]. rewrite Nat.eqb_eq. split; congruence. }
  exists (filter (fun x => negb (p x)) (seq 0 (length r))). splits.
  - apply NoDup_filter, seq_NoDup.
  - intros x. rewrite filter_In, in_seq, Bool.negb_true_iff, <- Bool.not_true_iff_false, P. intuition lia.
  - transitivity (length (seq 0 (length r))); [rewrite seq_length; auto|]. rewrite (filter_both p). f_equal.
    destruct (fixed_bells_spec r) as [F1 F2]. apply Nat.le_antisymm; apply NoDup_incl_length.
    + apply NoDup_filter, seq_NoDup.
    + intros x H. apply filter_In in H as [_ H]. apply F1, P; auto.
    + clear -F2. induction F2 as [|a l F2 IH H]; constructor; auto. intros I. rewrite Forall_forall in H. specialize (H a I). lia.
    + intros x H. apply F1 in H. apply filter_In. split; [|apply P; auto]. apply in_seq. assert (x < length r) by (apply nth_error_Some; congruence). lia.
Qed.

Lemma not_hunt_follow r x j : valid_row r -> x < length r -> nth_error r x <> Some x ->
  nth_error r (follow r j x) <> Some (follow r j x).
Proof.
  intros V X H E. apply H. rewrite (nth_error_nth' _ 0) in E by (apply follow_lt; auto). rewrite (nth_error_nth' _ 0) by auto. f_equal.
  assert (E' : follow r j (nth x r 0) = follow r j x).
  { transitivity (follow r (S j) x); [|cbn; congruence]. replace (S j) with (j + 1) by lia. rewrite follow_add. auto. }
  apply follow_inj in E'; auto. apply vnth; auto.
Qed.

Lemma hunt_cycle r x k : valid_row r -> x < length r -> nth_error r x = Some x -> cycle_length r x k -> k = 1.
Proof.
  intros V X E C. apply (cycle_fun r x); auto. split; [lia|]. split; [|intros j J; lia]. cbn. erewrite nth_error_nth; eauto.
Qed.
