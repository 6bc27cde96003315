(** Lemmas for C153: how often each bell is in each place in a plain course. *)
From Verif Require Import Base Spec SpecBlock SpecClass ListFacts Row RowFacts MulFacts GroupFacts BlockFacts ClassFacts SpecCycle CycleFacts SpecShare.
Local Open Scope list_scope.

Fixpoint tot (f : nat -> nat) (n : nat) : nat := match n with O => 0 | S n' => tot f n' + f n' end.

Lemma tot_ext f g n : (forall i, i < n -> f i = g i) -> tot f n = tot g n.
Proof. induction n as [|n IH]; intros H; cbn [tot]; auto. rewrite IH, H; auto. Qed.

Lemma tot_add f a b : tot f (a + b) = tot f a + tot (fun t => f (a + t)) b.
Proof. induction b as [|b IH]; cbn [tot]; [rewrite Nat.add_0_r; lia|]. rewrite Nat.add_succ_r. cbn [tot]. lia. Qed.

Lemma tot_plus f g n : tot (fun i => f i + g i) n = tot f n + tot g n.
Proof. induction n as [|n IH]; cbn [tot]; lia. Qed.

Lemma tot_mul c f n : tot (fun i => c * f i) n = c * tot f n.
Proof. induction n as [|n IH]; cbn [tot]; lia. Qed.

Lemma tot_zero f n : (forall i, i < n -> f i = 0) -> tot f n = 0.
Proof. induction n as [|n IH]; intros H; cbn [tot]; auto. rewrite IH, H; auto. Qed.

Lemma tot_one f u n : u < n -> f u = 1 -> (forall i, i < n -> i <> u -> f i = 0) -> tot f n = 1.
Proof.
  intros U F Z. replace n with (u + S (n - u - 1)) by lia. rewrite tot_add. rewrite tot_zero by (intros i Hi; apply Z; lia).
  change (S (n - u - 1)) with (1 + (n - u - 1)). rewrite tot_add. cbn [tot]. rewrite Nat.add_0_r, F.
  rewrite tot_zero; [lia|]. intros i Hi. apply Z; lia.
Qed.

Lemma tot_square f l n : tot f (n * l) = tot (fun i => tot (fun j => f (j * l + i)) n) l.
Proof.
  induction n as [|n IH].
  - cbn [Nat.mul tot]. symmetry. apply tot_zero. auto.
  - replace (S n * l) with (n * l + l) by lia. rewrite tot_add, IH. cbn [tot]. rewrite tot_plus. auto.
Qed.

Lemma tot_list {A} (g : A -> bool) (d : A) l : length (filter g l) = tot (fun i => Nat.b2n (g (nth i l d))) (length l).
Proof.
  induction l as [|x l IH] using rev_ind; auto. rewrite filter_app, !app_length. cbn [length filter]. rewrite Nat.add_1_r. cbn [tot].
  rewrite app_nth2, Nat.sub_diag by lia. cbn [nth]. rewrite IH.
  rewrite (tot_ext _ (fun i => Nat.b2n (g (nth i (l ++ [x]) d))) (length l)); [destruct (g x); auto|].
  intros i Hi. rewrite app_nth1 by auto. auto.
Qed.

Lemma visits_tot p q d : visits p q = tot (fun i => Nat.b2n (nth i p d =? q)) (length p).
Proof.
  rewrite <- (tot_list (fun x => x =? q)). unfold visits. induction p as [|x p IH]; auto. cbn [count_occ filter].
  destruct (Nat.eq_dec x q) as [->|N]; [rewrite Nat.eqb_refl; cbn [length]; auto|]. rewrite (proj2 (Nat.eqb_neq x q) N). auto.
Qed.

Lemma on_cycle_spec r b k x : on_cycle r b k x = true <-> exists j, j < k /\ follow r j b = x.
Proof.
  unfold on_cycle. rewrite existsb_exists. split.
  - intros (j & I & E). apply in_seq in I. apply Nat.eqb_eq in E. exists j. split; auto. lia.
  - intros (j & L & E). exists j. split; [apply in_seq; lia|apply Nat.eqb_eq; auto].
Qed.

Lemma come_back r k b : valid_row r -> b < length r -> cycle_length r b k -> forall j x, x < length r -> follow r j x = b -> on_cycle r b k x = true.
Proof.
  intros V B C j x X E. apply on_cycle_spec. destruct (cycle_exists r x V X) as (c & Cx). pose proof Cx as (P & Ex & _).
  assert (R : follow r (j * c - j) b = x).
  { rewrite <- E, <- follow_add. replace (j * c - j + j) with (j * c) by nia. apply follow_mul. auto. }
  exists ((j * c - j) mod k). split; [apply Nat.mod_upper_bound; destruct C; lia|]. rewrite <- (follow_mod r b k); auto.
Qed.

Lemma turns r b k x c : valid_row r -> b < length r -> x < length r -> cycle_length r b k ->
  tot (fun j => Nat.b2n (follow r j x =? b)) (c * k) = c * Nat.b2n (on_cycle r b k x).
Proof.
  intros V B X C. pose proof C as (P & Eb & Mi). destruct (on_cycle r b k x) eqn:O'.
  - apply on_cycle_spec in O' as (j0 & L & <-). cbn [Nat.b2n].
    assert (K : forall t, Nat.b2n (follow r t (follow r j0 b) =? b) = Nat.b2n ((t + j0) mod k =? 0)).
    { intros t. rewrite <- follow_add. f_equal. apply eq_true_iff_eq. rewrite !Nat.eqb_eq, (cycle_divide r b k _ C). symmetry. apply Nat.mod_divide. lia. }
    induction c as [|c IH]; [reflexivity|]. replace (S c * k) with (c * k + k) by lia. rewrite tot_add, IH.
    rewrite (tot_one _ ((k - j0) mod k)); [lia|apply Nat.mod_upper_bound; lia| |].
    + rewrite K. rewrite <- Nat.add_assoc, (Nat.add_comm (c * k)), Nat.mod_add by lia. rewrite Nat.add_mod_idemp_l by lia.
      replace (k - j0 + j0) with k by lia. rewrite Nat.mod_same by lia. auto.
    + intros i Hi Ni. rewrite K. rewrite <- Nat.add_assoc, (Nat.add_comm (c * k)), Nat.mod_add by lia.
      destruct (Nat.eqb_spec ((i + j0) mod k) 0) as [Z|Z]; auto. exfalso. apply Ni. apply Nat.mod_divide in Z as (q & Q); [|lia].
      assert (q = 0 \/ q = 1) as [->| ->] by nia.
      * assert (j0 = 0) by lia. assert (i = 0) by lia. subst. rewrite Nat.sub_0_r, Nat.mod_same by lia. auto.
      * assert (E : i = k - j0) by lia. rewrite <- E, Nat.mod_small by lia. auto.
  - cbn [Nat.b2n]. rewrite Nat.mul_0_r. apply tot_zero. intros j _. destruct (Nat.eqb_spec (follow r j x) b) as [E|E]; auto.
    rewrite (come_back r k b V B C j x X E) in O'. discriminate.
Qed.

Lemma cycle_nodup r b k : valid_row r -> b < length r -> cycle_length r b k -> NoDup (map (fun j => follow r j b) (seq 0 k)).
Proof.
  intros V B (P & E & Mi).
  assert (D : forall i j, i < j -> j < k -> follow r i b <> follow r j b).
  { intros i j L1 L2 Q. replace j with (i + (j - i)) in Q by lia. rewrite follow_add in Q. apply follow_inj in Q; auto using follow_lt.
    apply (Mi (j - i)); [lia|auto]. }
  apply NoDup_map_inj; [|apply seq_NoDup]. intros i j I J Q. apply in_seq in I, J.
  destruct (Nat.lt_trichotomy i j) as [L|[L|L]]; auto; exfalso; [apply (D i j)|apply (D j i)]; auto; lia.
Qed.

Lemma whole_cycle r b x : valid_row r -> b < length r -> cycle_length r b (length r) -> x < length r -> on_cycle r b (length r) x = true.
Proof.
  intros V B C X. set (l := map (fun j => follow r j b) (seq 0 (length r))).
  assert (I : In x l).
  { apply (NoDup_length_incl (l := l) (l' := seq 0 (length r))).
    - apply cycle_nodup; auto.
    - unfold l. rewrite map_length, seq_length. auto.
    - intros y Y. apply in_map_iff in Y as (j & <- & _). apply in_seq. pose proof (follow_lt r j b V B). lia.
    - apply in_seq. lia. }
  apply in_map_iff in I as (j & E & J). apply in_seq in J. apply on_cycle_spec. exists j. split; auto. lia.
Qed.

Lemma follow_fixed r h j : nth_error r h = Some h -> follow r j h = h.
Proof. intros H. induction j as [|j IH]; cbn [follow]; auto. rewrite IH. apply nth_error_nth. auto. Qed.

Lemma cycle_but_one r b h x : valid_row r -> b < length r -> h < length r -> b <> h -> nth_error r h = Some h -> cycle_length r b (length r - 1) ->
  x < length r -> on_cycle r b (length r - 1) x = negb (x =? h).
Proof.
  intros V B H N F C X. assert (Nh : forall j, follow r j b <> h).
  { intros j E. apply N. apply (follow_inj r j); auto. rewrite E. symmetry. apply follow_fixed. auto. }
  set (l := map (fun j => follow r j b) (seq 0 (length r - 1))). destruct (Nat.eqb_spec x h) as [->|Nx]; cbn [negb].
  - destruct (on_cycle r b (length r - 1) h) eqn:O'; auto. apply on_cycle_spec in O' as (j & _ & E). destruct (Nh j E).
  - assert (I : In x (h :: l)).
    { apply (NoDup_length_incl (l := h :: l) (l' := seq 0 (length r))).
      - constructor; [|apply cycle_nodup; auto]. intros Y. apply in_map_iff in Y as (j & E & _). apply (Nh j E).
      - unfold l. cbn [length]. rewrite map_length, !seq_length. lia.
      - intros y [<-|Y]; [apply in_seq; lia|]. apply in_map_iff in Y as (j & <- & _). apply in_seq. pose proof (follow_lt r j b V B). lia.
      - apply in_seq. lia. }
    destruct I as [I|I]; [congruence|]. apply in_map_iff in I as (j & E & J). apply in_seq in J. apply on_cycle_spec. exists j. split; auto. lia.
Qed.

Lemma on_cycle_back r b k x : cycle_length r b k -> on_cycle r b k x = true -> follow r k x = x.
Proof. intros (_ & E & _) O'. apply on_cycle_spec in O' as (j & _ & <-). rewrite <- follow_add, Nat.add_comm, follow_add, E. auto. Qed.

Lemma filter_all {A} (f : A -> bool) l : (forall x, In x l -> f x = true) -> filter f l = l.
Proof. induction l as [|x l IH]; intros H; cbn [filter]; auto. rewrite H by (left; auto). f_equal. apply IH. intros y Y. apply H. right. auto. Qed.
