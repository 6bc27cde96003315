(** Proofs about the cycles of a row. *)
From Verif Require Import Base Bell Stage Parity Row Spec SpecCycle ListFacts BellFacts RowFacts MulFacts ParityFacts GroupFacts LawFacts2.
From Coq Require Import Factorial.
Local Open Scope list_scope.

Lemma follow_add r j k b : follow r (j + k) b = follow r j (follow r k b).
Proof. induction j as [|j IH]; cbn; auto. rewrite IH. reflexivity. Qed.

Lemma vnth r b : valid_row r -> b < length r -> nth b r 0 < length r.
Proof. intros V B. apply V. apply nth_In. auto. Qed.

Lemma vinj r x y : valid_row r -> x < length r -> y < length r -> nth x r 0 = nth y r 0 -> x = y.
Proof.
  intros (_ & N & _) X Y E. apply (NoDup_nth r 0) in E; auto.
Qed.

Lemma follow_lt r k b : valid_row r -> b < length r -> follow r k b < length r.
Proof. intros V B. induction k as [|k IH]; cbn; auto. apply vnth; auto. Qed.

Lemma follow_inj r k x y : valid_row r -> x < length r -> y < length r -> follow r k x = follow r k y -> x = y.
Proof.
  intros V X Y. induction k as [|k IH]; cbn; auto. intros E. apply IH. apply (vinj r); auto using follow_lt.
Qed.

Lemma follow_rpow r k b : valid_row r -> b < length r -> nth b (rpow r k) 0 = follow r k b.
Proof.
  intros V. revert b. induction k as [|k IH]; intros b B; cbn [rpow].
  - unfold row_rounds. rewrite rounds_seq, seq_nth; auto.
  - rewrite nth_rmul by auto. rewrite IH by (apply vnth; auto).
    change (nth b r 0) with (follow r 1 b). rewrite <- follow_add. f_equal. lia.
Qed.

Lemma rpow_rounds_follow r k : valid_row r ->
  (rpow r k = row_rounds (length r) <-> forall b, b < length r -> follow r k b = b).
Proof.
  intros V. assert (Vr : vrow (length r) r) by (split; auto). destruct (vrow_rpow _ r k Vr) as [_ L]. split.
  - intros E b B. rewrite <- follow_rpow, E by auto. rewrite rounds_seq, seq_nth; auto.
  - intros H. apply (nth_ext _ _ 0 0); [rewrite rounds_seq, seq_length; auto|]. intros b B. rewrite L in B.
    rewrite follow_rpow, H by auto. rewrite rounds_seq, seq_nth; auto.
Qed.

Lemma cycle_exists r b : valid_row r -> b < length r -> exists k, cycle_length r b k.
Proof.
  intros V B. destruct (finite_order (length r) r) as (K & HK & E); [split; auto|].
  assert (F : follow r K b = b) by (apply rpow_rounds_follow; auto).
  clear E. revert HK F. induction K as [K IH] using lt_wf_ind. intros HK F.
  assert (D : forall M, (exists j, 0 < j < M /\ follow r j b = b) \/ (forall j, 0 < j < M -> follow r j b <> b)).
  { induction M as [|M [(j & J & E)|H]]; [right; intros; lia|left; exists j; split; [lia|auto]|].
    destruct (Nat.eq_dec M 0) as [->|HM]; [right; intros; lia|].
    destruct (Nat.eq_dec (follow r M b) b) as [E|E]; [left; exists M; split; [lia|auto]|].
    right. intros j J. destruct (Nat.eq_dec j M) as [->|]; auto. apply H. lia. }
  destruct (D K) as [(j & J & E)|H]; [apply (IH j); auto; lia|]. exists K. repeat split; auto.
Qed.

Lemma follow_mul r k q b : follow r k b = b -> follow r (q * k) b = b.
Proof. intros E. induction q as [|q IH]; cbn; auto. rewrite follow_add, IH. auto. Qed.

Lemma cycle_divide r b k m : cycle_length r b k -> (follow r m b = b <-> Nat.divide k m).
Proof.
  intros (P & E & L). split.
  - intros F. apply Nat.mod_divide; [lia|].
    destruct (Nat.eq_dec (m mod k) 0) as [|D]; auto. exfalso. apply (L (m mod k)).
    + pose proof (Nat.mod_upper_bound m k). lia.
    + rewrite (Nat.div_mod m k) in F by lia. rewrite Nat.add_comm, follow_add, Nat.mul_comm, follow_mul in F; auto.
  - intros (q & ->). apply follow_mul; auto.
Qed.

Lemma cycle_le r b k : valid_row r -> b < length r -> cycle_length r b k -> k <= length r.
Proof.
  intros V B (P & E & L). set (l := map (fun j => follow r j b) (seq 0 k)).
  assert (N : NoDup l).
  { apply NoDup_map_inj; [|apply seq_NoDup].
    assert (H : forall x y, x < y -> y < k -> follow r x b <> follow r y b).
    { intros x y X Y F. apply (L (y - x)); [lia|]. replace y with (x + (y - x)) in F by lia. rewrite follow_add in F.
      apply follow_inj in F; auto. apply follow_lt; auto. }
    intros x y X Y F. apply in_seq in X, Y. destruct (Nat.lt_trichotomy x y) as [K|[K|K]]; auto; exfalso.
    - apply (H x y); auto; lia.
    - apply (H y x); auto; lia. }
  assert (I : incl l (seq 0 (length r))).
  { intros x X. apply in_map_iff in X as (j & <- & _). apply in_seq. pose proof (follow_lt r j b V B). lia. }
  pose proof (NoDup_incl_length N I) as K. unfold l in K. rewrite map_length, !seq_length in K. auto.
Qed.

Lemma divide_fact k n : 0 < k -> k <= n -> Nat.divide k (fact n).
Proof.
  intros P L. induction n as [|n IH]; [lia|]. change (fact (S n)) with (S n * fact n).
  destruct (Nat.eq_dec k (S n)) as [->|]; [apply Nat.divide_factor_l|]. apply Nat.divide_mul_r, IH. lia.
Qed.

Lemma order_lcm r k : valid_row r -> 0 < k -> rpow r k = row_rounds (length r) ->
  (forall j, 0 < j < k -> rpow r j <> row_rounds (length r)) -> lcm_of_cycles r k.
Proof.
  intros V P E M. assert (Vr : vrow (length r) r) by (split; auto).
  pose proof (rpow_rounds_divide _ r k Vr P E M) as D. split.
  - intros b c B C. apply (cycle_divide r b c k C). apply rpow_rounds_follow; auto.
  - intros m H. apply D. apply rpow_rounds_follow; auto. intros b B. destruct (cycle_exists r b V B) as (c & C).
    apply (cycle_divide r b c m C). eauto.
Qed.

Lemma lcm_unique r m n : lcm_of_cycles r m -> lcm_of_cycles r n -> m = n.
Proof. intros [A B] [C D]. apply Nat.divide_antisym; auto. Qed.

(** ** Parity *)

Lemma same_refl r x : same_cycle r x x.
Proof. exists 0. reflexivity. Qed.
Lemma same_trans r x y z : same_cycle r x y -> same_cycle r y z -> same_cycle r x z.
Proof. intros (j & <-) (k & <-). exists (k + j). apply follow_add. Qed.
Lemma same_sym r x y : valid_row r -> x < length r -> same_cycle r x y -> same_cycle r y x.
Proof.
  intros V X (j & <-). destruct (cycle_exists r x V X) as (k & P & E & _). exists (j * k - j).
  rewrite <- follow_add. replace (j * k - j + j) with (j * k) by nia. apply follow_mul; auto.
Qed.
Lemma same_lt r x y : valid_row r -> x < length r -> same_cycle r x y -> y < length r.
Proof. intros V X (j & <-). apply follow_lt; auto. Qed.

Section Skip.
  Context (r : list nat) (i j : nat) (V : valid_row r) (Hi : i < length r) (Hr : nth i r 0 = j) (Hn : j <> i).

  (** The row which leaves out [j] on the way from [i]. *)
  Definition skip : list nat :=
    map (fun x => if x =? j then j else if x =? i then nth j r 0 else nth x r 0) (seq 0 (length r)).

  Lemma Hj : j < length r. Proof. rewrite <- Hr. apply vnth; auto. Qed.
  Lemma length_skip : length skip = length r. Proof. unfold skip. rewrite map_length, seq_length. auto. Qed.
  Lemma nth_skip x : x < length r -> nth x skip 0 = if x =? j then j else if x =? i then nth j r 0 else nth x r 0.
  Proof.
    intros X. set (f := fun x => if x =? j then j else if x =? i then nth j r 0 else nth x r 0).
    change (nth x skip 0 = f x). unfold skip. fold f. rewrite (nth_indep _ 0 (f 0)) by (rewrite map_length, seq_length; auto).
    rewrite map_nth, seq_nth; auto.
  Qed.

  Lemma skip_swapped : swapped r skip i j.
  Proof.
    pose proof Hj as J. unfold swapped. rewrite length_skip. splits; auto.
    - rewrite !(nth_error_nth' _ 0) by (rewrite ?length_skip; auto). rewrite nth_skip by auto.
      destruct (Nat.eqb_spec i j); [congruence|]. rewrite Nat.eqb_refl. reflexivity.
    - rewrite !(nth_error_nth' _ 0) by (rewrite ?length_skip; auto). rewrite nth_skip by auto. rewrite Nat.eqb_refl. congruence.
    - intros k K1 K2. destruct (Nat.ltb_spec k (length r)) as [K|K].
      + rewrite !(nth_error_nth' _ 0) by (rewrite ?length_skip; auto). rewrite nth_skip by auto.
        destruct (Nat.eqb_spec k j); [congruence|]. destruct (Nat.eqb_spec k i); [congruence|]. reflexivity.
      + rewrite !(proj2 (nth_error_None _ k)); auto. rewrite length_skip; auto.
  Qed.

  Lemma skip_valid : valid_row skip.
  Proof.
    pose proof Hj as J. apply valid_row_iff. rewrite length_skip. splits.
    - intros E. pose proof length_skip as L. rewrite E in L. cbn in L. lia.
    - apply (swaps_to_NoDup r 1); [apply V|]. econstructor; [|apply skip_swapped|constructor]. auto.
    - apply Forall_forall. intros x X. unfold skip in X. apply in_map_iff in X as (y & <- & Y). apply in_seq in Y.
      destruct (y =? j); auto. destruct (y =? i); apply vnth; auto; lia.
  Qed.

  Lemma skip_sgn : sgn r = negb (sgn skip).
  Proof. apply (sgn_swap r skip i j); auto using skip_swapped. apply V. Qed.

  Lemma skip_home : not_home skip < not_home r.
  Proof.
    pose proof Hj as J. unfold not_home. rewrite length_skip. apply (filter_length_lt _ _ _ j).
    - intros x X H. apply in_seq in X. rewrite nth_skip in H by lia.
      destruct (Nat.eqb_spec x j) as [->|D]; [rewrite Nat.eqb_refl in H; discriminate|].
      destruct (Nat.eqb_spec x i) as [->|D']; auto. rewrite Hr. destruct (Nat.eqb_spec j i); [congruence|reflexivity].
    - apply in_seq. lia.
    - rewrite nth_skip, !Nat.eqb_refl by auto. reflexivity.
    - destruct (Nat.eqb_spec (nth j r 0) j) as [E|]; auto. exfalso. apply Hn. apply (vinj r); auto. congruence.
  Qed.

  Lemma skip_to_r x y : x < length r -> same_cycle skip x y -> same_cycle r x y.
  Proof.
    intros X (k & <-). revert x X. induction k as [|k IH]; intros x X; [apply same_refl|].
    replace (S k) with (k + 1) by lia. rewrite follow_add. cbn [follow].
    assert (S1 : same_cycle r x (nth x skip 0)).
    { rewrite nth_skip by auto. destruct (Nat.eqb_spec x j) as [->|]; [apply same_refl|].
      destruct (Nat.eqb_spec x i) as [->|]; [exists 2; cbn; rewrite Hr; auto|exists 1; auto]. }
    eapply same_trans; [exact S1|]. apply IH. rewrite <- length_skip. apply vnth; [apply skip_valid|rewrite length_skip; auto].
  Qed.

  Lemma r_to_skip x y : x < length r -> x <> j -> y <> j -> same_cycle r x y -> same_cycle skip x y.
  Proof.
    intros X Nx Ny (k & E). revert x X Nx E. induction k as [k IH] using lt_wf_ind. intros x X Nx E.
    pose proof Hj as J.
    destruct k as [|k]; [cbn in E; subst; apply same_refl|].
    assert (Q : forall a n, follow r (S n) a = follow r n (nth a r 0)).
    { intros a n. replace (S n) with (n + 1) by lia. rewrite follow_add. reflexivity. }
    rewrite Q in E. destruct (Nat.eq_dec x i) as [->|D].
    - rewrite Hr in E. destruct k as [|k]; [cbn in E; congruence|]. rewrite Q in E.
      apply (same_trans skip i (nth j r 0)).
      + exists 1. cbn. rewrite nth_skip by auto. destruct (Nat.eqb_spec i j); [congruence|]. rewrite Nat.eqb_refl. reflexivity.
      + apply (IH k); auto; [apply vnth; auto|]. intros F. apply Hn. apply (vinj r); auto. congruence.
    - apply (same_trans skip x (nth x r 0)).
      + exists 1. cbn. rewrite nth_skip by auto. destruct (Nat.eqb_spec x j); [congruence|]. destruct (Nat.eqb_spec x i); [congruence|reflexivity].
      + apply (IH k); auto; [apply vnth; auto|]. intros F. apply D. apply (vinj r); auto. congruence.
  Qed.

  Lemma skip_fixed y : same_cycle skip j y -> y = j.
  Proof.
    intros (k & <-). induction k as [|k IH]; auto. cbn. rewrite IH, nth_skip, Nat.eqb_refl; auto. apply Hj.
  Qed.

  Lemma skip_reps reps : one_of_each_cycle r reps ->
    exists reps', one_of_each_cycle skip reps' /\ length reps' = S (length reps).
  Proof.
    intros (N & R & C & U). pose proof Hj as J. pose proof skip_valid as Vs.
    set (m := fun x => if x =? j then i else x).
    assert (Mj : forall x, m x <> j). { intros x. unfold m. destruct (Nat.eqb_spec x j); congruence. }
    assert (Ml : forall x, In x reps -> m x < length r). { intros x X. unfold m. destruct (x =? j); auto. }
    assert (Ms : forall x, In x reps -> same_cycle r x (m x)).
    { intros x X. unfold m. destruct (Nat.eqb_spec x j) as [->|]; [|apply same_refl]. apply same_sym; auto. exists 1; auto. }
    assert (Mi : forall x y, In x reps -> In y reps -> same_cycle r (m x) (m y) -> x = y).
    { intros x y X Y S. apply U; auto. eapply same_trans; [apply Ms; auto|]. eapply same_trans; [exact S|].
      apply same_sym; auto. }
    exists (j :: map m reps). split; [|cbn; rewrite map_length; auto].
    unfold one_of_each_cycle. rewrite length_skip. splits.
    - constructor.
      + intros H. apply in_map_iff in H as (x & E & _). apply (Mj x); auto.
      + apply NoDup_map_inj; auto. intros x y X Y E. apply Mi; auto. rewrite E. apply same_refl.
    - intros x [<-|H]; auto. apply in_map_iff in H as (y & <- & Y). auto.
    - intros b B. destruct (Nat.eq_dec b j) as [->|D]; [exists j; split; [left; auto|apply same_refl]|].
      destruct (C b B) as (x & X & S). exists (m x). split; [right; apply in_map; auto|].
      apply r_to_skip; auto. eapply same_trans; [|exact S]. apply same_sym; auto.
    - intros x y [<-|X] [<-|Y] S; auto.
      + apply skip_fixed in S. auto.
      + assert (S' : same_cycle skip j x).
        { apply same_sym; auto. rewrite length_skip. apply in_map_iff in X as (z & <- & Z). auto. }
        apply skip_fixed in S'. auto.
      + apply in_map_iff in X as (x' & <- & X). apply in_map_iff in Y as (y' & <- & Y). f_equal. apply Mi; auto.
        apply skip_to_r; auto.
  Qed.
End Skip.

Lemma reps_le r reps : one_of_each_cycle r reps -> length reps <= length r.
Proof.
  intros (N & R & _). rewrite <- (seq_length (length r) 0). apply NoDup_incl_length; auto.
  intros x X. apply in_seq. specialize (R x X). lia.
Qed.

Lemma home_rounds r : not_home r = 0 -> r = seq 0 (length r).
Proof.
  intros H. apply (nth_ext _ _ 0 0); [rewrite seq_length; auto|]. intros x X. rewrite seq_nth by auto.
  destruct (Nat.eq_dec (nth x r 0) x) as [|D]; auto. exfalso.
  unfold not_home in H. apply length_zero_iff_nil in H.
  assert (I : In x (filter (fun i => negb (nth i r 0 =? i)) (seq 0 (length r)))).
  { apply filter_In. split; [apply in_seq; lia|]. destruct (Nat.eqb_spec (nth x r 0) x); [congruence|reflexivity]. }
  rewrite H in I. destruct I.
Qed.

Lemma sgn_cycles r reps : valid_row r -> one_of_each_cycle r reps -> sgn r = Nat.odd (length r - length reps).
Proof.
  remember (not_home r) as h eqn:Eh. revert r reps Eh. induction h as [h IH] using lt_wf_ind. intros r reps Eh V O.
  pose proof (reps_le r reps O) as Le.
  destruct (Nat.eq_dec h 0) as [Z|Z].
  - subst h. pose proof (home_rounds r Z) as E.
    assert (L : length reps = length r).
    { apply Nat.le_antisymm; auto. rewrite <- (seq_length (length r) 0) at 1. apply NoDup_incl_length; [apply seq_NoDup|].
      intros x X. apply in_seq in X. destruct O as (_ & R & C & _). destruct (C x ltac:(lia)) as (y & Y & k & S).
      assert (F : forall k, follow r k y = y).
      { induction k0 as [|k0 IHk]; auto. cbn. rewrite IHk, E, seq_nth; auto. }
      rewrite F in S. subst. auto. }
    rewrite L, Nat.sub_diag. rewrite E. apply sgn_rounds.
  - assert (X : exists i, i < length r /\ nth i r 0 <> i).
    { destruct (filter (fun i => negb (nth i r 0 =? i)) (seq 0 (length r))) as [|i l] eqn:F.
      - exfalso. apply Z. rewrite Eh. unfold not_home. rewrite F. reflexivity.
      - assert (I : In i (i :: l)) by (left; auto). rewrite <- F in I. apply filter_In in I as [I1 I2]. apply in_seq in I1.
        exists i. split; [lia|]. destruct (Nat.eqb_spec (nth i r 0) i); [discriminate|auto]. }
    destruct X as (i & Hi & Hn). set (j := nth i r 0) in *.
    destruct (skip_reps r i j V Hi eq_refl Hn reps O) as (reps' & O' & L').
    pose proof (skip_valid r i j V Hi eq_refl Hn) as V'.
    rewrite (skip_sgn r i j V Hi eq_refl Hn).
    rewrite (IH (not_home (skip r i j))) with (reps := reps'); auto.
    + rewrite length_skip, L'. pose proof (reps_le _ _ O') as Le'. rewrite length_skip, L' in Le'.
      replace (length r - length reps) with (S (length r - S (length reps))) by lia. rewrite Nat.odd_succ, <- Nat.negb_odd. reflexivity.
    + rewrite Eh. apply skip_home; auto.
Qed.

Lemma follow_mod r b c k : cycle_length r b c -> follow r k b = follow r (k mod c) b.
Proof.
  intros (P & E & _). rewrite (Nat.div_mod k c) at 1 by lia.
  rewrite Nat.add_comm, follow_add, Nat.mul_comm, follow_mul; auto.
Qed.

Lemma same_dec r x y : valid_row r -> x < length r -> same_cycle r x y \/ ~ same_cycle r x y.
Proof.
  intros V X. destruct (cycle_exists r x V X) as (c & C).
  destruct (in_dec Nat.eq_dec y (map (fun k => follow r k x) (seq 0 c))) as [I|I].
  - left. apply in_map_iff in I as (k & <- & _). exists k. auto.
  - right. intros (k & E). apply I. rewrite (follow_mod r x c k C) in E. subst. apply in_map_iff. exists (k mod c). split; auto.
    apply in_seq. destruct C as (P & _). pose proof (Nat.mod_upper_bound k c). lia.
Qed.

Lemma reps_exist r : valid_row r -> exists reps, one_of_each_cycle r reps.
Proof.
  intros V.
  assert (H : forall m, m <= length r -> exists reps, NoDup reps /\ (forall x, In x reps -> x < length r) /\
    (forall b, b < m -> exists x, In x reps /\ same_cycle r x b) /\ (forall x y, In x reps -> In y reps -> same_cycle r x y -> x = y)).
  { induction m as [|m IH]; intros L.
    - exists []. splits; [constructor|intros x []|intros; lia|intros x y []].
    - destruct IH as (reps & N & R & C & U); [lia|].
      assert (D : (exists x, In x reps /\ same_cycle r x m) \/ (forall x, In x reps -> ~ same_cycle r x m)).
      { clear N C U. induction reps as [|x reps IH]; [right; intros x []|].
        destruct (same_dec r x m V (R x (or_introl eq_refl))) as [S|S]; [left; exists x; split; [left; auto|auto]|].
        destruct IH as [(y & Y & Sy)|H]; [intros; apply R; right; auto|left; exists y; split; [right; auto|auto]|].
        right. intros y [<-|Y]; auto. }
      destruct D as [(x & X & S)|D].
      + exists reps. splits; auto. intros b B. destruct (Nat.eq_dec b m) as [->|]; [eauto|]. apply C. lia.
      + exists (m :: reps). splits.
        * constructor; auto. intros I. apply (D m I). apply same_refl.
        * intros x [<-|X]; auto.
        * intros b B. destruct (Nat.eq_dec b m) as [->|]; [exists m; split; [left; auto|apply same_refl]|].
          destruct (C b ltac:(lia)) as (x & X & S). exists x. split; [right; auto|auto].
        * intros x y [<-|X] [<-|Y] S; auto; exfalso.
          -- apply (D y Y). apply same_sym; auto.
          -- apply (D x X S). }
  apply (H (length r)). auto.
Qed.

Lemma closure_from_rounds_loop_mono r : forall f last l f', closure_from_rounds_loop f r last = Ret l -> f <= f' -> closure_from_rounds_loop f' r last = Ret l.
Proof.
  induction f as [|f IH]; intros last l f' E L; cbn [closure_from_rounds_loop] in E; [discriminate|].
  destruct f' as [|f']; [lia|]. cbn [closure_from_rounds_loop].
  destruct (mul_unchecked last r) as [nx| | |]; cbn [bind] in *; try discriminate. destruct (is_rounds nx); auto.
  destruct (closure_from_rounds_loop f r nx) as [t| | |] eqn:C; cbn [bind] in *; try discriminate.
  rewrite (IH nx t f' C) by lia. exact E.
Qed.

Lemma closure_from_rounds_result n r f l : vrow n r -> closure_from_rounds f r = Ret l ->
  exists k, 0 < k /\ rpow r k = row_rounds n /\ (forall j, 0 < j < k -> rpow r j <> row_rounds n) /\ l = map (rpow r) (seq 0 k).
Proof.
  intros V E. destruct (closure_ok n r V) as (k & P & R & M & _ & C). exists k. splits; auto.
  pose proof (C (S (k + f)) ltac:(lia)) as C'. unfold closure_from_rounds in *. destruct (row_stage r) as [s| | |]; try discriminate. cbn [bind] in *.
  rewrite (closure_from_rounds_loop_mono r f _ l (S (k + f)) E) in C' by lia. congruence.
Qed.
