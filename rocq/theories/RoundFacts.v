(** Lemmas for C146: round blocks of two kinds of leads. *)
From Verif Require Import Base Bell Stage Parity Row Spec SpecCycle ListFacts BellFacts RowFacts MulFacts ParityFacts GroupFacts LawFacts2 CycleFacts.
Local Open Scope list_scope.

Lemma table_exists (R : nat -> nat -> Prop) N : (forall i, i < N -> exists j, R i j) -> exists l, length l = N /\ forall i, i < N -> R i (nth i l 0).
Proof.
  intros H. induction N as [|N IH]; [exists []; split; auto; lia|].
  destruct IH as (l & L & P); [intros; apply H; lia|]. destruct (H N ltac:(lia)) as (j & J). exists (l ++ [j]). split; [rewrite app_length; cbn; lia|].
  intros i Hi. destruct (Nat.eq_dec i N) as [->|Ne]; [rewrite app_nth2, L, Nat.sub_diag by lia; auto|rewrite app_nth1 by lia; apply P; lia].
Qed.

Lemma vrow_table N l : 0 < N -> length l = N -> (forall i, i < N -> nth i l 0 < N) -> (forall i j, i < N -> j < N -> nth i l 0 = nth j l 0 -> i = j) -> vrow N l.
Proof.
  intros Hn L B I. split; auto. apply valid_row_iff. rewrite L. split; [destruct l; cbn in L; [lia|discriminate]|]. split.
  - apply (NoDup_nth l 0). rewrite L. auto.
  - apply Forall_forall. intros x X. apply (In_nth _ _ 0) in X as (i & Hi & <-). apply B. lia.
Qed.

Lemma sgn_rpow n r k : vrow n r -> sgn (rpow r k) = if Nat.odd k then sgn r else false.
Proof.
  intros V. induction k as [|k IH]; cbn [rpow]; [rewrite rounds_seq; apply sgn_rounds|].
  rewrite (sgn_rmul n), IH by auto using vrow_rpow. rewrite Nat.odd_succ, <- Nat.negb_odd. destruct (Nat.odd k), (sgn r); auto.
Qed.

Lemma flat_len {X Y} (f : X -> list Y) d l : (forall x, length (f x) = d) -> length (flat_map f l) = length l * d.
Proof. intros H. induction l; cbn [flat_map length]; auto. rewrite app_length, H, IHl. lia. Qed.

Lemma flat_nodup {X Y} (f : X -> list Y) l : NoDup l -> (forall x, In x l -> NoDup (f x)) -> (forall x y z, In x l -> In y l -> In z (f x) -> In z (f y) -> x = y) -> NoDup (flat_map f l).
Proof.
  induction 1 as [|x l Nx _ IH]; intros H D; [constructor|]. cbn [flat_map]. apply NoDup_app_intro; [apply H; cbn; auto|apply IH|].
  - intros; apply H; cbn; auto.
  - intros a b z A B; apply D; cbn; auto.
  - intros z Z Z'. apply in_flat_map in Z' as (y & Y' & Z'). assert (x = y) by (eapply D; cbn; eauto). subst. auto.
Qed.

(** All cycles of the same length. *)
Lemma equal_cycles r reps d : valid_row r -> 0 < d -> (forall b, b < length r -> cycle_length r b d) -> one_of_each_cycle r reps -> length r = length reps * d.
Proof.
  intros V D C (Nd & B & Cov & U). rewrite <- (flat_len (fun x => map (fun k => follow r k x) (seq 0 d)) d) by (intros; rewrite map_length, seq_length; auto).
  rewrite <- (seq_length (length r) 0) at 1. apply Permutation_length, NoDup_Permutation; [apply seq_NoDup| |].
  - apply flat_nodup; auto.
    + intros x X. apply NoDup_map_inj; [|apply seq_NoDup]. intros i j I J E. apply in_seq in I, J. destruct (C x (B x X)) as (_ & _ & M).
      assert (G : forall i j, i < j < d -> follow r i x <> follow r j x).
      { intros a b Hab Q. apply (M (b - a)); [lia|]. symmetry. apply (follow_inj r a); auto; [apply follow_lt; auto|]. rewrite <- follow_add. replace (a + (b - a)) with b by lia. auto. }
      destruct (Nat.lt_trichotomy i j) as [L|[L|L]]; auto; exfalso; [apply (G i j)|apply (G j i)]; auto; lia.
    + intros x y z X Y Z Z'. apply in_map_iff in Z as (i & <- & _), Z' as (j & E & _). apply U; auto. apply (same_trans r x (follow r i x) y); [exists i; auto|].
      apply same_sym; auto. exists j. auto.
  - intros b. rewrite in_seq, in_flat_map. split.
    + intros Hb. destruct (Cov b ltac:(lia)) as (x & X & k & <-). exists x. split; auto. apply in_map_iff. exists (k mod d). split.
      * symmetry. apply follow_mod. auto.
      * apply in_seq. pose proof (Nat.mod_upper_bound k d ltac:(lia)). lia.
    + intros (x & X & I). apply in_map_iff in I as (k & <- & _). split; [lia|]. apply follow_lt; auto.
Qed.

Section Circuit.
  Context (n N d e : nat) (h : nat -> row) (p b : row) (call : nat -> bool).
  Hypothesis HN : 0 < N.
  Hypothesis Vp : vrow n p.
  Hypothesis Vb : vrow n b.
  Hypothesis Vh : forall i, i < N -> vrow n (h i).
  Hypothesis Hinj : forall i j, i < N -> j < N -> h i = h j -> i = j.
  Hypothesis Step : forall i, i < N -> h (S i mod N) = rmul (h i) (if call i then b else p).
  Hypothesis Closed : forall i, i < N -> exists j, j < N /\ h j = rmul (h i) p.
  Hypothesis Hd : 0 < d.
  Hypothesis Pd : rpow p d = row_rounds n.
  Hypothesis Pm : forall j, 0 < j < d -> rpow p j <> row_rounds n.
  Hypothesis Qe : rpow (rmul b (rinv p)) e = row_rounds n.
  Hypothesis Oe : Nat.odd e = true.

  Lemma back_cancel i k : i < N -> rmul (h i) (rpow p k) = h i -> rpow p k = row_rounds n.
  Proof.
    intros Hi E. apply (rmul_cancel_l n (h i)); auto using vrow_rpow.
    - apply valid_rounds. rewrite <- (proj2 Vp). apply valid_row_pos, Vp.
    - rewrite E. symmetry. apply rmul_rounds_r. apply Vh; auto.
  Qed.

  Lemma circuit : exists c, Nat.Odd c /\ N = c * d.
  Proof.
    destruct (table_exists (fun i j => j < N /\ h j = rmul (h i) p) N Closed) as (P & LP & HP).
    assert (VP : vrow N P).
    { apply vrow_table; auto; [intros i Hi; apply HP; auto|]. intros i j Hi Hj E. apply Hinj; auto. apply (rmul_cancel_r n p); auto.
      rewrite <- (proj2 (HP i Hi)), <- (proj2 (HP j Hj)), E. auto. }
    set (G := map (fun i => S i mod N) (seq 0 N)).
    assert (NG : forall i, i < N -> nth i G 0 = S i mod N).
    { intros i Hi. unfold G. rewrite (nth_indep _ 0 (S 0 mod N)) by (rewrite map_length, seq_length; auto). rewrite (map_nth (fun i => S i mod N)), seq_nth by auto. auto. }
    assert (LG : length G = N) by (unfold G; rewrite map_length, seq_length; auto).
    assert (MS : forall i, i < N -> S i mod N = if S i =? N then 0 else S i).
    { intros i Hi. destruct (Nat.eqb_spec (S i) N) as [->|Ne]; [apply Nat.mod_same; lia|apply Nat.mod_small; lia]. }
    assert (VG : vrow N G).
    { apply vrow_table; auto.
      - intros i Hi. rewrite NG by auto. apply Nat.mod_upper_bound. lia.
      - intros i j Hi Hj. rewrite !NG, !MS by auto. destruct (Nat.eqb_spec (S i) N), (Nat.eqb_spec (S j) N); lia. }
    (* the whole block is one cycle *)
    assert (SG : sgn G = Nat.odd (N - 1)).
    { rewrite (sgn_cycles G [0]); [rewrite LG; auto|apply VG|]. split; [repeat constructor; intros []|]. rewrite LG. split; [intros x [<-|[]]; auto|]. split.
      - intros x Hx. exists 0. split; [cbn; auto|]. exists x. induction x as [|x IH]; cbn [follow]; auto. rewrite IH, NG, MS by lia. destruct (Nat.eqb_spec (S x) N); auto; lia.
      - intros x y [<-|[]] [<-|[]]; auto. }
    (* the cycles of the plain leads *)
    assert (FP : forall k i, i < N -> follow P k i < N /\ h (follow P k i) = rmul (h i) (rpow p k)).
    { induction k as [|k IH]; intros i Hi; cbn [follow rpow].
      - split; auto. rewrite (proj2 Vp). symmetry. apply rmul_rounds_r, Vh. auto.
      - destruct (IH i Hi) as [B E]. destruct (HP _ B) as [B' E']. split; auto. rewrite E', E. apply (rmul_assoc_vrow n); auto using vrow_rpow. }
    destruct (reps_exist P (proj1 VP)) as (reps & R).
    assert (CP : N = length reps * d).
    { rewrite <- LP. apply equal_cycles; auto; [apply VP|]. rewrite LP. intros i Hi. split; auto. split.
      - apply Hinj; auto; [apply FP; auto|]. rewrite (proj2 (FP d i Hi)), Pd. apply rmul_rounds_r, Vh. auto.
      - intros j Hj E. apply (Pm j Hj). apply (back_cancel i); auto. rewrite <- (proj2 (FP j i Hi)), E. auto. }
    pose proof (sgn_cycles P reps (proj1 VP) R) as SP. rewrite LP in SP.
    (* what the calls change *)
    set (T := rmul (rinv P) G). assert (VT : vrow N T) by (apply valid_rmul; auto; apply valid_rinv; auto).
    assert (ET : rmul P T = G).
    { unfold T. rewrite <- (rmul_assoc_vrow N), (rmul_rinv_r N) by auto using valid_rinv. apply rmul_rounds_l_vrow; auto. }
    set (q := rmul b (rinv p)) in *. assert (Vq : vrow n q) by (apply valid_rmul; auto; apply valid_rinv; auto).
    assert (Eq : rmul q p = b).
    { unfold q. rewrite (rmul_assoc_vrow n), (rmul_rinv_l n) by auto using valid_rinv. apply rmul_rounds_r. apply Vb. }
    assert (NT : forall i, i < N -> nth i T 0 < N /\ nth (nth i T 0) P 0 = S i mod N).
    { intros i Hi. split; [pose proof (vnth T i (proj1 VT)) as X; rewrite (proj2 VT) in X; auto|].
      rewrite <- nth_rmul, ET by (rewrite (proj2 VT); auto). auto. }
    assert (HT : forall i, i < N -> h (nth i T 0) = rmul (h i) (if call i then q else row_rounds n)).
    { intros i Hi. destruct (NT i Hi) as [B E]. pose proof (proj2 (HP _ B)) as E1. rewrite E, Step in E1 by auto.
      apply (rmul_cancel_r n p); auto.
      - apply valid_rmul; auto. destruct (call i); auto. apply valid_rounds. rewrite <- (proj2 Vp). apply valid_row_pos, Vp.
      - rewrite <- E1. destruct (call i); [rewrite (rmul_assoc_vrow n), Eq by auto; auto|]. rewrite rmul_rounds_r; auto. apply Vh; auto. }
    assert (Kt : forall i, i < N -> call i = true -> call (nth i T 0) = true \/ nth i T 0 = i).
    { intros i Hi C. destruct (NT i Hi) as [B E]. destruct (call (nth i T 0)) eqn:C'; auto. right. apply (vinj T); rewrite ?(proj2 VT); auto; [apply VT|].
      apply Hinj; auto; [apply NT; auto|]. rewrite (HT _ B), C'. apply rmul_rounds_r. apply Vh; auto. }
    assert (FT : forall k i, i < N -> follow T k i < N /\ (call i = false -> follow T k i = i) /\
               (call i = true -> h (follow T k i) = rmul (h i) (rpow q k) /\ (call (follow T k i) = true))).
    { intros k i Hi. induction k as [|k (B & I1 & I2)]; cbn [follow rpow].
      - split; auto. split; auto. intros C. split; auto. rewrite (proj2 Vq). symmetry. apply rmul_rounds_r, Vh. auto.
      - split; [apply NT; auto|]. split.
        + intros C. rewrite I1 by auto. apply Hinj; auto; [apply NT; auto|]. rewrite HT, C by auto. apply rmul_rounds_r, Vh. auto.
        + intros C. destruct (I2 C) as [E C1]. split.
          * rewrite HT, C1, E by auto. apply (rmul_assoc_vrow n); auto using vrow_rpow.
          * destruct (Kt _ B C1) as [X|X]; auto. rewrite X. auto. }
    assert (TE : rpow T e = row_rounds N).
    { rewrite <- (proj2 VT). apply rpow_rounds_follow; [apply VT|]. rewrite (proj2 VT). intros i Hi. destruct (FT e i Hi) as (B & I1 & I2).
      destruct (call i); auto. apply Hinj; auto. rewrite (proj1 (I2 eq_refl)), Qe. apply rmul_rounds_r, Vh. auto. }
    assert (ST : sgn T = false).
    { pose proof (sgn_rpow N T e VT) as E. rewrite TE, Oe, rounds_seq, sgn_rounds in E. auto. }
    exists (length reps). split; auto.
    rewrite <- ET, (sgn_rmul N), ST, xorb_false_r, SP in SG by auto. pose proof (reps_le P reps R) as Le. rewrite LP in Le.
    assert (0 < length reps) by (destruct reps; cbn in *; lia).
    apply Nat.odd_spec. rewrite !Nat.odd_sub in SG by lia. change (Nat.odd 1) with true in SG. destruct (Nat.odd N), (Nat.odd (length reps)); cbn in SG; congruence.
  Qed.
End Circuit.
