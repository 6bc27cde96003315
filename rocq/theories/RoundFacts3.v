(** Lemmas for C147: Plain Bob with plain leads and bobs only. *)
From Coq Require Import Factorial.
From Verif Require Import Base Spec SpecBlock SpecVec SpecPn SpecSym SpecHunt SpecCycle SpecRound ListFacts Row RowFacts MulFacts ParityFacts GroupFacts CycleFacts SameStageVec Block SsvFacts BlockFacts
  PlaceNot PnFacts PnFacts2 PnFacts3 LawFacts LawFacts2 TouchFacts SymFacts SymFacts2 SymFacts3 ShapeFacts HuntFacts BobFacts GrandsireFacts CalledBobFacts EvenFacts EvenBobFacts ConjFacts RoundFacts RoundFacts2.
Local Open Scope list_scope.

(** A round touch whose lead heads are all the even rows with the treble in front. *)
Section Full.
  Context (n : nat) (plain called : list place_not) (calls : list bool) (d e : nat).
  Hypothesis Hn : 3 <= n.
  Hypothesis Np : plain <> [].
  Hypothesis Fp : Forall (fun pn => legal pn /\ pn_stage pn = n) plain.
  Hypothesis Fc : Forall (fun pn => legal pn /\ pn_stage pn = n) called.
  Hypothesis Lc : length called = length plain.
  Hypothesis Nc : calls <> [].
  Let R := trow n plain called calls.
  Let p := head_of n plain plain.
  Let b := head_of n plain called.
  Hypothesis P0 : nth 0 p 0 = 0.
  Hypothesis B0 : nth 0 b 0 = 0.
  Hypothesis Sp : sgn p = false.
  Hypothesis Sb : sgn b = false.
  Hypothesis Round : R (length calls * length plain) = row_rounds n.
  Hypothesis Inj : forall i j, i < length calls -> j < length calls -> R (i * length plain) = R (j * length plain) -> i = j.
  Hypothesis Hd : 0 < d.
  Hypothesis Pd : rpow p d = row_rounds n.
  Hypothesis Pm : forall j, 0 < j < d -> rpow p j <> row_rounds n.
  Hypothesis Qe : rpow (rmul b (rinv p)) e = row_rounds n.
  Hypothesis Oe : Nat.odd e = true.

  Lemma full_heads k : k <= length calls -> nth 0 (R (k * length plain)) 0 = 0 /\ sgn (R (k * length plain)) = false.
  Proof.
    assert (H0 : 0 < n) by lia. pose proof (head_of_v n plain called H0 Np Fp Fc Lc) as V. pose proof (V false) as Vp. pose proof (V true) as Vb. cbn beta iota in Vp, Vb. fold p in Vp. fold b in Vb.
    induction k as [|k IH]; intros Hk.
    - change (0 * length plain) with 0. unfold R, trow. cbn [crs]. rewrite rounds_seq, sgn_rounds, seq_nth by lia. auto.
    - destruct (IH ltac:(lia)) as [I1 I2]. assert (VR : vrow n (R (k * length plain))) by (apply trow_v; auto).
      assert (E : R (S k * length plain) = rmul (R (k * length plain)) (head_of n plain (if nth k calls false then called else plain))) by (apply trow_head; auto; lia).
      rewrite E. destruct (nth k calls false); [fold b|fold p];
      (split; [rewrite nth_rmul by (rewrite ?(proj2 Vp), ?(proj2 Vb); lia)|rewrite (sgn_rmul n), I2 by auto; rewrite ?Sp, ?Sb; auto]).
      + rewrite B0. auto.
      + rewrite P0. auto.
  Qed.

  Lemma full_list : let hs := map (fun i => R (i * length plain)) (seq 0 (length calls)) in NoDup hs /\ Forall (vrow n) hs /\
    (forall r, In r hs -> nth_error r 0 = Some 0 /\ sgn r = false) /\ length hs = length calls.
  Proof.
    intros hs. assert (VR : forall t, vrow n (R t)) by (intros; apply trow_v; auto; lia). splits.
    - apply NoDup_map_inj; [|apply seq_NoDup]. intros i j I J. apply in_seq in I, J. apply Inj; lia.
    - apply Forall_forall. intros r I. apply in_map_iff in I as (i & <- & _). auto.
    - intros r I. apply in_map_iff in I as (i & <- & I). apply in_seq in I. destruct (full_heads i ltac:(lia)) as [X Y]. split; auto.
      rewrite (nth_error_nth' _ 0) by (rewrite (proj2 (VR _)); lia). f_equal. auto.
    - unfold hs. rewrite map_length, seq_length. auto.
  Qed.

  Lemma full_bound : 2 * length calls <= fact (n - 1).
  Proof. destruct full_list as (N & V & K & <-). apply even_rows_with_treble; auto. Qed.

  Lemma full_circuit : 2 * length calls = fact (n - 1) -> exists c, Nat.Odd c /\ length calls = c * d.
  Proof.
    intros Full. assert (H0 : 0 < n) by lia. destruct full_list as (N & V & K & L). set (hs := map (fun i => R (i * length plain)) (seq 0 (length calls))) in *.
    pose proof (head_of_v n plain called H0 Np Fp Fc Lc false) as Vp. cbn beta iota in Vp. fold p in Vp.
    apply (touch_circuit n plain called calls H0 Np Fp Fc Lc Nc d e); auto. fold R p. intros i Hi.
    assert (VR : forall t, vrow n (R t)) by (intros; apply trow_v; auto).
    set (x := rmul (R (i * length plain)) p). assert (Vx : vrow n x) by (apply valid_rmul; auto).
    destruct (in_dec (list_eq_dec Nat.eq_dec) x hs) as [I|I].
    - apply in_map_iff in I as (j & <- & I). apply in_seq in I. exists j. split; auto. lia.
    - exfalso. assert (B : 2 * length (x :: hs) <= fact (n - 1)).
      { apply even_rows_with_treble; auto; [constructor; auto|]. intros r' [<-|I']; auto. destruct (full_heads i ltac:(lia)) as [X Y]. split.
        - rewrite (nth_error_nth' _ 0) by (rewrite (proj2 Vx); auto). f_equal. unfold x. rewrite nth_rmul by (rewrite (proj2 Vp); auto). rewrite P0; auto.
        - unfold x. rewrite (sgn_rmul n), Y, Sp; auto. }
      cbn [length] in B. lia.
  Qed.
End Full.

(** ** Leads of Plain Bob *)

Lemma called_len n c : 0 < n -> length (called_lead n c) = 2 * n.
Proof. intros H. unfold called_lead. rewrite app_length, bob_body_len by auto. cbn [length]. lia. Qed.

Lemma called_head n c t : 2 <= n -> pn_transposition c = Ret t -> crs n (trof n (called_lead n c)) (2 * n) = rmul (lead_end_row n) t.
Proof.
  intros H E. destruct (leads_trof n [c] H ltac:(discriminate)) as [T1 T2]. cbn [map concat] in T1, T2. rewrite app_nil_r in T1, T2.
  replace (2 * n) with (S (2 * n - 1)) by lia. cbn [crs]. f_equal.
  - unfold lead_end_row, hrow. apply crs_ext. intros u Hu. apply (T1 0 u); cbn; lia.
  - specialize (T2 0 c eq_refl). change (0 * (2 * n) + (2 * n - 1)) with (2 * n - 1) in T2. rewrite T2, E. auto.
Qed.

Lemma first_from_twice n p : Nat.Even n -> p < n -> first_from n (first_from n p) = p.
Proof.
  intros [k K] H. destruct (parts_of p) as [[_ [m E]]|[_ [m E]]]; unfold first_from at 2.
  - rewrite E, even2. destruct (Nat.ltb_spec (2 * m + 1) n); [|lia]. unfold first_from. rewrite even21. lia.
  - rewrite E, even21. replace (2 * m + 1 - 1) with (2 * m) by lia. unfold first_from. rewrite even2. bools.
Qed.

Lemma first_from_ge n p : 4 <= p -> Nat.Even n -> p < n -> 4 <= first_from n p < n.
Proof.
  intros H [k K] L. destruct (parts_of p) as [[_ [m E]]|[_ [m E]]]; unfold first_from.
  - rewrite E, even2. bools.
  - rewrite E, even21. lia.
Qed.

Lemma end_nth n p : p < n -> nth p (map (end_from n) (seq 0 n)) 0 = end_from n p.
Proof. intros H. rewrite (nth_indep _ 0 (end_from n 0)) by (rewrite map_length, seq_length; auto). rewrite map_nth, seq_nth by auto. auto. Qed.

Definition three (n : nat) : row := rmul (bob_change n) (map (end_from n) (seq 0 n)).

Lemma three_nth n p : 4 <= n -> Nat.Even n -> p < n -> nth p (three n) 0 = if p =? 1 then 2 else if p =? 2 then 3 else if p =? 3 then 1 else p.
Proof.
  intros H Ev L. unfold three. rewrite nth_rmul by (rewrite map_length, seq_length; auto). rewrite end_nth by auto.
  destruct p as [|[|[|[|p]]]]; try reflexivity.
  - assert (E : end_from n 2 = 3) by (change (end_from n 2) with (if 3 <? n then 3 else 2); destruct (Nat.ltb_spec 3 n); [auto|lia]). rewrite E. reflexivity.
  - assert (E : end_from n (S (S (S (S p)))) = first_from n (S (S (S (S p))))) by reflexivity. rewrite E.
    pose proof (first_from_ge n (S (S (S (S p)))) ltac:(lia) Ev L) as G. unfold bob_change. rewrite change_tail by lia. rewrite first_from_twice by auto. reflexivity.
Qed.

Lemma three_cubed n : 4 <= n -> Nat.Even n -> vrow n (three n) -> rpow (three n) 3 = row_rounds n.
Proof.
  intros H Ev V. rewrite <- (proj2 V) at 2. apply rpow_rounds_follow; [apply V|]. rewrite (proj2 V). intros p Hp. cbn [follow].
  destruct p as [|[|[|[|p]]]].
  - do 3 (rewrite (three_nth n 0) by (auto; lia); cbn [Nat.eqb]). auto.
  - rewrite (three_nth n 1) by (auto; lia); cbn [Nat.eqb]. rewrite (three_nth n 2) by (auto; lia); cbn [Nat.eqb]. rewrite (three_nth n 3) by (auto; lia). auto.
  - rewrite (three_nth n 2) by (auto; lia); cbn [Nat.eqb]. rewrite (three_nth n 3) by (auto; lia); cbn [Nat.eqb]. rewrite (three_nth n 1) by (auto; lia). auto.
  - rewrite (three_nth n 3) by (auto; lia); cbn [Nat.eqb]. rewrite (three_nth n 1) by (auto; lia); cbn [Nat.eqb]. rewrite (three_nth n 2) by (auto; lia). auto.
  - do 3 (rewrite (three_nth n (S (S (S (S p))))) by (auto; lia); cbn [Nat.eqb]). auto.
Qed.

Lemma bob_difference n : 4 <= n -> vrow n (bob_change n) -> vrow n (map (end_from n) (seq 0 n)) ->
  rmul (map (end_from n) (seq 0 n)) (map (end_from n) (seq 0 n)) = row_rounds n ->
  rmul (rmul (lead_end_row n) (bob_change n)) (rinv (rmul (lead_end_row n) (map (end_from n) (seq 0 n)))) = cj (lead_end_row n) (three n).
Proof.
  intros H Vb Vp I. set (T := map (end_from n) (seq 0 n)) in *. set (E := lead_end_row n). assert (VE : vrow n E) by (apply hrow_v; lia).
  assert (Vx : vrow n (three n)) by (apply valid_rmul; auto).
  apply (rmul_cancel_r n (rmul E T)); auto using valid_rmul, valid_rinv.
  { apply (cj_vrow n E); auto. }
  rewrite (rmul_assoc_vrow n), (rmul_rinv_l n), rmul_rounds_r by (auto using valid_rinv, valid_rmul; apply valid_rmul; auto).
  unfold cj. rewrite (rmul_assoc_vrow n (rmul E (three n))) by auto using valid_rmul, valid_rinv.
  rewrite <- (rmul_assoc_vrow n (rinv E)), (rmul_rinv_l n), rmul_rounds_l_vrow by auto using valid_rmul, valid_rinv.
  unfold three. fold T. rewrite (rmul_assoc_vrow n), (rmul_assoc_vrow n (bob_change n)), I, rmul_rounds_r by (auto using valid_rmul; apply Vb). auto.
Qed.

(** Each of the changes swaps all but two of the bells. *)
Lemma two_places_sgn n c t : legal c -> pn_stage c = n -> 0 < n -> pn_transposition c = Ret t -> length (pn_places c) = 2 -> sgn t = Nat.odd ((n - 2) / 2).
Proof.
  intros L Sn Hn E P. destruct (pn_transposition_ok c L) as (t' & E' & V & R). rewrite E in E'. injection E' as <-. rewrite Sn in *.
  rewrite (sgn_change c _ _ n L Sn (valid_rounds n Hn) R), rounds_seq, sgn_rounds, P. destruct (Nat.odd _); auto.
Qed.

Lemma lead_end_sgn n : 2 <= n -> Nat.Even n -> sgn (lead_end_row n) = Nat.odd ((n - 2) / 2).
Proof.
  intros Hn Ev. assert (Hn0 : 0 < n) by lia.
  assert (E : rmul (hrow n (2 * n - 1)) (trof n (hunting n) (2 * n - 1)) = row_rounds n).
  { change (crs n (trof n (hunting n)) (S (2 * n - 1)) = row_rounds n). replace (S (2 * n - 1)) with (n * 2) by lia. apply (hunting_ends n Hn0). }
  assert (T : sgn (trof n (hunting n) (2 * n - 1)) = Nat.odd ((n - 2) / 2)).
  { destruct (trof_ok n (hunting n) Hn0 (hunting_nonempty n) (hunting_legal n Hn0) (2 * n - 1)) as (pn & Ep & R).
    change (length (hunting n)) with 2 in Ep. replace (2 * n - 1) with (1 + (n - 1) * 2) in Ep at 1 by lia. rewrite Nat.mod_add in Ep by lia. change (1 mod 2) with 1 in Ep.
    pose proof (hunting_legal n Hn0) as F. rewrite Forall_forall in F. destruct (F pn (nth_error_In _ _ Ep)) as [L Sn].
    rewrite (sgn_change pn _ _ n L Sn (valid_rounds n Hn0) R), rounds_seq, sgn_rounds. cbn [hunting nth_error] in Ep. injection Ep as <-. cbn [pn_stage pn_places].
    rewrite (proj2 (Nat.even_spec n) Ev). cbn [length]. destruct (Nat.odd _); auto. }
  assert (Vt : vrow n (trof n (hunting n) (2 * n - 1))) by (apply trof_v; auto using hunting_nonempty, hunting_legal).
  pose proof (sgn_rmul n _ _ (hrow_v n (2 * n - 1) Hn0) Vt) as Q. rewrite E, T, rounds_seq, sgn_rounds in Q. unfold lead_end_row.
  destruct (sgn (hrow n (2 * n - 1))), (Nat.odd ((n - 2) / 2)); auto.
Qed.

Lemma fact_quarter m : 4 <= m -> exists k, fact m = 4 * k.
Proof.
  induction m as [|m IH]; [lia|]. intros H. destruct (Nat.eq_dec m 3) as [->|]; [exists 6; auto|]. destruct IH as (k & K); [lia|].
  change (fact (S m)) with (S m * fact m). rewrite K. exists (S m * k). lia.
Qed.

Lemma full_arith K n f : 0 < n -> K * (2 * n) = n * f -> 2 * K = f.
Proof. intros H E. apply (Nat.mul_cancel_l _ _ n); lia. Qed.

Lemma full_odd c m k f x : 0 < x -> 2 * (c * x) = x * f -> f = 4 * k -> c = 2 * m + 1 -> False.
Proof. intros H E -> ->. assert (2 * (2 * m + 1) = 4 * k) by (apply (Nat.mul_cancel_l _ _ x); lia). lia. Qed.
