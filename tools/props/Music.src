(** Property theorems C52 to C58 (regexes, runs, counting). *)
(*IMPORTS*)
From Verif Require Import Base Bell Stage Row Utils Block Music Mask Spec SpecMask ListFacts BellFacts RowFacts MulFacts
  SsvFacts MaskFacts MaskFacts2 MusicFacts MusicFacts2 MusicFacts3.
Local Open Scope list_scope.
(*BODY*)
(** C52: [normalise] never panics, preserves the described bell sequences, reaches a normal form, keeps
    the bells in order, the number of wildcards, and adds no glob. *)
Theorem C52_normalise :
  forall es, exists es', normalise es = Ret es' /\
    (forall l, described es' l <-> described es l) /\ normal_form es' /\
    bells_written es' = bells_written es /\ count_any es' = count_any es /\ count_glob es' <= count_glob es.
Proof.
  intros es. exists (norm es 0 false). splits.
  - apply normalise_ok.
  - intros l. apply norm_described.
  - apply nf_spec, nf_norm.
  - apply norm_bells.
  - apply norm_any.
  - apply norm_glob.
Qed.

(** C52: it is idempotent: it leaves normal forms alone. *)
Theorem C52_idempotent :
  forall es, (normal_form es -> normalise es = Ret es) /\
    (forall es', normalise es = Ret es' -> normalise es' = Ret es').
Proof.
  intros es. assert (K : forall es, normal_form es -> normalise es = Ret es).
  { intros e H. rewrite normalise_ok. f_equal. apply (norm_id e 0), nf_spec, H. }
  split; auto. intros es' H. apply K. rewrite normalise_ok in H. injection H as <-. apply nf_spec, nf_norm.
Qed.

Example C52_witness :
  normalise [RBell 0; RGlob; RAny; RGlob; RGlob; RAny; RGlob; RGlob] = Ret [RBell 0; RAny; RAny; RGlob] /\
  regex_parse (s2l "*x1**4.*") = Ret [RAny; RGlob; RBell 0; RGlob; RBell 3; RAny; RGlob] /\
  normal_form [RAny; RGlob; RBell 0].
Proof. splits; try (vm_compute; reflexivity). apply nf_spec. cbn. auto. Qed.

(** C53: for a regex built from any elements, [matches] is true exactly on the rows which the elements as
    given describe; it never panics. *)
Theorem C53_matches :
  forall es r, valid_row r ->
    exists es' v, regex_from_vec es = Ret es' /\ regex_matches es' r = Ret v /\ (v = true <-> described es r).
Proof.
  intros es r V. unfold regex_from_vec. rewrite normalise_ok.
  destruct (regex_matches_ok (norm es 0 false) r (nf_norm _ _ _) (valid_row_NoDup _ V)) as (v & E & H).
  exists (norm es 0 false), v. splits; auto. rewrite H. apply norm_described.
Qed.

(** C53: the same for a regex parsed from text: [x] and [.] are any one bell, [*] any sequence, a bell
    name that bell, other chars mean nothing. *)
Theorem C53_parsed :
  forall t es r, valid_row r -> regex_text t es ->
    exists es' v, regex_parse t = Ret es' /\ regex_matches es' r = Ret v /\ (v = true <-> described es r).
Proof.
  intros t es r V T. apply regex_text_ok in T. unfold regex_parse. rewrite T. apply pf_C53_matches; auto.
Qed.

(** C53: every text denotes exactly one list of elements. *)
Theorem C53_text_meaning :
  forall t, exists es, forall es', regex_text t es' <-> es' = es.
Proof. intros t. exists (filter_map regex_char t). intros es'. rewrite regex_text_ok. split; auto. Qed.

Example C53_witness :
  exists es es', regex_text (s2l "*5678*") es /\ regex_parse (s2l "*5678*") = Ret es' /\
    regex_matches es' [0; 4; 5; 6; 7; 1; 2; 3] = Ret true /\ described es [0; 4; 5; 6; 7; 1; 2; 3] /\
    regex_matches es' [0; 4; 5; 7; 6; 1; 2; 3] = Ret false /\ valid_row [0; 4; 5; 6; 7; 1; 2; 3].
Proof.
  assert (V : valid_row [0; 4; 5; 6; 7; 1; 2; 3]) by vr.
  assert (T : regex_text (s2l "*5678*") [RGlob; RBell 4; RBell 5; RBell 6; RBell 7; RGlob]) by (apply regex_text_ok; vm_compute; reflexivity).
  destruct (pf_C53_parsed _ _ _ V T) as (es' & v & E1 & E2 & H).
  assert (E : regex_parse (s2l "*5678*") = Ret [RGlob; RBell 4; RBell 5; RBell 6; RBell 7; RGlob]) by (vm_compute; reflexivity).
  rewrite E1 in E. injection E as ->.
  assert (v = true) as -> by (vm_compute in E2; congruence).
  exists [RGlob; RBell 4; RBell 5; RBell 6; RBell 7; RGlob], [RGlob; RBell 4; RBell 5; RBell 6; RBell 7; RGlob].
  splits; auto; try (vm_compute; reflexivity). apply H; auto.
Qed.

(** C54: [match_pattern] returns [Some] exactly when the row matches, and then the ascending list of the
    places of the regex's bells, in the order they are written. *)
Theorem C54_match_pattern :
  forall es r, valid_row r ->
    exists es' o, regex_from_vec es = Ret es' /\ match_pattern es' r = Ret o /\
      forall ps, o = Some ps <->
        described es r /\ ascending ps /\ Forall2 (fun p b => nth_error r p = Some b) ps (bells_written es).
Proof.
  intros es r V. unfold regex_from_vec. rewrite normalise_ok.
  destruct (match_pattern_ok (norm es 0 false) r (nf_norm _ _ _) (valid_row_NoDup _ V)) as (o & E & H).
  exists (norm es 0 false), o. splits; auto. intros ps. rewrite H, norm_described, norm_bells. reflexivity.
Qed.

(** C54: so [Some] is returned exactly on the matching rows. *)
Theorem C54_match_pattern_some :
  forall es r, valid_row r -> described es r ->
    exists es' ps, regex_from_vec es = Ret es' /\ match_pattern es' r = Ret (Some ps) /\
      ascending ps /\ Forall2 (fun p b => nth_error r p = Some b) ps (bells_written es).
Proof.
  intros es r V D. unfold regex_from_vec. rewrite normalise_ok.
  destruct (regex_run_row (norm es 0 false) r (nf_norm _ _ _) (valid_row_NoDup _ V)) as (v & ms & E & H & P).
  exists (norm es 0 false), ms. assert (v = true) as -> by (apply H, norm_described, D).
  destruct (P eq_refl) as [A F]. rewrite norm_bells in F. splits; auto. unfold match_pattern. rewrite E. reflexivity.
Qed.

Example C54_witness :
  exists es, regex_parse (s2l "*1x2x3x4*") = Ret es /\
    match_pattern es [9; 8; 0; 10; 1; 6; 2; 5; 3; 4; 11; 7] = Ret (Some [2; 4; 6; 8]) /\
    match_pattern es [9; 8; 0; 10; 1; 6; 2; 5; 4; 3; 11; 7] = Ret None /\
    valid_row [9; 8; 0; 10; 1; 6; 2; 5; 3; 4; 11; 7].
Proof. eexists. splits; try (vm_compute; reflexivity). vr. Qed.

(** C55: runs at the front. *)
Theorem C55_runs_front :
  forall r len, valid_row r ->
    (forall es, In es (runs_front (length r) len) -> exists v, regex_matches es r = Ret v) /\
    ((exists es, In es (runs_front (length r) len) /\ regex_matches es r = Ret true) <-> run_at r 0 len).
Proof.
  intros r len V. pose proof (valid_row_NoDup _ V) as N. split.
  - intros es Hes. apply runs_front_nf in Hes. destruct (regex_matches_ok es r Hes N) as (v & E & _). eauto.
  - destruct (le_lt_dec len (length r)) as [L|L].
    + rewrite run_segment by (auto; lia). split.
      * intros (es & Hes & M). pose proof (runs_front_nf _ _ _ Hes) as F. destruct (regex_matches_ok es r F N) as (v & E & D).
        rewrite M in E. injection E as <-. pose proof (proj1 D eq_refl) as D'. apply In_runs_front in Hes as (i & Li & Hes); auto.
        destruct Hes as [-> | ->]; apply described_bells in D' as (t & Et & _); exists i, [], t; splits; auto.
      * intros (i & pre & post & Li & Lp & Er). destruct pre; [|discriminate Lp]. cbn [app] in Er.
        destruct Er as [Er|Er].
        -- exists (map RBell (seq i len) ++ [RGlob]). assert (Hin : In (map RBell (seq i len) ++ [RGlob]) (runs_front (length r) len)) by (apply In_runs_front; eauto).
           split; auto. destruct (regex_matches_ok _ r (runs_front_nf _ _ _ Hin) N) as (v & E & D). rewrite E. f_equal. apply D, described_bells.
           exists post. split; [auto|apply described_globend].
        -- exists (map RBell (rev (seq i len)) ++ [RGlob]). assert (Hin : In (map RBell (rev (seq i len)) ++ [RGlob]) (runs_front (length r) len)) by (apply In_runs_front; eauto).
           split; auto. destruct (regex_matches_ok _ r (runs_front_nf _ _ _ Hin) N) as (v & E & D). rewrite E. f_equal. apply D, described_bells.
           exists post. split; [auto|apply described_globend].
    + split.
      * intros (es & Hes & _). exfalso. unfold runs_front in Hes. destruct (Nat.ltb_spec (length r) len); [destruct Hes|lia].
      * intros [[K _]|[K _]]; exfalso; lia.
Qed.

(** C55: runs at the back. *)
Theorem C55_runs_back :
  forall r len, valid_row r ->
    (forall es, In es (runs_back (length r) len) -> exists v, regex_matches es r = Ret v) /\
    (len <= length r ->
     ((exists es, In es (runs_back (length r) len) /\ regex_matches es r = Ret true) <-> run_at r (length r - len) len)) /\
    (length r < len -> runs_back (length r) len = []).
Proof.
  intros r len V. pose proof (valid_row_NoDup _ V) as N. splits.
  - intros es Hes. apply runs_back_nf in Hes. destruct (regex_matches_ok es r Hes N) as (v & E & _). eauto.
  - intros L. rewrite run_segment by (auto; lia). split.
    + intros (es & Hes & M). pose proof (runs_back_nf _ _ _ Hes) as F. destruct (regex_matches_ok es r F N) as (v & E & D).
      rewrite M in E. injection E as <-. pose proof (proj1 D eq_refl) as D'. apply In_runs_back in Hes as (i & Li & Hes); auto.
      destruct Hes as [-> | ->]; [rewrite <- (app_nil_r (map RBell (seq i len))) in D'|rewrite <- (app_nil_r (map RBell (rev (seq i len)))) in D'];
        apply described_glob_bells in D' as (pre & t & Et & T); apply described_nil_inv in T as ->; exists i, pre, []; splits; auto;
        rewrite Et, !app_length, ?rev_length, seq_length; cbn; lia.
    + intros (i & pre & post & Li & Lp & Er).
      assert (post = []) as ->.
      { destruct post; auto. exfalso. assert (length r = length pre + len + S (length post)); [|lia].
        destruct Er as [-> | ->]; rewrite !app_length, ?rev_length, seq_length; cbn; lia. }
      rewrite !app_nil_r in Er. destruct Er as [Er|Er].
      * exists (RGlob :: map RBell (seq i len)). assert (Hin : In (RGlob :: map RBell (seq i len)) (runs_back (length r) len)) by (apply In_runs_back; eauto).
        split; auto. destruct (regex_matches_ok _ r (runs_back_nf _ _ _ Hin) N) as (v & E & D). rewrite E. f_equal. apply D.
        rewrite <- (app_nil_r (map RBell (seq i len))). apply described_glob_bells. exists pre, []. rewrite app_nil_r. split; [auto|constructor].
      * exists (RGlob :: map RBell (rev (seq i len))). assert (Hin : In (RGlob :: map RBell (rev (seq i len))) (runs_back (length r) len)) by (apply In_runs_back; eauto).
        split; auto. destruct (regex_matches_ok _ r (runs_back_nf _ _ _ Hin) N) as (v & E & D). rewrite E. f_equal. apply D.
        rewrite <- (app_nil_r (map RBell (rev (seq i len)))). apply described_glob_bells. exists pre, []. rewrite app_nil_r. split; [auto|constructor].
  - intros L. unfold runs_back. destruct (Nat.ltb_spec (length r) len); [auto|lia].
Qed.

(** C55: runs anywhere, of at least one bell. *)
Theorem C55_all_runs_partial :
  forall r len, valid_row r -> 0 < len ->
    (forall es, In es (all_runs (length r) len) -> exists v, regex_matches es r = Ret v) /\
    ((exists es, In es (all_runs (length r) len) /\ regex_matches es r = Ret true) <-> exists p, run_at r p len).
Proof.
  intros r len V P. pose proof (valid_row_NoDup _ V) as N. split.
  - intros es Hes. apply all_runs_nf in Hes; auto. destruct (regex_matches_ok es r Hes N) as (v & E & _). eauto.
  - destruct (le_lt_dec len (length r)) as [L|L].
    + split.
      * intros (es & Hes & M). pose proof (all_runs_nf _ _ _ P Hes) as F. destruct (regex_matches_ok es r F N) as (v & E & D).
        rewrite M in E. injection E as <-. pose proof (proj1 D eq_refl) as D'. apply In_all_runs in Hes as (i & Li & Hes); auto.
        destruct Hes as [-> | ->]; apply described_glob_bells in D' as (pre & t & Et & _); exists (length pre);
          apply run_segment; auto; try (exists i, pre, t; splits; auto);
          rewrite Et, !app_length, ?rev_length, seq_length; lia.
      * intros (p & R). assert (Lp : p + len <= length r) by (destruct R as [[K _]|[K _]]; auto).
        apply run_segment in R as (i & pre & post & Li & Lpre & Er); auto. destruct Er as [Er|Er].
        -- exists (RGlob :: map RBell (seq i len) ++ [RGlob]). assert (Hin : In (RGlob :: map RBell (seq i len) ++ [RGlob]) (all_runs (length r) len)) by (apply In_all_runs; eauto).
           split; auto. destruct (regex_matches_ok _ r (all_runs_nf _ _ _ P Hin) N) as (v & E & D). rewrite E. f_equal. apply D, described_glob_bells.
           exists pre, post. split; [auto|apply described_globend].
        -- exists (RGlob :: map RBell (rev (seq i len)) ++ [RGlob]). assert (Hin : In (RGlob :: map RBell (rev (seq i len)) ++ [RGlob]) (all_runs (length r) len)) by (apply In_all_runs; eauto).
           split; auto. destruct (regex_matches_ok _ r (all_runs_nf _ _ _ P Hin) N) as (v & E & D). rewrite E. f_equal. apply D, described_glob_bells.
           exists pre, post. split; [auto|apply described_globend].
    + split.
      * intros (es & Hes & _). exfalso. unfold all_runs in Hes. destruct (Nat.ltb_spec (length r) len); [destruct Hes|lia].
      * intros (p & [[K _]|[K _]]); exfalso; lia.
Qed.

(** C55 is false for [all_runs] of length zero: every regex it makes has two adjacent globs, and matching
    it panics on every row. *)
Theorem C55_all_runs_zero_refuted :
  forall s r, 0 < s -> all_runs s 0 <> [] /\ forall es, In es (all_runs s 0) -> regex_matches es r = Panic.
Proof.
  intros s r Hs. split.
  - intros K. assert (In (RGlob :: map RBell (seq 0 0) ++ [RGlob]) (all_runs s 0)) as H by (apply In_all_runs; [lia|exists 0; split; [lia|auto]]).
    rewrite K in H. destruct H.
  - intros es Hes. apply In_all_runs in Hes as (i & _ & [-> | ->]); [reflexivity|reflexivity|lia].
Qed.

(** C55: [runs] and [runs_front_or_back] gather them. *)
Theorem C55_runs :
  forall s len es,
    (In es (regex_runs s len true) <-> In es (all_runs s len)) /\
    (In es (regex_runs s len false) <-> In es (runs_front s len) \/ In es (runs_back s len)) /\
    (In es (runs_front_or_back s len) <-> In es (runs_front s len) \/ In es (runs_back s len)).
Proof. intros s len es. unfold regex_runs, runs_front_or_back. rewrite in_app_iff. tauto. Qed.

Example C55_witness :
  run_at [4; 5; 6; 7; 0; 3; 1; 2] 0 4 /\ run_at [2; 1; 0; 7; 6; 3; 5; 4] 2 1 /\ ~ run_at [0; 2; 1; 3] 0 3 /\
  valid_row [4; 5; 6; 7; 0; 3; 1; 2] /\
  (exists es, In es (runs_front 8 4) /\ regex_matches es [4; 5; 6; 7; 0; 3; 1; 2] = Ret true) /\
  length (all_runs 8 4) = 10.
Proof.
  assert (V : valid_row [4; 5; 6; 7; 0; 3; 1; 2]) by vr.
  assert (R : run_at [4; 5; 6; 7; 0; 3; 1; 2] 0 4).
  { left. split; [cbn; lia|]. intros j x y J. do 3 (destruct j as [|j]; [cbn; congruence|]). lia. }
  splits; auto.
  - left. split; [cbn; lia|]. intros; lia.
  - intros [[_ K]|[_ K]]; [specialize (K 0 0 2 ltac:(lia) eq_refl eq_refl)|specialize (K 0 0 2 ltac:(lia) eq_refl eq_refl)]; lia.
  - apply (proj2 (pf_C55_runs_front _ 4 V)), R.
Qed.

(** C56 (missing: regexes with two or more globs, or with two or more wildcards, for which the formula of
    the code is wrong, and overflow in the last multiplication, which panics: see the refutations). *)
Theorem C56_num_matching_rows_partial :
  forall w es s, (0 < w)%N -> 0 < s -> NoDup (bells_written es) -> Forall (fun b => b < s) (bells_written es) ->
    (count_glob es = 1 /\ count_any es <= 1 /\ length (bells_written es) + count_any es <= s) \/
    (count_glob es = 0 /\ count_any es <= 1 /\ length (bells_written es) + count_any es = s) ->
    exists n, there_are n (fun r => valid_row r /\ length r = s /\ described es r) /\
      ((N.of_nat n < 2 ^ w)%N -> num_matching_rows w es s = Ret (Some (N.of_nat n))) /\
      ((2 ^ w <= N.of_nat n)%N -> num_matching_rows w es s = Ret None \/ num_matching_rows w es s = Panic) /\
      ((2 ^ w <= N.of_nat n)%N -> count_any es = 0 -> num_matching_rows w es s = Ret None).
Proof.
  intros w es s Hw Hs N F C. set (u := s - length (bells_written es)).
  assert (P : (1 < 2 ^ w)%N) by (apply N.pow_gt_1; lia).
  assert (L : length (bells_written es) + count_any es <= s) by lia.
  assert (G : fact (count_glob es - 1) = 1) by (destruct C as [(-> & _)|(-> & _)]; reflexivity).
  exists (fact u). split.
  { destruct C as [(C1 & C2 & C3)|(C1 & C2 & C3)].
    - apply count_one_glob; auto.
    - replace u with (count_any es) by (unfold u; lia). apply count_no_glob; auto. }
  rewrite num_matching_value by auto. cbv zeta. fold u. rewrite G. change (N.of_nat 1) with 1%N.
  destruct (N.ltb_spec 1 (2 ^ w)) as [_|]; [|lia]. rewrite N.div_1_r.
  assert (I : count_any es = 0 \/ count_any es = 1) by (destruct C as [(_ & C & _)|(_ & C & _)]; lia).
  destruct I as [I|I]; rewrite I.
  - rewrite binomial_0, Nat.sub_0_r, Nat.add_0_r. change (fact (Nat.min 0 u)) with 1. change (N.of_nat (1 * 1)) with 1%N. change (N.of_nat 1) with 1%N.
    destruct (N.ltb_spec 1 (2 ^ w)) as [_|]; [|lia]. rewrite N.mul_1_l.
    destruct (N.ltb_spec (N.of_nat (fact u)) (2 ^ w)); splits; auto; try lia.
  - assert (U : 1 <= u) by (unfold u; lia). rewrite Nat.sub_diag, Nat.add_0_r.
    assert (B : binomial u 1 = u) by (clear; induction u as [|u IH]; auto; cbn [binomial]; rewrite binomial_0, IH; lia).
    assert (FU : fact u = u * fact (u - 1)) by (replace u with (S (u - 1)) at 1 by lia; cbn [fact]; replace (S (u - 1)) with u by lia; nia).
    rewrite B. assert (M : fact (Nat.min 1 (u - 1)) = 1) by (destruct (u - 1); reflexivity). rewrite M, Nat.mul_1_r.
    rewrite FU, Nat2N.inj_mul. pose proof (fact_pos (u - 1)).
    splits.
    + intros K. destruct (N.ltb_spec (N.of_nat u) (2 ^ w)); [|nia]. destruct (N.ltb_spec (N.of_nat (fact (u - 1))) (2 ^ w)); [|nia].
      destruct (N.ltb_spec (N.of_nat u * N.of_nat (fact (u - 1))) (2 ^ w)); [auto|lia].
    + intros K. destruct (N.ltb _ _); auto. destruct (N.ltb _ _); auto.
      destruct (N.ltb_spec (N.of_nat u * N.of_nat (fact (u - 1))) (2 ^ w)); [lia|auto].
    + discriminate.
Qed.

(** C56 is false: with no glob and two or more wildcards the answer is never the number of matching
    rows. *)
Theorem C56_wildcards_refuted :
  forall w es s, (0 < w)%N -> 0 < s -> NoDup (bells_written es) -> Forall (fun b => b < s) (bells_written es) ->
    count_glob es = 0 -> 2 <= count_any es -> length (bells_written es) + count_any es = s ->
    there_are (fact (count_any es)) (fun r => valid_row r /\ length r = s /\ described es r) /\
    forall n, num_matching_rows w es s = Ret (Some n) -> n <> N.of_nat (fact (count_any es)).
Proof.
  intros w es s Hw Hs N F G I L. split; [apply count_no_glob; auto|]. intros n H E.
  rewrite num_matching_value in H by (auto; lia). cbv zeta in H. rewrite G in H.
  replace (s - length (bells_written es)) with (count_any es) in H by lia.
  rewrite binomial_nn, Nat.sub_diag in H. change (fact (0 - 1)) with 1 in H. rewrite Nat.add_0_l in H.
  change (N.of_nat 1) with 1%N in H. rewrite N.div_1_r, N.mul_1_l in H.
  repeat match type of H with context [N.ltb ?a ?b] => destruct (N.ltb a b) end; try discriminate. injection H as <-. apply Nat2N.inj in E.
  remember (count_any es) as i. destruct i as [|i]; [lia|]. cbn [fact] in E. replace (S i - 1) with i in E by lia.
  pose proof (fact_pos i). nia.
Qed.

(** C56 is false: two globs are miscounted; more wildcards than free bells panic although no row matches;
    so do more bells than the stage has; and [x*] on 21 bells panics where [None] is promised. *)
Theorem C56_other_refuted :
  num_matching_rows 64 [RGlob; RBell 0; RGlob] 2 = Ret (Some 1%N) /\
  (there_are 2 (fun r => valid_row r /\ length r = 2 /\ described [RGlob; RBell 0; RGlob] r)) /\
  num_matching_rows 64 [RAny; RAny; RAny] 2 = Panic /\
  (forall r, length r = 2 -> ~ described [RAny; RAny; RAny] r) /\
  num_matching_rows 64 [RBell 0; RBell 1; RBell 2] 2 = Panic /\
  num_matching_rows 64 [RAny; RGlob] 21 = Panic.
Proof.
  splits; try (vm_compute; reflexivity).
  - exists [[0; 1]; [1; 0]]. splits; auto.
    + repeat constructor; cbn; intuition discriminate.
    + intros r. split.
      * intros [<-|[<-|[]]]; splits; auto; try vr; apply (described_glob_bells [0] [RGlob]); [exists [], [1]|exists [1], []]; split; auto; apply described_globend.
      * intros (V & L & _). destruct r as [|x [|y [|z r]]]; try discriminate L. pose proof (valid_row_Forall _ V) as F. pose proof (valid_row_NoDup _ V) as N.
        inversion F as [|? ? Hx F2]; subst. inversion F2 as [|? ? Hy _]; subst. cbn in Hx, Hy.
        inversion N as [|? ? K _]; subst. cbn in K.
        destruct x as [|[|x]]; try lia; destruct y as [|[|y]]; try lia; cbn; auto; exfalso; apply K; auto.
  - intros r L D. do 3 (apply described_any_inv in D as (? & ? & -> & D)). cbn in L. lia.
Qed.

Example C56_witness :
  num_matching_rows 64 [RGlob; RBell 4; RBell 5; RBell 6; RBell 7] 8 = Ret (Some 24%N) /\
  num_matching_rows 64 [RAny; RAny] 2 = Ret (Some 1%N) /\ num_matching_rows 64 [RGlob] 21 = Ret None /\
  there_are 24 (fun r => valid_row r /\ length r = 8 /\ described [RGlob; RBell 4; RBell 5; RBell 6; RBell 7] r).
Proof.
  splits; try (vm_compute; reflexivity).
  destruct (pf_C56_num_matching_rows_partial 64 [RGlob; RBell 4; RBell 5; RBell 6; RBell 7] 8) as (n & H & E & _ & _); try lia.
  - cbn. repeat constructor; cbn; intuition discriminate.
  - cbn. repeat constructor.
  - left. cbn. lia.
  - pose proof (count_one_glob [RGlob; RBell 4; RBell 5; RBell 6; RBell 7] 8) as K. cbn [bells_written length] in K.
    change (fact (8 - 4)) with 24 in K. apply K; cbn; auto; try lia; repeat constructor; cbn; intuition discriminate.
Qed.

(** C56, for any number of globs and wildcards: how many rows a regex in normal form matches.  With
    [u] bells not written, [x] wildcards and [g] globs there are [u!] orders of those bells for each way
    to share the [u - x] places left over among the globs.  With no glob there must be none left over. *)
Theorem C56_how_many_rows_match :
  forall es s, 0 < s -> normal_form es ->
    (NoDup (bells_written es) -> Forall (fun b => b < s) (bells_written es) ->
     forall u x, u + length (bells_written es) = s -> x = count_any es ->
       (forall g left, count_glob es = S g -> left + x = u ->
          there_are (fact u * binomial (left + g) g) (fun r => valid_row r /\ length r = s /\ described es r)) /\
       (count_glob es = 0 -> u = x -> there_are (fact u) (fun r => valid_row r /\ length r = s /\ described es r)) /\
       (count_glob es = 0 -> x < u -> there_are 0 (fun r => valid_row r /\ length r = s /\ described es r))) /\
    (~ NoDup (bells_written es) \/ ~ Forall (fun b => b < s) (bells_written es) \/
       s < length (bells_written es) + count_any es ->
     there_are 0 (fun r => valid_row r /\ length r = s /\ described es r)).
Proof.
  intros es s Hs F. apply nf_spec in F. split.
  - intros N B u x Hu ->. splits.
    + intros g left G L. pose proof (count_normal es s Hs F N B ltac:(lia)) as C. rewrite G in C. cbn [shares] in C.
      replace (s - length (bells_written es)) with u in C by lia. replace (u - count_any es) with left in C by lia. exact C.
    + intros G E. pose proof (count_normal es s Hs F N B ltac:(lia)) as C. rewrite G in C.
      replace (s - length (bells_written es)) with u in C by lia. replace (u - count_any es) with 0 in C by lia.
      cbn [shares] in C. rewrite Nat.mul_1_r in C. exact C.
    + intros G E. pose proof (count_normal es s Hs F N B ltac:(lia)) as C. rewrite G in C.
      replace (s - length (bells_written es)) with u in C by lia.
      destruct (u - count_any es) as [|k] eqn:K; [lia|]. cbn [shares] in C. rewrite Nat.mul_0_r in C. exact C.
  - intros H. apply there_are_none. intros r (V & L & D). apply described_has in D as (D1 & D2 & D3).
    pose proof (valid_row_NoDup _ V) as N. destruct H as [H|[H|H]]; [auto| |lia].
    apply H. apply Forall_forall. intros b Hb. pose proof (valid_row_Forall _ V) as B. rewrite Forall_forall in B. rewrite <- L. auto.
Qed.

(** C56: with no overflow, the answer for a regex with exactly one glob is right exactly when it has at
    most one wildcard or just one bell is left for the glob. *)
Theorem C56_one_glob_right_exactly_when_partial :
  forall w es s n a, (0 < w)%N -> 0 < s -> normal_form es -> NoDup (bells_written es) -> Forall (fun b => b < s) (bells_written es) ->
    count_glob es = 1 -> length (bells_written es) + count_any es <= s ->
    there_are n (fun r => valid_row r /\ length r = s /\ described es r) ->
    num_matching_rows w es s = Ret (Some a) ->
    (a = N.of_nat n <-> count_any es <= 1 \/ length (bells_written es) + count_any es + 1 = s).
Proof.
  intros w es s n a Hw Hs F N B G L C A.
  assert (n = fact (s - length (bells_written es))) as ->.
  { eapply there_are_unique; [exact C|]. apply count_one_glob; auto. }
  rewrite num_matching_value in A by auto. cbv zeta in A. rewrite G in A.
  change (fact (1 - 1)) with 1 in A. change (N.of_nat 1) with 1%N in A. rewrite N.div_1_r, <- Nat2N.inj_mul in A.
  repeat match type of A with context [N.ltb ?a ?b] => destruct (N.ltb a b) end; try discriminate. injection A as <-.
  rewrite Nat2N.inj_iff, one_glob_right by lia. lia.
Qed.

(** C56: what the code answers for every regex that is not too long for the stage: the product below if no
    step overflows, [None] if a factorial or the binomial does, and a panic if only the product does.  It
    panics on every regex that is too long. *)
Theorem C56_what_is_answered :
  forall w es s u x g, (0 < w)%N -> x = count_any es -> g = count_glob es ->
    (length (bells_written es) + u = s -> x <= u ->
     forall p, p = binomial u x * (fact (u - x + (x - 1)) / fact (g - 1)) ->
     ((N.of_nat (binomial u x * fact (Nat.min x (u - x))) < 2 ^ w)%N /\ (N.of_nat (fact (u - x + (x - 1))) < 2 ^ w)%N /\
        (N.of_nat (fact (g - 1)) < 2 ^ w)%N ->
      ((N.of_nat p < 2 ^ w)%N -> num_matching_rows w es s = Ret (Some (N.of_nat p))) /\
      ((2 ^ w <= N.of_nat p)%N -> num_matching_rows w es s = Panic)) /\
     ((2 ^ w <= N.of_nat (binomial u x * fact (Nat.min x (u - x))))%N \/ (2 ^ w <= N.of_nat (fact (u - x + (x - 1))))%N \/
        (2 ^ w <= N.of_nat (fact (g - 1)))%N -> num_matching_rows w es s = Ret None)) /\
    (s < length (bells_written es) + x -> num_matching_rows w es s = Panic).
Proof.
  intros w es s u x g Hw -> ->. split.
  - intros Hu Hx p ->. rewrite num_matching_value by (auto; lia). cbv zeta. replace (s - length (bells_written es)) with u by lia.
    rewrite !Nat2N.inj_mul, Nat2N.inj_div. split.
    + intros (A & B & C).
      apply N.ltb_lt in A, B, C. rewrite A, B, C. split; intros D; [apply N.ltb_lt in D|apply N.ltb_ge in D]; rewrite D; reflexivity.
    + intros H. rewrite !N.le_ngt, <- !N.ltb_lt, !not_true_iff_false in H.
      destruct H as [H|[H|H]]; rewrite H; repeat match goal with |- context [N.ltb ?a ?b] => destruct (N.ltb a b) end; auto.
  - intros L. unfold num_matching_rows. rewrite count_elems_ok. destruct (Nat.leb_spec (length (bells_written es)) s); [|reflexivity].
    cbn [bind]. rewrite !Nat.add_0_l. rewrite choice_panic by lia. reflexivity.
Qed.

Example C56_how_many_witness :
  normal_form [RGlob; RBell 0; RAny; RGlob] /\
  there_are 18 (fun r => valid_row r /\ length r = 4 /\ described [RGlob; RBell 0; RAny; RGlob] r) /\
  num_matching_rows 64 [RGlob; RBell 0; RAny; RGlob] 4 = Ret (Some 6%N) /\
  num_matching_rows 64 [RBell 0; RAny; RAny; RGlob] 4 = Ret (Some 6%N) /\
  num_matching_rows 64 [RBell 0; RAny; RAny; RGlob] 5 = Ret (Some 36%N) /\
  there_are 24 (fun r => valid_row r /\ length r = 5 /\ described [RBell 0; RAny; RAny; RGlob] r).
Proof.
  assert (F : normal_form [RGlob; RBell 0; RAny; RGlob]) by (apply nf_spec; cbn; auto).
  assert (F' : normal_form [RBell 0; RAny; RAny; RGlob]) by (apply nf_spec; cbn; auto).
  splits; auto; try (vm_compute; reflexivity).
  - destruct (pf_C56_how_many_rows_match _ 4 ltac:(lia) F) as [K _].
    destruct (K ltac:(repeat constructor; cbn; intuition) ltac:(repeat constructor) 3 1 eq_refl eq_refl) as [K' _].
    exact (K' 1 2 eq_refl eq_refl).
  - destruct (pf_C56_how_many_rows_match _ 5 ltac:(lia) F') as [K _].
    destruct (K ltac:(repeat constructor; cbn; intuition) ltac:(repeat constructor) 4 2 eq_refl eq_refl) as [K' _].
    exact (K' 0 2 eq_refl eq_refl).
Qed.

(** C57: [choice] is the binomial coefficient whenever the product of the numerator fits in a machine
    word, [None] otherwise; it never panics for [k <= n] (so the unchecked denominator never overflows). *)
Theorem C57_choice :
  forall w n k, (0 < w)%N -> k <= n ->
    ((N.of_nat (binomial n k * fact (Nat.min k (n - k))) < 2 ^ w)%N ->
       choice w (N.of_nat n) (N.of_nat k) = Ret (Some (N.of_nat (binomial n k)))) /\
    ((2 ^ w <= N.of_nat (binomial n k * fact (Nat.min k (n - k))))%N -> choice w (N.of_nat n) (N.of_nat k) = Ret None).
Proof.
  intros w n k Hw H. rewrite choice_ok by auto. destruct (N.ltb_spec (N.of_nat (binomial n k * fact (Nat.min k (n - k)))) (2 ^ w)); split; auto; lia.
Qed.

(** C57: Pascal's triangle counts selections: [n! = C(n,k) k! (n-k)!]; and [k > n] panics. *)
Theorem C57_binomial :
  forall n k, (k <= n -> binomial n k * (fact k * fact (n - k)) = fact n) /\
    (n < k -> binomial n k = 0 /\ forall w, choice w (N.of_nat n) (N.of_nat k) = Panic).
Proof.
  intros n k. split; [apply binomial_fact|]. intros H. split; [apply binomial_gt; auto|]. intros w. apply choice_panic; auto.
Qed.

Example C57_witness :
  choice 64 52 5 = Ret (Some 2598960%N) /\ choice 64 100 50 = Ret None /\ binomial 6 3 = 20 /\ choice 8 6 3 = Ret (Some 20%N) /\
  choice 64 3 5 = Panic.
Proof. splits; vm_compute; reflexivity. Qed.

(** C58 (missing: the empty sequence, see [C58_run_len_empty_refuted]). *)
Theorem C58_run_len_partial :
  forall l, l <> [] -> stepwise_prefix l (run_len l) /\ forall n, stepwise_prefix l n -> n <= run_len l.
Proof. exact run_len_ok. Qed.

(** C58 is false of an empty sequence of bells: the answer is one. *)
Theorem C58_run_len_empty_refuted :
  run_len [] = 1 /\ forall n, stepwise_prefix [] n -> n = 0.
Proof. split; [reflexivity|]. intros n [L _]. cbn in L. lia. Qed.

Example C58_witness :
  run_len [3; 4; 5; 4; 2; 1] = 4 /\ run_len [0] = 1 /\ stepwise_prefix [3; 4; 5; 4; 2; 1] 4.
Proof.
  splits; try reflexivity. pose proof (proj1 (pf_C58_run_len_partial [3; 4; 5; 4; 2; 1] ltac:(discriminate))) as H. exact H.
Qed.

(** C70: displaying a regex and parsing it again gives the same regex (for bells with a one-char name). *)
Theorem C70_parse_of_display :
  forall es, Forall (fun b => b < 33) (bells_written es) ->
    regex_text (regex_display es) es /\ (normal_form es -> regex_parse (regex_display es) = Ret es).
Proof.
  intros es F. pose proof (regex_display_parse es F) as E. split; [apply regex_text_ok; auto|].
  intros H. unfold regex_parse. rewrite E. apply pf_C52_idempotent; auto.
Qed.

Example C70_witness :
  regex_display [RGlob; RBell 4; RAny; RBell 11] = s2l "*5xT" /\ normal_form [RGlob; RBell 4; RAny; RBell 11] /\
  regex_parse (s2l "*5xT") = Ret [RGlob; RBell 4; RAny; RBell 11].
Proof. splits; try (vm_compute; reflexivity). apply nf_spec; cbn; auto. Qed.
