(** Property theorems C115: patterns read backwards, and with other bells. *)
(*IMPORTS*)
From Coq Require Import Permutation.
From Verif Require Import Base Bell Spec Stage Row Utils SameStageVec Block PlaceNot Mask Music SpecMask ListFacts BellFacts RowFacts MulFacts GroupFacts
  SsvFacts BlockFacts ClassFacts MusicFacts MusicFacts2 SymFacts SpecRuns RunFacts SpecRename RenameFacts.
Local Open Scope list_scope.
(*BODY*)

(** C115: a pattern matches a row exactly when the pattern read backwards matches the row read backwards (which is the
    row times backrounds); the bells it matches stand in the same places, counted from the back. *)
Theorem C115_backwards :
  forall es r, valid_row r ->
    exists es' fs' v places, regex_from_vec es = Ret es' /\ regex_from_vec (rev es) = Ret fs' /\
      row_mul r (row_backrounds (length r)) = Ret (rev r) /\
      regex_matches es' r = Ret v /\ regex_matches fs' (rev r) = Ret v /\
      match_pattern es' r = Ret places /\
      match_pattern fs' (rev r) = Ret (option_map (fun ps => rev (map (fun p => length r - 1 - p) ps)) places).
Proof.
  intros es r V. unfold regex_from_vec. rewrite !normalise_ok. pose proof (valid_row_NoDup _ V) as N.
  assert (N' : NoDup (rev r)) by (apply NoDup_rev; auto).
  destruct (matches_same es (rev es) r (rev r) N N' ltac:(symmetry; apply described_rev_iff)) as (v & E1 & E2).
  destruct (pattern_same es (rev es) r (rev r) (from_back (length r)) N N' ltac:(symmetry; apply described_rev_iff) ltac:(intros; apply from_back_ok; auto)) as (o & E3 & E4).
  exists (norm es 0 false), (norm (rev es) 0 false), v, o. splits; auto. apply rev_by_backrounds, vrow_intro; auto.
Qed.

(** C115: the same for the text of the pattern. *)
Theorem C115_texts_backwards :
  forall t r, valid_row r ->
    exists es fs v, regex_parse t = Ret es /\ regex_parse (rev t) = Ret fs /\
      regex_matches es r = Ret v /\ regex_matches fs (rev r) = Ret v.
Proof.
  intros t r V. assert (E : filter_map regex_char (rev t) = rev (filter_map regex_char t)).
  { assert (K : forall a b, filter_map regex_char (a ++ b) = filter_map regex_char a ++ filter_map regex_char b).
    { induction a as [|c a IH]; intros b; cbn; auto. rewrite IH. destruct (regex_char c); auto. }
    induction t as [|c t IH]; auto. cbn [rev]. rewrite K, IH. cbn. destruct (regex_char c); cbn; auto using app_nil_r. }
  unfold regex_parse. rewrite E. destruct (pf_C115_backwards (filter_map regex_char t) r V) as (es & fs & v & o & E1 & E2 & _ & E3 & E4 & _). eauto 8.
Qed.

(** C115: a pattern matches a row exactly when, with each bell of the pattern replaced by the bell in that place of
    some row [x], it matches the product of [x] and the row; the bells it matches stand in the same places. *)
Theorem C115_other_bells :
  forall x es fs r, valid_row x -> valid_row r -> length x = length r -> Forall2 (renamed x) es fs ->
    exists es' fs' y v places, regex_from_vec es = Ret es' /\ regex_from_vec fs = Ret fs' /\ row_mul x r = Ret y /\
      regex_matches es' r = Ret v /\ regex_matches fs' y = Ret v /\
      match_pattern es' r = Ret places /\ match_pattern fs' y = Ret places.
Proof.
  intros x es fs r Vx V L R. unfold regex_from_vec. rewrite !normalise_ok. pose proof (valid_row_NoDup _ V) as N. pose proof (valid_row_NoDup _ Vx) as Nx.
  assert (Hx : vrow (length r) x) by (split; auto). pose proof (vrow_intro r V) as Hr.
  assert (Vy : vrow (length r) (rmul x r)) by (apply valid_rmul; auto).
  assert (F : Forall (fun b => b < length x) r) by (rewrite L; apply Forall_forall; intros b Hb; apply V; auto).
  assert (D : described es r <-> described fs (rmul x r)) by (symmetry; apply (described_named_iff x); auto).
  destruct (matches_same es fs r (rmul x r) N (valid_row_NoDup _ (proj1 Vy)) D) as (v & E1 & E2).
  destruct (pattern_same es fs r (rmul x r) (fun l => l) N (valid_row_NoDup _ (proj1 Vy)) D) as (o & E3 & E4).
  { intros ms A P. split; auto. apply bells_named in R. clear - R P F. revert ms P.
    induction R as [|b c bs cs E R IH]; intros ms P; inversion P; subst; constructor; auto.
    unfold rmul. rewrite nth_error_map. match goal with K : nth_error r _ = Some b |- _ => rewrite K end. cbn. f_equal. apply nth_error_nth. auto. }
  exists (norm es 0 false), (norm fs 0 false), (rmul x r), v, o. splits; auto; [apply (row_mul_ok (length r)); auto|]. rewrite E4. destruct o; reflexivity.
Qed.

(** C115: neither changes the number of rows which [num_matching_rows] gives. *)
Theorem C115_counts :
  (forall es es' fs' w s, regex_from_vec es = Ret es' -> regex_from_vec (rev es) = Ret fs' ->
     num_matching_rows w fs' s = num_matching_rows w es' s) /\
  (forall x es fs es' fs' w s, Forall2 (renamed x) es fs -> regex_from_vec es = Ret es' -> regex_from_vec fs = Ret fs' ->
     num_matching_rows w fs' s = num_matching_rows w es' s).
Proof.
  unfold regex_from_vec. split.
  - intros es es' fs' w s. rewrite !normalise_ok. intros [= <-] [= <-]. apply count_same.
    + rewrite bells_rev, rev_length. reflexivity.
    + apply any_rev.
    + apply stars_rev.
  - intros x es fs es' fs' w s R. rewrite !normalise_ok. intros [= <-] [= <-]. destruct (named_shape x es fs R) as (H1 & H2 & H3).
    apply count_same; auto. apply H3.
Qed.

(** C115: a row has as many runs at the front as the row read backwards has at the back, and the other way round, and
    both have as many runs anywhere; and exchanging the first bell with the last, the second with the last but one and so
    on changes none of these numbers. *)
Theorem C115_runs :
  forall r len, valid_row r -> 0 < len ->
    length (matching (runs_front (length r) len) r) = length (matching (runs_back (length r) len) (rev r)) /\
    length (matching (runs_back (length r) len) r) = length (matching (runs_front (length r) len) (rev r)) /\
    length (matching (all_runs (length r) len) r) = length (matching (all_runs (length r) len) (rev r)) /\
    exists y, row_mul (row_backrounds (length r)) r = Ret y /\
      length (matching (runs_front (length r) len) y) = length (matching (runs_front (length r) len) r) /\
      length (matching (runs_back (length r) len) y) = length (matching (runs_back (length r) len) r) /\
      length (matching (all_runs (length r) len) y) = length (matching (all_runs (length r) len) r).
Proof.
  intros r len V Hl. pose proof (valid_row_NoDup _ V) as N. assert (N' : NoDup (rev r)) by (apply NoDup_rev; auto).
  pose proof (turned_by_backrounds (length r) r (vrow_intro r V)) as T.
  destruct (le_lt_dec len (length r)) as [L|L].
  - destruct (runs_rev (length r) len L) as (P1 & P2 & P3). destruct (runs_turn (length r) len L) as (Q1 & Q2 & Q3).
    assert (I : forall (ps : list (list regex_elem)) es, Permutation ps (map (@rev _) ps) -> In es ps -> In (rev es) ps).
    { intros ps es P H. eapply Permutation_in; [symmetry; exact P|]. apply in_map. auto. }
    split; [|split; [|split]].
    + apply (matching_by (@rev _)); auto. intros es H. splits.
      * apply (runs_front_nf (length r) len); auto.
      * apply (runs_back_nf (length r) len). eapply Permutation_in; [symmetry; exact P1|]. apply in_map. auto.
      * symmetry. apply described_rev_iff.
    + apply (matching_by (@rev _)); auto. intros es H. splits.
      * apply (runs_back_nf (length r) len); auto.
      * apply (runs_front_nf (length r) len). eapply Permutation_in; [symmetry; exact P2|]. apply in_map. auto.
      * symmetry. apply described_rev_iff.
    + apply (matching_by (@rev _)); auto. intros es H. splits.
      * apply (all_runs_nf (length r) len); auto.
      * apply (all_runs_nf (length r) len); auto.
      * symmetry. apply described_rev_iff.
    + exists (map (turn (length r)) r). split; auto.
      assert (Hb : 0 < length r) by lia. pose proof (valid_backrounds (length r) Hb) as Vb.
      assert (Ey : map (turn (length r)) r = rmul (row_backrounds (length r)) r).
      { rewrite (row_mul_ok (length r)) in T by auto using vrow_intro. congruence. }
      assert (Ny : NoDup (map (turn (length r)) r)).
      { rewrite Ey. apply valid_row_NoDup. apply (valid_rmul (length r)); auto using vrow_intro. }
      assert (K : forall es, Forall (fun b => b < length r) (bells_written es) -> (described es r <-> described (map (turned_elem (length r)) es) (map (turn (length r)) r))).
      { intros es F. rewrite Ey. symmetry. apply (described_named_iff (row_backrounds (length r))).
        - apply valid_row_NoDup, Vb.
        - apply turned_renamed; auto.
        - rewrite (proj2 Vb). apply Forall_forall. intros b B. apply V; auto. }
      splits; symmetry.
      * apply (matching_by (map (turned_elem (length r)))); auto. intros es H. splits.
        -- apply (runs_front_nf (length r) len); auto.
        -- apply (runs_front_nf (length r) len). eapply Permutation_in; [symmetry; exact Q2|]. apply in_map. auto.
        -- apply K. apply (runs_bells _ len); auto.
      * apply (matching_by (map (turned_elem (length r)))); auto. intros es H. splits.
        -- apply (runs_back_nf (length r) len); auto.
        -- apply (runs_back_nf (length r) len). eapply Permutation_in; [symmetry; exact Q1|]. apply in_map. auto.
        -- apply K. apply (runs_bells _ len); auto.
      * apply (matching_by (map (turned_elem (length r)))); auto. intros es H. splits.
        -- apply (all_runs_nf (length r) len); auto.
        -- apply (all_runs_nf (length r) len); auto. eapply Permutation_in; [symmetry; exact Q3|]. apply in_map. auto.
        -- apply K. apply (runs_bells _ len); auto.
  - assert (E : runs_front (length r) len = [] /\ runs_back (length r) len = [] /\ all_runs (length r) len = []).
    { unfold runs_front, runs_back, all_runs. destruct (Nat.ltb_spec (length r) len); [auto|lia]. }
    destruct E as (-> & -> & ->). splits; auto. eexists. splits; eauto.
Qed.

(** "*5678x" and "x8765*", and "*5682x" for the row "13475682" in place of rounds. *)
Example C115_example :
  exists es fs gs, regex_parse (s2l "*5678x") = Ret es /\ regex_parse (s2l "x8765*") = Ret fs /\ regex_parse (s2l "*5682x") = Ret gs /\
    match_pattern es [0; 1; 2; 4; 5; 6; 7; 3] = Ret (Some [3; 4; 5; 6]) /\
    match_pattern fs [3; 7; 6; 5; 4; 2; 1; 0] = Ret (Some [1; 2; 3; 4]) /\
    Forall2 (renamed [0; 2; 3; 6; 4; 5; 7; 1]) es gs /\
    row_mul [0; 2; 3; 6; 4; 5; 7; 1] [0; 1; 2; 4; 5; 6; 7; 3] = Ret [0; 2; 3; 4; 5; 7; 1; 6] /\
    match_pattern gs [0; 2; 3; 4; 5; 7; 1; 6] = Ret (Some [3; 4; 5; 6]) /\
    length (matching (runs_front 8 4) [4; 5; 6; 7; 3; 1; 2; 0]) = 1 /\ length (matching (runs_back 8 4) [0; 2; 1; 3; 7; 6; 5; 4]) = 1 /\
    length (matching (runs_back 8 4) [4; 5; 6; 7; 3; 1; 2; 0]) = 0.
Proof.
  do 3 eexists. split; [vm_compute; reflexivity|]. split; [vm_compute; reflexivity|]. split; [vm_compute; reflexivity|].
  split; [vm_compute; reflexivity|]. split; [vm_compute; reflexivity|]. split; [|splits; vm_compute; reflexivity].
  repeat (apply Forall2_cons; [constructor; try reflexivity|]). apply Forall2_nil.
Qed.
