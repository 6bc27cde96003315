(** Property theorems C103: each run of at least two bells is counted once. *)
(*IMPORTS*)
From Verif Require Import Base Bell Spec Stage Row Utils SameStageVec Block PlaceNot Mask Music SpecMask SpecVec SpecBlock ListFacts BellFacts RowFacts MulFacts GroupFacts
  SsvFacts BlockFacts ClassFacts MusicFacts MusicFacts2 SymFacts SpecRuns RunFacts.
Local Open Scope list_scope.
(*BODY*)

(** C103: of the patterns for runs anywhere, a row matches as many as there are places where a run starts. *)
Theorem C103_runs_anywhere :
  forall r len, valid_row r -> 2 <= len ->
    exists ps, NoDup ps /\ (forall p, In p ps <-> run_at r p len) /\
      length (matching (all_runs (length r) len) r) = length ps /\
      length (matching (regex_runs (length r) len true) r) = length ps.
Proof.
  intros r len V L. pose proof (valid_row_NoDup _ V) as N. destruct (le_lt_dec len (length r)) as [Lr|Lr].
  - set (f := fun x => match regex_matches (RGlob :: map RBell x ++ [RGlob]) r with Ret true => true | _ => false end).
    assert (F : forall g, In g (segs (length r) len) -> (f g = true <-> exists pre post, r = pre ++ g ++ post)).
    { intros g Hg. unfold f. rewrite matched_iff; auto.
      - rewrite described_glob_bells. split; intros (pre & post & H); [exists pre, post; apply H|exists pre, post; split; auto using described_globend].
      - apply (all_runs_nf (length r) len); [lia|]. rewrite all_runs_segs by auto. apply in_map_iff. eauto. }
    assert (Pl : forall g pre post, In g (segs (length r) len) -> r = pre ++ g ++ post -> place_in r (hd 0 g) = length pre).
    { intros g pre post Hg E. apply place_in_unique; auto. apply segs_length in Hg. destruct g as [|x g]; [cbn in Hg; lia|].
      rewrite E. rewrite nth_error_app2, Nat.sub_diag by lia. reflexivity. }
    exists (map (fun g => place_in r (hd 0 g)) (filter f (segs (length r) len))). splits.
    + apply NoDup_map_inj; [|apply NoDup_filter, segs_NoDup; auto].
      intros g h Hg Hh E. apply filter_In in Hg as [Hg Fg]. apply filter_In in Hh as [Hh Fh].
      apply F in Fg as (p1 & q1 & E1); auto. apply F in Fh as (p2 & q2 & E2); auto.
      rewrite (Pl g p1 q1 Hg E1), (Pl h p2 q2 Hh E2) in E. rewrite (cut_at _ _ _ _ E1), (cut_at _ _ _ _ E2), E.
      rewrite (segs_length _ _ _ Hg), (segs_length _ _ _ Hh). reflexivity.
    + intros p. rewrite in_map_iff. split.
      * intros (g & <- & Hg). apply filter_In in Hg as [Hg Fg]. apply F in Fg as (pre & post & E); auto. rewrite (Pl g pre post Hg E).
        apply run_seg; auto; [|eauto 6]. rewrite E at 1. rewrite !app_length, (segs_length _ _ _ Hg). lia.
      * intros R. pose proof (run_lt _ _ _ R) as Lp. apply run_seg in R as (g & pre & post & Hg & Lpre & E); auto.
        exists g. split; [rewrite (Pl g pre post Hg E); auto|]. apply filter_In. split; auto. apply F; eauto.
    + rewrite map_length, all_runs_segs by auto. apply matching_map.
    + unfold regex_runs. rewrite map_length, all_runs_segs by auto. apply matching_map.
  - exists []. splits; auto using NoDup_nil.
    + intros p. split; [intros []|]. intros R. apply run_lt in R. lia.
    + unfold all_runs. destruct (Nat.ltb_spec (length r) len); [reflexivity|lia].
    + unfold regex_runs, all_runs. destruct (Nat.ltb_spec (length r) len); [reflexivity|lia].
Qed.

(** C103: of those for runs at the front, it matches one if it starts with a run, and none otherwise; likewise at the
    back; and the two are counted together for runs at the front or back. *)
Theorem C103_runs_at_the_ends :
  forall r len, valid_row r -> 2 <= len ->
    (run_at r 0 len -> length (matching (runs_front (length r) len) r) = 1) /\
    (~ run_at r 0 len -> matching (runs_front (length r) len) r = []) /\
    (len <= length r -> run_at r (length r - len) len -> length (matching (runs_back (length r) len) r) = 1) /\
    (len <= length r -> ~ run_at r (length r - len) len -> matching (runs_back (length r) len) r = []) /\
    (length r < len -> matching (runs_back (length r) len) r = []) /\
    length (matching (regex_runs (length r) len false) r) =
      length (matching (runs_front (length r) len) r) + length (matching (runs_back (length r) len) r).
Proof.
  intros r len V L. pose proof (valid_row_NoDup _ V) as N.
  assert (Z : forall l, length (matching l r) = 0 -> matching l r = []) by (intros l H; apply length_zero_iff_nil; auto).
  assert (Fr : len <= length r -> (run_at r 0 len -> length (matching (runs_front (length r) len) r) = 1) /\
                 (~ run_at r 0 len -> length (matching (runs_front (length r) len) r) = 0)).
  { intros Lr. rewrite runs_front_segs, matching_map by auto.
    set (f := fun x => match regex_matches (map RBell x ++ [RGlob]) r with Ret true => true | _ => false end).
    assert (F : forall g, In g (segs (length r) len) -> (f g = true <-> exists post, r = g ++ post)).
    { intros g Hg. unfold f. rewrite matched_iff; auto.
      - rewrite described_bells. split; intros (post & H); [exists post; apply H|exists post; split; auto using described_globend].
      - apply (runs_front_nf (length r) len). rewrite runs_front_segs by auto. apply in_map_iff. eauto. }
    assert (U : forall g, In g (filter f (segs (length r) len)) -> g = firstn len r).
    { intros g Hg. apply filter_In in Hg as [Hg Fg]. apply F in Fg as (post & E); auto. pose proof (cut_at r [] g post E) as Q.
      rewrite (segs_length _ _ _ Hg) in Q. exact Q. }
    destruct (single_list _ _ (NoDup_filter f (segs_NoDup (length r) len L)) U) as [E|E].
    - rewrite E. split; auto. intros R. exfalso. apply run_seg in R as (g & pre & post & Hg & Lp & Er); auto; try lia.
      destruct pre; [|discriminate]. assert (In g (filter f (segs (length r) len))) as Q; [|rewrite E in Q; destruct Q].
      apply filter_In. split; auto. apply F; eauto.
    - rewrite E. split; auto. intros R. exfalso. apply R. assert (In (firstn len r) (filter f (segs (length r) len))) as Q by (rewrite E; cbn; auto).
      apply filter_In in Q as [Hg Fg]. apply F in Fg as (post & Er); auto. apply run_seg; auto; try lia. exists (firstn len r), [], post. splits; auto. }
  assert (Bk : len <= length r -> (run_at r (length r - len) len -> length (matching (runs_back (length r) len) r) = 1) /\
                 (~ run_at r (length r - len) len -> length (matching (runs_back (length r) len) r) = 0)).
  { intros Lr. rewrite runs_back_segs, matching_map by auto.
    set (f := fun x => match regex_matches (RGlob :: map RBell x) r with Ret true => true | _ => false end).
    assert (F : forall g, In g (segs (length r) len) -> (f g = true <-> exists pre, r = pre ++ g)).
    { intros g Hg. unfold f. rewrite matched_iff; auto.
      - rewrite <- (app_nil_r (map RBell g)), described_glob_bells. split.
        + intros (pre & post & E & D). apply described_nil_inv in D as ->. rewrite app_nil_r in E. eauto.
        + intros (pre & E). exists pre, []. rewrite app_nil_r. split; auto. constructor.
      - apply (runs_back_nf (length r) len). rewrite runs_back_segs by auto. apply in_map_iff. eauto. }
    assert (U : forall g, In g (filter f (segs (length r) len)) -> g = skipn (length r - len) r).
    { intros g Hg. apply filter_In in Hg as [Hg Fg]. apply F in Fg as (pre & E); auto. pose proof (segs_length _ _ _ Hg) as Lg.
      rewrite E at 2. replace (length r - len) with (length pre) by (rewrite E, app_length; lia).
      rewrite skipn_app, skipn_all, Nat.sub_diag. reflexivity. }
    destruct (single_list _ _ (NoDup_filter f (segs_NoDup (length r) len L)) U) as [E|E].
    - rewrite E. split; auto. intros R. exfalso. apply run_seg in R as (g & pre & post & Hg & Lp & Er); auto; try lia.
      assert (post = []) as ->.
      { destruct post; auto. exfalso. apply (f_equal (@length nat)) in Er. rewrite !app_length, (segs_length _ _ _ Hg) in Er. cbn in Er. lia. }
      rewrite app_nil_r in Er.
      assert (In g (filter f (segs (length r) len))) as Q; [|rewrite E in Q; destruct Q].
      apply filter_In. split; auto. apply F; eauto.
    - rewrite E. split; auto. intros R. exfalso. apply R. assert (In (skipn (length r - len) r) (filter f (segs (length r) len))) as Q by (rewrite E; cbn; auto).
      apply filter_In in Q as [Hg Fg]. apply F in Fg as (pre & Er); auto. apply run_seg; auto; try lia.
      exists (skipn (length r - len) r), pre, []. splits; auto; [|rewrite app_nil_r; auto].
      apply (f_equal (@length nat)) in Er. rewrite app_length, skipn_length in Er. lia. }
  assert (Lt : length r < len -> matching (runs_front (length r) len) r = [] /\ matching (runs_back (length r) len) r = []).
  { intros H. unfold runs_front, runs_back. destruct (Nat.ltb_spec (length r) len); [auto|lia]. }
  splits.
  - intros R. apply Fr; auto. apply run_lt in R. lia.
  - intros R. destruct (le_lt_dec len (length r)); [apply Z, Fr; auto|apply Lt; auto].
  - intros Lr. apply Bk; auto.
  - intros Lr R. apply Z, Bk; auto.
  - intros H. apply Lt; auto.
  - unfold regex_runs, runs_front_or_back, matching. rewrite filter_app, app_length. reflexivity.
Qed.

(** C103: so on [len] bells a row of a run is counted twice for runs at the front or back. *)
Theorem C103_whole_rows_are_counted_at_both_ends :
  forall r, valid_row r -> 2 <= length r -> run_at r 0 (length r) ->
    length (matching (regex_runs (length r) (length r) false) r) = 2 /\
    length (matching (regex_runs (length r) (length r) true) r) = 1.
Proof.
  intros r V L R. destruct (pf_C103_runs_at_the_ends r (length r) V L) as (F & _ & B & _ & _ & T).
  rewrite Nat.sub_diag in B. rewrite T, F, B by auto. split; auto.
  destruct (pf_C103_runs_anywhere r (length r) V L) as (ps & N & I & _ & E). rewrite E.
  destruct (single_list ps 0 N) as [Q|Q]; [|exfalso; apply I in R; rewrite Q in R; destruct R|rewrite Q; reflexivity].
  intros p Hp. apply I, run_lt in Hp. lia.
Qed.

(** With runs of one bell it would be false: each pattern is there twice. *)
Theorem C103_single_bells_refuted :
  ~ (forall r len, valid_row r -> 1 <= len -> run_at r 0 len -> length (matching (runs_front (length r) len) r) = 1).
Proof.
  intros H. assert (V : valid_row [0]) by vr. assert (R : run_at [0] 0 1) by (left; split; [cbn; lia|intros; lia]).
  pose proof (H [0] 1 V ltac:(lia) R) as E. vm_compute in E. discriminate.
Qed.

Example C103_example :
  valid_row [4; 5; 6; 7; 3; 2; 1; 0] /\ length (matching (all_runs 8 4) [4; 5; 6; 7; 3; 2; 1; 0]) = 2 /\
  length (matching (all_runs 8 3) [4; 5; 6; 7; 3; 2; 1; 0]) = 4 /\ length (matching (regex_runs 8 4 false) [4; 5; 6; 7; 3; 2; 1; 0]) = 2.
Proof. splits; [vr|vm_compute; reflexivity..]. Qed.
