(** Property theorems C104: how many rows of a stage fit masks and patterns for runs. *)

(* Generated from tools/props/Extent.src: the proofs behind PropsExtent.v. *)
From Verif Require Import Base Bell Spec Stage Row Utils SameStageVec Block PlaceNot Mask Music SpecMask SpecVec SpecBlock ListFacts BellFacts RowFacts MulFacts GroupFacts
  SsvFacts BlockFacts ClassFacts MaskFacts MaskFacts2 MusicFacts MusicFacts2 SymFacts SpecRuns RunFacts ExtentFacts.
From Verif Require Import MaskThms MusicThms RunsThms.
Local Open Scope list_scope.

Lemma pf_C104_rows_which_a_mask_matches :
  forall m, m <> [] ->
    (each_bell_once m -> (forall p b, specifies m p b -> b < length m) ->
     there_are (fact (length (mask_unspecified_places m))) (fun r => valid_row r /\ mask_matches m r = Ret true)) /\
    (~ each_bell_once m \/ (exists p b, specifies m p b /\ length m <= b) ->
     there_are 0 (fun r => valid_row r /\ mask_matches m r = Ret true)).
Proof.
  intros m Nm.
  assert (Q : forall r, (valid_row r /\ mask_matches m r = Ret true) <-> (valid_row r /\ fits m r)).
  { intros r. split; intros [V H]; split; auto; destruct (pf_C46_matches m r Nm V) as (v & E & K).
    - apply K. congruence.
    - rewrite E. f_equal. apply K; auto. }
  split.
  - intros O B. rewrite length_unspecified. eapply there_are_iff; [intros r; symmetry; apply Q|]. apply count_fits. repeat split; auto.
  - intros H. exists []. splits; auto using NoDup_nil. intros r. split; [intros []|]. rewrite Q. intros [V F].
    destruct (fits_wf m r V F) as (_ & O & B). destruct H as [H|(p & b & Hp & Hb)]; [contradiction|].
    specialize (B p b Hp). lia.
Qed.

Lemma pf_C104_rows_which_a_run_pattern_matches :
  forall s len es, 1 <= len <= s ->
    (In es (runs_front s len) \/ In es (runs_back s len) ->
     there_are (fact (s - len)) (fun r => valid_row r /\ length r = s /\ regex_matches es r = Ret true)) /\
    (In es (all_runs s len) ->
     there_are (fact (s - len + 1)) (fun r => valid_row r /\ length r = s /\ regex_matches es r = Ret true)).
Proof.
  intros s len es [L1 L2].
  assert (Q : nf es -> forall r, (valid_row r /\ length r = s /\ described es r) <-> (valid_row r /\ length r = s /\ regex_matches es r = Ret true)).
  { intros F r. split; intros (V & Lr & H); splits; auto; pose proof (matched_iff es r F (valid_row_NoDup _ V)) as K.
    - apply K in H. destruct (regex_matches es r) as [[|]| | |]; congruence.
    - apply K. rewrite H. reflexivity. }
  assert (E1 : In es (runs_front s len) -> there_are (fact (s - len)) (fun r => valid_row r /\ length r = s /\ regex_matches es r = Ret true)).
  { intros H. eapply there_are_iff; [apply Q, (runs_front_nf s len); auto|]. rewrite runs_front_segs in H by auto.
    apply in_map_iff in H as (g & <- & Hg). destruct (segs_bells s len g L2 Hg) as (N & F & Lg).
    pose proof (count_one_glob (map RBell g ++ [RGlob]) s) as K. rewrite bells_written_bells, count_any_bells, count_glob_bells in K. cbn in K.
    rewrite app_nil_r, Lg in K. apply K; auto; lia. }
  assert (E2 : In es (runs_back s len) -> there_are (fact (s - len)) (fun r => valid_row r /\ length r = s /\ regex_matches es r = Ret true)).
  { intros H. eapply there_are_iff; [apply Q, (runs_back_nf s len); auto|]. rewrite runs_back_segs in H by auto.
    apply in_map_iff in H as (g & <- & Hg). destruct (segs_bells s len g L2 Hg) as (N & F & Lg).
    pose proof (count_one_glob (RGlob :: map RBell g ++ []) s) as K. cbn [bells_written count_any count_glob] in K.
    rewrite bells_written_bells, count_any_bells, count_glob_bells in K. cbn in K. rewrite !app_nil_r, Lg in K. apply K; auto; lia. }
  split; [intros [H|H]; auto|].
  intros H. pose proof (all_runs_nf s len es ltac:(lia) H) as Fe. eapply there_are_iff; [apply Q; auto|]. rewrite all_runs_segs in H by auto.
  apply in_map_iff in H as (g & <- & Hg). destruct (segs_bells s len g L2 Hg) as (N & F & Lg).
  destruct (pf_C56_how_many_rows_match _ s ltac:(lia) (proj1 (nf_spec _) Fe)) as [K _].
  cbn [bells_written count_any count_glob] in K. rewrite bells_written_bells, count_any_bells, count_glob_bells in K. cbn [bells_written count_any count_glob] in K.
  rewrite app_nil_r, Lg in K. destruct (K N F (s - len) 0 ltac:(lia) eq_refl) as [K1 _].
  specialize (K1 1 (s - len) eq_refl ltac:(lia)). rewrite binomial_1, Nat.mul_comm, Nat.add_1_r in K1. rewrite Nat.add_1_r. exact K1.
Qed.

Lemma pf_C104_runs_in_the_extent :
  forall s len l, 2 <= len <= s -> NoDup l -> (forall r, In r l <-> valid_row r /\ length r = s) ->
    length l = fact s /\
    list_sum (map (fun r => length (matching (runs_front s len) r)) l) = 2 * fact (s - len + 1) /\
    list_sum (map (fun r => length (matching (runs_back s len) r)) l) = 2 * fact (s - len + 1) /\
    list_sum (map (fun r => length (matching (regex_runs s len false) r)) l) = 4 * fact (s - len + 1) /\
    list_sum (map (fun r => length (matching (regex_runs s len true) r)) l) = 2 * (s - len + 1) * fact (s - len + 1).
Proof.
  intros s len l [L1 L2] N H.
  assert (P : forall ps k, (forall es, In es ps -> there_are k (fun r => valid_row r /\ length r = s /\ regex_matches es r = Ret true)) ->
            list_sum (map (fun r => length (matching ps r)) l) = length ps * k).
  { intros ps k K. unfold matching.
    rewrite (double_count (fun es r => match regex_matches es r with Ret true => true | _ => false end)).
    apply list_sum_const. intros es He. eapply filter_there_are; eauto.
    - intros r (V & Lr & _). apply H. auto.
    - intros r Hr. apply H in Hr as [V Lr]. destruct (regex_matches es r) as [[|]| | |]; split; intros X; try discriminate X; auto; destruct X as (_ & _ & X); discriminate X. }
  pose proof (fun es => pf_C104_rows_which_a_run_pattern_matches s len es ltac:(lia)) as C.
  assert (Fc : (s - len + 1) * fact (s - len) = fact (s - len + 1)) by (rewrite Nat.add_1_r; reflexivity).
  assert (A : list_sum (map (fun r => length (matching (runs_front s len) r)) l) = 2 * fact (s - len + 1)).
  { rewrite (P _ (fact (s - len))) by (intros; apply C; auto). rewrite runs_front_segs, map_length, length_segs by auto. lia. }
  assert (B : list_sum (map (fun r => length (matching (runs_back s len) r)) l) = 2 * fact (s - len + 1)).
  { rewrite (P _ (fact (s - len))) by (intros; apply C; auto). rewrite runs_back_segs, map_length, length_segs by auto. lia. }
  splits; auto.
  - destruct (pf_C56_how_many_rows_match [RGlob] s ltac:(lia)) as [K _]; [apply nf_spec; cbn; auto|].
    destruct (K ltac:(constructor) ltac:(constructor) s 0 ltac:(cbn; lia) eq_refl) as [K1 _]. specialize (K1 0 s eq_refl ltac:(lia)).
    rewrite Nat.add_0_r, binomial_0, Nat.mul_1_r in K1. eapply there_are_unique; eauto. exists l. splits; auto. intros r. rewrite H. split; [|tauto].
    intros [V Lr]. splits; auto. apply described_globend.
  - unfold regex_runs, runs_front_or_back. rewrite (P _ (fact (s - len))).
    + rewrite app_length, runs_front_segs, runs_back_segs, !map_length, length_segs by auto. lia.
    + intros es He. apply C. apply in_app_iff in He. auto.
  - unfold regex_runs. rewrite (P _ (fact (s - len + 1))) by (intros; apply C; auto). rewrite all_runs_segs, map_length, length_segs by auto. lia.
Qed.
