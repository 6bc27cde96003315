(** Property theorems C23 to C29: buffers of rows of one stage. *)

(* Generated from tools/props/Ssv.src: the proofs behind PropsSsv.v. *)
From Verif Require Import Base Bell Stage Row Utils SameStageVec Spec SpecVec ListFacts BellFacts
  RowFacts MulFacts GroupFacts SsvFacts SsvFacts2.
Local Open Scope list_scope.

Lemma pf_C23_same_stage_vec_is_a_list_of_rows :
  forall s ops rs outs, 0 < s -> Forall vec_op_args_valid ops ->
    vec_run s [] ops = Some (rs, outs) ->
    exists v, ssv_run (ssv_new s) ops = Ret (v, outs) /\ holds v s rs.
Proof.
  intros s ops rs outs Hs A E. destruct (ssv_run_refines s ops [] (ssv_new s) rs outs) as (v & E' & R); auto.
  - apply rep_new; auto.
  - exists v. split; auto. apply holds_rep; auto.
Qed.

Lemma pf_C23_histories_from_any_buffer :
  forall v s rs0 ops rs outs, holds v s rs0 -> Forall vec_op_args_valid ops ->
    vec_run s rs0 ops = Some (rs, outs) ->
    exists v', ssv_run v ops = Ret (v', outs) /\ holds v' s rs.
Proof.
  intros v s rs0 ops rs outs H A E. apply holds_rep in H. destruct (ssv_run_refines s ops rs0 v rs outs) as (v' & E' & R); auto.
  exists v'. split; auto. apply holds_rep; auto.
Qed.

Lemma pf_C23_index_panics_out_of_range :
  forall v s rs i, holds v s rs ->
    (forall r, nth_error rs i = Some r -> ssv_index v i = Ret r) /\
    (length rs <= i -> ssv_index v i = Panic).
Proof.
  intros v s rs i H. apply holds_rep in H. split.
  - intros r. apply (ssv_index_ok s); auto.
  - apply (ssv_index_panic s); auto.
Qed.

Lemma pf_C24_failed_operations_change_nothing :
  forall v s rs, holds v s rs ->
    (forall r, valid_row r -> length r <> s ->
       ssv_push v r = Ret (v, Err (IncompatibleStages s (length r)))) /\
    (forall good bad rest, Forall valid_row good -> Forall (fun r => length r = s) good ->
       Forall valid_row (bad :: rest) -> length bad <> s ->
       ssv_extend v (good ++ bad :: rest) = Ret (v, Err (IncompatibleStages s (length bad)))) /\
    (forall w s' rs', holds w s' rs' -> s' <> s ->
       ssv_extend_from_buf v w = (v, Err (IncompatibleStages s s'))) /\
    (forall t w lo hi, valid_row t -> length t <> s ->
       ssv_extend_range_transposed v t w lo hi = Ret (v, Err (IncompatibleStages s (length t))) /\
       ssv_extend_transposed v t w = Ret (v, Err (IncompatibleStages s (length t))) /\
       ssv_extend_transposed_from_within v lo hi t = Ret (v, Err (IncompatibleStages s (length t))) /\
       ssv_pre_multiply v t = Ret (v, Err (IncompatibleStages (length t) s)) /\
       ssv_pre_multiplied v t = Ret (Err (IncompatibleStages s (length t)))).
Proof.
  intros v s rs H. apply holds_rep in H. splits.
  - intros r. eapply ssv_push_err; eauto.
  - intros good bad rest Hg Hl Hb Hn. apply (ssv_extend_err s rs); auto.
    + apply Forall_app; auto.
    + induction Hl as [|r t Hr Ht IH]; cbn [app find].
      * rewrite (proj2 (Nat.eqb_neq _ _)) by auto. reflexivity.
      * rewrite Hr, Nat.eqb_refl. cbn [negb]. inversion Hg; subst. auto.
  - intros w s' rs' Hw Hn. apply holds_rep in Hw. eapply ssv_extend_from_buf_err; eauto.
  - intros t w lo hi Ht Hn. splits.
    + eapply ssv_extend_range_transposed_err; eauto.
    + eapply ssv_extend_range_transposed_err; eauto.
    + eapply ssv_from_within_err; eauto.
    + eapply ssv_pre_multiply_err; eauto.
    + eapply ssv_pre_multiplied_err; eauto.
Qed.

Lemma pf_C25_iterator_is_a_deque :
  forall v s rs sched, holds v s rs ->
    exists outs it rest, iter_run (ssv_iterator v) sched = Ret (outs, it) /\
      deque_run rs sched = (outs, rest) /\
      it_len it = Ret (length rest) /\
      taken true sched outs ++ rest ++ rev (taken false sched outs) = rs /\
      (rest = [] -> it_next it = Ret (None, it) /\ it_next_back it = Ret (None, it)).
Proof.
  intros v s rs sched H. apply holds_rep in H. destruct H as (Hs & Hst & H & E).
  pose proof (iter_run_ok s sched Hs rs H) as R. pose proof (deque_parts sched rs) as P.
  destruct (deque_run rs sched) as [os rest]. destruct R as [R F].
  exists os, (SsvIter (concat rest) s), rest. unfold ssv_iterator. rewrite E, Hst. splits; auto.
  - apply it_len_ok; auto.
  - intros ->. cbn. auto.
Qed.

Lemma pf_C26_paths :
  forall v s rs b, holds v s rs ->
    (b < s -> exists p, ssv_path_of v b = Ret (Some p) /\
       Forall2 (fun r i => forall j, nth_error r j = Some b <-> j = i) rs p) /\
    (s <= b -> ssv_path_of v b = Ret None).
Proof.
  intros v s rs b H. apply holds_rep in H. split.
  - intros Hb. destruct (ssv_path_ok s rs v b H Hb) as (p & E & F). exists p. split; auto.
    destruct H as (_ & _ & H & _). clear E. induction F as [|r i rs p Hr F IH]; constructor.
    + inversion H; subst. intros j. split.
      * intros Hj. eapply NoDup_nth_error_inj; eauto. apply valid_row_NoDup. apply H2.
      * intros ->. auto.
    + inversion H; auto.
  - apply (ssv_path_none s rs); auto.
Qed.

Lemma pf_C27_split :
  forall v s rs i, holds v s rs ->
    (length rs < i <-> ssv_split v i = None) /\
    (i <= length rs -> exists a b, ssv_split v i = Some (a, b) /\
       holds a s (firstn i rs) /\ holds b s (skipn i rs) /\ length (firstn i rs) = i /\
       ssv_extend_from_buf a b = (v, Ok tt)).
Proof.
  intros v s rs i H. apply holds_rep in H.
  assert (K : i <= length rs -> exists a b, ssv_split v i = Some (a, b) /\
       holds a s (firstn i rs) /\ holds b s (skipn i rs) /\ length (firstn i rs) = i /\
       ssv_extend_from_buf a b = (v, Ok tt)).
  { intros Hi. destruct (ssv_split_ok s rs v i H Hi) as (a & b & E & Ra & Rb). exists a, b. splits; auto.
    - apply holds_rep; auto.
    - apply holds_rep; auto.
    - apply firstn_length_le; auto.
    - destruct Ra as (_ & Sa & _ & Ba), Rb as (_ & Sb & _ & Bb). unfold ssv_extend_from_buf, test_err.
      rewrite Sa, Sb, Nat.eqb_refl, Ba, Bb, <- concat_app, firstn_skipn.
      destruct H as (_ & Sv & _ & Bv). destruct v as [bs st]. cbn in *. subst. reflexivity. }
  split; auto. split.
  - apply (ssv_split_none s rs); auto.
  - intros N. destruct (Nat.le_gt_cases i (length rs)) as [L|L]; auto.
    destruct (K L) as (a & b & E & _). congruence.
Qed.

Lemma pf_C28_extend_range_transposed_partial :
  forall v s rs w rs' t lo hi, holds v s rs -> holds w s rs' -> valid_row t -> length t = s ->
    let a := range_start lo in let b := range_end hi (length rs') in
    (a <= b /\ b <= length rs' ->
       exists v', ssv_extend_range_transposed v t w lo hi = Ret (v', Ok tt) /\
         holds v' s (rs ++ map (row_product t) (sublist a b rs'))) /\
    (~ (a <= b /\ b <= length rs') -> ssv_extend_range_transposed v t w lo hi = Panic) /\
    (exists v', ssv_extend_transposed v t w = Ret (v', Ok tt) /\
       holds v' s (rs ++ map (row_product t) rs')).
Proof.
  intros v s rs w rs' t lo hi H Hw Ht L a b. apply holds_rep in H, Hw. splits.
  - intros [Hab Hb]. destruct (ssv_extend_range_transposed_ok s rs v t rs' w lo hi) as (v' & E & R); auto; [split; auto|].
    exists v'. split; auto. apply holds_rep; auto.
  - intros N. eapply ssv_extend_range_transposed_panic; eauto. split; auto.
  - destruct (ssv_extend_range_transposed_ok s rs v t rs' w Unbounded Unbounded) as (v' & E & R); auto; [split; auto|cbn; lia|].
    exists v'. split; auto. apply holds_rep. cbn [range_start range_end] in R. rewrite sublist_all in R. exact R.
Qed.

Lemma pf_C28_extend_transposed_from_within :
  forall v s rs t lo hi, holds v s rs -> valid_row t -> length t = s ->
    let a := range_start lo in let b := range_end hi (length rs) in
    (a <= b -> b <= length rs ->
     exists v', ssv_extend_transposed_from_within v lo hi t = Ret (v', Ok tt) /\
       holds v' s (rs ++ map (row_product t) (sublist a b rs))) /\
    (b <= a -> ssv_extend_transposed_from_within v lo hi t = Ret (v, Ok tt)).
Proof.
  intros v s rs t lo hi H Ht L a b. apply holds_rep in H. split.
  - intros Hab Hb.
    destruct (ssv_from_within_ok s rs v t lo hi) as (v' & E & R); auto; [split; auto|].
    exists v'. split; auto. apply holds_rep; auto.
  - intros Hba. apply (ssv_from_within_empty s rs); auto. split; auto.
Qed.

Lemma pf_C28_pre_multiplied :
  forall v s rs t, holds v s rs -> valid_row t -> length t = s ->
    (exists v', ssv_pre_multiplied v t = Ret (Ok v') /\ holds v' s (map (row_product t) rs) /\
       ssv_pre_multiply v t = Ret (v', Ok tt)) /\
    (forall r, In r rs -> composition t r (row_product t r)).
Proof.
  intros v s rs t H Ht L. apply holds_rep in H. split.
  - destruct (ssv_pre_multiplied_ok s rs v t) as (v' & E & R); auto; [split; auto|].
    destruct (ssv_pre_multiply_ok s rs v t) as (v2 & E2 & R2); auto; [split; auto|].
    exists v'. splits; auto.
    + apply holds_rep; auto.
    + rewrite E2. f_equal. f_equal. destruct v', v2, R as (_ & S1 & _ & B1), R2 as (_ & S2 & _ & B2). cbn in *. congruence.
  - intros r Hr. destruct H as (_ & _ & H & _). rewrite Forall_forall in H. specialize (H r Hr).
    apply (composition_vrow s); auto. split; auto.
Qed.

Lemma pf_C28_source_of_another_stage_refuted :
  (exists v w v' t r, holds v 3 [] /\ holds w 1 [[0]; [0]; [0]] /\ valid_row t /\ length t = 3 /\
     ssv_extend_transposed v t w = Ret (v', Ok tt) /\ ssv_rows v' = Ret [r] /\ ~ valid_row r) /\
  (exists v w v' t, holds v 3 [] /\ holds w 2 [[0; 1]] /\ valid_row t /\ length t = 3 /\
     ssv_extend_transposed v t w = Ret (v', Ok tt) /\ ssv_len v' = Panic) /\
  (exists v w t, holds v 3 [] /\ holds w 4 [[0; 1; 2; 3]] /\ valid_row t /\ length t = 3 /\
     ssv_extend_transposed v t w = Panic).
Proof.
  assert (V1 : valid_row [0]) by (apply (valid_rounds 1); lia).
  assert (V2 : valid_row [0; 1]) by (apply (valid_rounds 2); lia).
  assert (V3 : valid_row [0; 1; 2]) by (apply (valid_rounds 3); lia).
  assert (V4 : valid_row [0; 1; 2; 3]) by (apply (valid_rounds 4); lia).
  assert (H0 : holds (ssv_new 3) 3 []) by (apply holds_rep, rep_new; lia).
  splits.
  - exists (ssv_new 3), (Ssv [0; 0; 0] 1), (Ssv [0; 0; 0] 3), [0; 1; 2], [0; 0; 0]. splits; auto.
    + apply holds_rep. unfold rep. splits; cbn; auto. constructor; [split; auto|]. constructor; [split; auto|]. constructor; [split; auto|constructor].
    + intros V. apply valid_row_NoDup in V. inversion V; subst. apply H2. left; auto.
  - exists (ssv_new 3), (Ssv [0; 1] 2), (Ssv [0; 1] 3), [0; 1; 2]. splits; auto.
    apply holds_rep. unfold rep. splits; cbn; auto. constructor; [split; auto|constructor].
  - exists (ssv_new 3), (Ssv [0; 1; 2; 3] 4), [0; 1; 2]. splits; auto.
    apply holds_rep. unfold rep. splits; cbn; auto; try lia. constructor; [split; auto|constructor].
Qed.

Lemma pf_C28_from_within_beyond_the_end_refuted :
  exists v v' t, holds v 2 [[0; 1]] /\ valid_row t /\ length t = 2 /\
    ssv_extend_transposed_from_within v (Included 0) (Excluded 3) t = Ret (v', Ok tt) /\
    ssv_rows v' = Ret [[0; 1]; [1; 0]; [0; 1]; [1; 0]].
Proof.
  assert (V2 : valid_row [0; 1]) by (apply (valid_rounds 2); lia).
  exists (Ssv [0; 1] 2), (Ssv [0; 1; 1; 0; 0; 1; 1; 0] 2), [1; 0]. splits; auto.
  - apply holds_rep. unfold rep. splits; cbn; auto. constructor; [split; auto|constructor].
  - apply from_vec_ok with (r := [1; 0]). reflexivity.
Qed.

Lemma pf_C28_from_within_every_range :
  forall v s rs t lo hi, holds v s rs -> valid_row t -> length t = s ->
    let a := range_start lo in let b := range_end hi (length rs) in
    (b <= a -> ssv_extend_transposed_from_within v lo hi t = Ret (v, Ok tt)) /\
    (a < b -> length rs <= a -> ssv_extend_transposed_from_within v lo hi t = Panic) /\
    (a < b -> a < length rs ->
     exists v' new, ssv_extend_transposed_from_within v lo hi t = Ret (v', Ok tt) /\ holds v' s (rs ++ new) /\
       length new = b - a /\
       forall i, i < b - a -> nth_error new i = option_map (row_product t) (nth_error (rs ++ new) (a + i))).
Proof.
  intros v s rs t lo hi H Ht L a b. apply holds_rep in H. splits.
  - intros Hba. apply (ssv_from_within_empty s rs); auto. split; auto.
  - intros Hab Ha. apply (ssv_from_within_any s rs v t lo hi); auto. split; auto.
  - intros Hab Ha. destruct (proj1 (ssv_from_within_any s rs v t lo hi H (conj Ht L) Hab) Ha) as (v' & new & E & R & Ln & I).
    exists v', new. splits; auto. apply holds_rep; auto.
Qed.

Lemma pf_C28_every_source_of_another_stage_refuted :
  forall v s rs w s' rs' t lo hi, holds v s rs -> holds w s' rs' -> valid_row t -> length t = s ->
    let a := range_start lo in let b := range_end hi (length rs') in
    a < b -> b <= length rs' ->
    (s < s' -> ssv_extend_range_transposed v t w lo hi = Panic) /\
    (s' < s -> exists v', ssv_extend_range_transposed v t w lo hi = Ret (v', Ok tt) /\ forall s2 rs2, ~ holds v' s2 rs2).
Proof.
  intros v s rs w s' rs' t lo hi H Hw Ht L a b Hab Hb. apply holds_rep in H. apply holds_rep in Hw. split; intros Hs.
  - eapply other_stage_larger; eauto. split; auto.
  - destruct (other_stage_smaller s rs v t s' rs' w lo hi H (conj Ht L) Hw Hs Hab Hb) as (v' & E & N).
    exists v'. split; auto. intros s2 rs2 K. apply holds_rep in K. eapply N; eauto.
Qed.

Lemma pf_C29_parse_rows :
  forall ended unfinished rs s,
    Forall no_line_feed ended -> no_line_feed unfinished ->
    text_lines ended unfinished <> [] ->
    Forall2 (fun l r => row_parse l = Ok r) (text_lines ended unfinished) rs ->
    Forall (fun r => length r = s) rs ->
    exists v, ssv_parse (text_of ended unfinished) = Ret (Ok v) /\ holds v s rs.
Proof.
  intros ended unfinished rs s He Hu N F L. pose proof (lines_text ended unfinished He Hu) as E.
  set (ls := text_lines ended unfinished) in *. clearbody ls.
  assert (Fs : Forall2 (fun l r => row_parse l = Ok r) (map strip_cr ls) rs).
  { clear E N. induction F as [|l r ls rs H F IH]; cbn [map]; auto. inversion L; subst. constructor; auto. rewrite row_parse_strip; auto. }
  assert (N' : map strip_cr ls <> []) by (destruct ls; [congruence|discriminate]).
  destruct (ssv_parse_cases _ _ E N') as [(s' & rs' & v & Hs & F' & Fv & P & R)|(pre & l & post & rs' & e & s' & El & Fp & P & C)].
  - assert (D : forall l a b, Forall2 (fun l r => row_parse l = Ok r) l a -> Forall2 (fun l r => row_parse l = Ok r) l b -> a = b).
    { clear. intros l a b Ha. revert b. induction Ha as [|x y l a Hx Ha IH]; intros b Hb; inversion Hb; subst; auto. f_equal; auto. congruence. }
    rewrite (D _ _ _ F' Fs) in *. exists v. split; auto. apply holds_rep.
    destruct rs as [|r rs]. { inversion Fs as [Hz|]. congruence. }
    inversion L; subst. inversion Fv as [|? ? [_ Hr] _]; subst. exact R.
  - exfalso. rewrite El in Fs. apply Forall2_app_inv_l in Fs as (r1 & r2 & F1 & F2 & ->).
    inversion F2 as [|? r ? r3 Hl F3]; subst.
    destruct C as [(err & Herr & _)|(Np & r' & Hr & Hn & _)]; [congruence|].
    apply Hn. rewrite Hr in Hl. injection Hl as ->.
    destruct pre as [|l0 pre]; [congruence|]. inversion Fp as [|? r0 ? rp [H0 S0] Fp']; subst.
    inversion F1 as [|? r1' ? ? H1 _]; subst. rewrite H0 in H1. injection H1 as <-.
    cbn [app] in L. inversion L as [|? ? L1 L2]; subst. apply Forall_app in L2 as [_ L2]. inversion L2; subst. congruence.
Qed.

Lemma pf_C29_parse_first_bad_line :
  forall ended unfinished pre bad post rs s,
    Forall no_line_feed ended -> no_line_feed unfinished ->
    text_lines ended unfinished = pre ++ bad :: post ->
    Forall2 (fun l r => row_parse l = Ok r) pre rs -> Forall (fun r => length r = s) rs ->
    (forall e, row_parse bad = Err e ->
       ssv_parse (text_of ended unfinished) = Ret (Err (SpeInvalidRow (length pre + 1) e))) /\
    (forall r, pre <> [] -> row_parse bad = Ok r -> length r <> s ->
       ssv_parse (text_of ended unfinished) =
       Ret (Err (SpeIncompatibleStages (length pre + 1) s (length r)))).
Proof.
  intros ended unfinished pre bad post rs s He Hu El F L. pose proof (lines_text ended unfinished He Hu) as E.
  rewrite El in E. clear El. rewrite map_app in E. cbn [map] in E.
  assert (D : forall l a b, Forall2 (fun l r => row_parse l = Ok r) l a -> Forall2 (fun l r => row_parse l = Ok r) l b -> a = b).
  { clear. intros l a b Ha. revert b. induction Ha as [|x y l a Hx Ha IH]; intros b Hb; inversion Hb; subst; auto. f_equal; auto. congruence. }
  assert (Fs : Forall2 (fun l r => row_parse l = Ok r) (map strip_cr pre) rs).
  { clear E. induction F as [|l r pre rs H F IH]; cbn [map]; auto. inversion L; subst. constructor; auto. rewrite row_parse_strip; auto. }
  assert (M : forall post', map strip_cr pre ++ strip_cr bad :: post' <> []) by (intros; destruct pre; discriminate).
  destruct (ssv_parse_cases _ _ E (M _)) as [(s' & rs' & v & Hs & F' & Fv & P & R)|(pre' & l & post' & rs' & e' & s' & Ep & Fp & P & C)].
  - apply Forall2_app_inv_l in F' as (r1 & r2 & F1 & F2 & ->). inversion F2 as [|? r ? r3 Hl F3]; subst.
    rewrite row_parse_strip in Hl. split.
    + congruence.
    + intros r' Np Hr Hn. exfalso. rewrite Hl in Hr. injection Hr as <-. apply Hn.
      rewrite (D _ _ _ F1 Fs) in *. apply Forall_app in Fv as [Fv1 Fv2]. inversion Fv2 as [|? ? [_ Hr] _]; subst.
      destruct rs as [|r0 rs]; [inversion F; congruence|].
      inversion L; subst. inversion Fv1 as [|? ? [_ H0] _]; subst. congruence.
  - (* both decompositions are at the first bad line *)
    assert (Fp1 : Forall2 (fun l r => row_parse l = Ok r) pre' rs').
    { clear -Fp. induction Fp as [|? ? ? ? [H _] ? ?]; constructor; auto. }
    assert (Fp2 : Forall (fun r => length r = s') rs').
    { clear -Fp. induction Fp as [|? ? ? ? [_ H] ? ?]; constructor; auto. }
    rename Ep into Eq.
    destruct (Nat.lt_trichotomy (length pre') (length (map strip_cr pre))) as [Hlt|[Heq|Hgt]].
    + (* the bad line found lies strictly within the good prefix: impossible *)
      exfalso. assert (Hin : exists k, map strip_cr pre = pre' ++ l :: k).
      { apply app_eq_app in Eq as (k & [[Ek Ek2]|[Ek Ek2]]).
        - destruct k as [|x k]. { rewrite app_nil_r in Ek. subst pre'. lia. } cbn in Ek2. injection Ek2 as -> _. eauto.
        - subst pre'. rewrite app_length in Hlt. lia. }
      destruct Hin as (k & Ek). rewrite Ek in Fs. apply Forall2_app_inv_l in Fs as (r1 & r2 & F1 & F2 & ->).
      inversion F2 as [|? r ? r3 Hl F3]; subst. rewrite (D _ _ _ F1 Fp1) in *.
      destruct C as [(err & Herr & _)|(Np & r' & Hr & Hn & _)]; [congruence|].
      apply Hn. rewrite Hr in Hl. injection Hl as ->.
      destruct rs' as [|r0 rs']. { inversion Fp as [Hz|]. congruence. }
      inversion Fp2; subst. cbn [app] in L. inversion L as [|? ? L1 L2]; subst. apply Forall_app in L2 as [_ L2]. inversion L2; subst. congruence.
    + apply app_eq_len in Eq as [Eq1 Eq2]; [|auto]. injection Eq2 as El Epost. subst pre' l.
      rewrite map_length in C. rewrite row_parse_strip in C. rewrite Nat.add_comm.
      rewrite (D _ _ _ Fp1 Fs) in *. split.
      * intros e He'. destruct C as [(err & Herr & ->)|(Np & r' & Hr & Hn & ->)]; [|congruence].
        rewrite P. do 3 f_equal. congruence.
      * intros r Np Hr Hn. destruct C as [(err & Herr & ->)|(Np' & r' & Hr' & Hn' & ->)]; [congruence|].
        rewrite P. rewrite Hr in Hr'. injection Hr' as <-.
        destruct rs as [|r0 rs]; [inversion F; congruence|].
        inversion L; subst. inversion Fp2; subst. reflexivity.
    + (* the bad line is among the lines found good *)
      assert (Hin : exists k, pre' = map strip_cr pre ++ strip_cr bad :: k).
      { symmetry in Eq. apply app_eq_app in Eq as (k & [[Ek Ek2]|[Ek Ek2]]).
        - destruct k as [|x k]. { rewrite app_nil_r in Ek. subst pre'. lia. } cbn in Ek2. injection Ek2 as -> _. eauto.
        - rewrite Ek, app_length in Hgt. lia. }
      destruct Hin as (k & Ek). subst pre'. apply Forall2_app_inv_l in Fp1 as (r1 & r2 & F1 & F2 & ->).
      inversion F2 as [|? r ? r3 Hl F3]; subst. rewrite row_parse_strip in Hl. split; [congruence|].
      intros r' Np Hr Hn. exfalso. apply Hn. rewrite Hl in Hr. injection Hr as <-. rewrite (D _ _ _ F1 Fs) in *.
      destruct rs as [|r0 rs]; [inversion F; congruence|].
      cbn [app] in Fp2. inversion Fp2 as [|? ? P1 P2]; subst. apply Forall_app in P2 as [_ P2]. inversion P2; subst.
      inversion L; subst. auto.
Qed.

Lemma pf_C29_no_panic_partial :
  forall text, text <> [] -> exists res, ssv_parse text = Ret res.
Proof.
  intros text N. destruct (text_decompose text) as (e & u & -> & He & Hu).
  pose proof (lines_text e u He Hu) as E.
  assert (M : map strip_cr (text_lines e u) <> []).
  { unfold text_lines. destruct e; [|discriminate]. destruct u; [|discriminate]. exfalso; apply N; reflexivity. }
  destruct (ssv_parse_cases _ _ E M) as [(s' & rs' & v & Hs & F' & Fv & P & R)|(pre & l & post & rs' & e' & s' & El & Fp & P & C)]; eauto.
Qed.

Lemma pf_C29_empty_string_panics_refuted : ssv_parse [] = Panic.
Proof. reflexivity. Qed.
