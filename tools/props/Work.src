(** Property theorems C134: the work of the bells in the plain course. *)
(*IMPORTS*)
From Verif Require Import Base Spec SpecBlock Class SpecClass SpecVec ListFacts Row RowFacts MulFacts GroupFacts SameStageVec Block SsvFacts BlockFacts
  PlaceNot ClassFacts SymFacts3 Method SpecMethod SpecCycle CycleFacts BellPathFacts DiffFacts WorkFacts.
From Verif Require Import BlockThms MethodThms.
Local Open Scope list_scope.
(*BODY*)
(** C134: in the plain course of a method whose lead starts at rounds, the path of bell [b] is that of bell [c] begun [k] leads later
    exactly when [k] steps along the lead head go from [b] to [c].  So two bells do the same work, one some leads after the
    other, exactly when they are on the same cycle of the lead head. *)
Theorem C134_the_same_work :
  forall m s ars lo fuel pc b c path_b path_c e f,
    block_holds (first_lead m) s ars lo -> ars <> [] -> is_identity (hd [] (map fst ars)) -> plain_course fuel m = Ret pc ->
    block_path_of pc b = Ret (Some (path_b, e)) -> block_path_of pc c = Ret (Some (path_c, f)) ->
    (forall k, k * lead_len m < length path_b ->
       (path_b = skipn (k * lead_len m) path_c ++ firstn (k * lead_len m) path_c <-> follow lo k b = c)) /\
    ((exists k, k * lead_len m < length path_b /\ path_b = skipn (k * lead_len m) path_c ++ firstn (k * lead_len m) path_c) <->
     same_cycle lo b c).
Proof.
  intros m s ars lo fuel pc b c pb qc e f H Na I P Eb Ec.
  destruct (work m s ars lo fuel pc H Na I P) as (Vl & LL & N & N0 & RN & Mi & _ & W). rewrite LL.
  destruct (W b pb e Eb) as (Hb & Lb & Wb). destruct (W c qc f Ec) as (Hc & Lc & Wc). set (L := length ars) in *.
  assert (L0 : 0 < L) by (unfold L; destruct ars; [congruence|cbn; lia]).
  pose proof (proj1 Vl) as Vv. pose proof (proj2 Vl) as Lo.
  assert (M0 : N * L <> 0) by nia.
  assert (K : forall k, k * L < length pb -> (pb = skipn (k * L) qc ++ firstn (k * L) qc <-> follow lo k b = c)).
  { intros k Hk. split.
    - intros E. destruct (nth_error (map fst ars) 0) as [r|] eqn:Er; [|destruct ars; [congruence|discriminate]].
      destruct (Wb 0 0 r Er) as (q & Lq & Fq & Nq). destruct (Wc k 0 r Er) as (q' & Lq' & Fq' & Nq'). cbn in Fq. subst q.
      assert (q' = b); [|subst; auto]. rewrite Nat.add_0_r in Nq, Nq'. cbn [Nat.mul] in Nq. rewrite <- Lc in Nq'.
      assert (X : nth_error (skipn (k * L) qc ++ firstn (k * L) qc) (0 mod length qc) = Some (place_in r q')).
      { rewrite nth_error_rotated by lia. rewrite Nat.add_0_l. auto. }
      rewrite <- E, Lc, Nq in X. injection X as X.
      assert (Vr : vrow s r). { pose proof (holds_brep _ _ _ _ H) as B. pose proof (brep_vrows _ _ _ _ B) as [Va _]. rewrite Forall_forall in Va. apply Va. eapply nth_error_In; eauto. }
      pose proof (place_in_ok r b (proj1 Vr) ltac:(rewrite (proj2 Vr); auto)) as Y. pose proof (place_in_ok r q' (proj1 Vr) ltac:(rewrite (proj2 Vr); auto)) as Y'. congruence.
    - intros E. apply nth_error_ext. intros t. destruct (Nat.lt_ge_cases t (N * L)) as [T|T].
      + replace t with (t mod length qc) at 2 by (rewrite Nat.mod_small; lia). rewrite nth_error_rotated by lia. rewrite Lc.
        destruct (split_index L t L0) as (j & i & -> & Hi).
        destruct (nth_error (map fst ars) i) as [r|] eqn:Er; [|apply nth_error_None in Er; rewrite map_length in Er; unfold L in *; lia].
        destruct (Wb j i r Er) as (q & Lq & Fq & Nq). destruct (Wc (k + j) i r Er) as (q' & Lq' & Fq' & Nq').
        rewrite Nat.mod_small in Nq by lia. rewrite Nq. replace (j * L + i + k * L) with ((k + j) * L + i) by lia. rewrite Nq'. do 2 f_equal.
        rewrite follow_add, <- E in Fq'. apply (follow_inj lo k (follow lo j q') b Vv) in Fq'; [|apply follow_lt; auto; lia|lia].
        rewrite <- Fq in Fq'. symmetry. apply (follow_inj lo j q' q Vv) in Fq'; auto; lia.
      + transitivity (@None nat); [apply nth_error_None; lia|]. symmetry. apply nth_error_None. rewrite app_length, skipn_length, firstn_length. lia. }
  split; auto. split.
  - intros (k & Hk & E). exists k. apply K; auto.
  - intros (k & E). exists (k mod N). pose proof (Nat.mod_upper_bound k N ltac:(lia)) as B. assert (X : k mod N * L < length pb) by (rewrite Lb; apply Nat.mul_lt_mono_pos_r; auto).
    split; auto. apply K; auto. rewrite <- E. rewrite (Nat.div_mod k N) at 2 by lia. rewrite Nat.add_comm, follow_add. f_equal. symmetry.
    rewrite Nat.mul_comm. apply follow_mul. rewrite <- follow_rpow by (auto; lia). rewrite RN, rounds_seq, seq_nth; auto.
Qed.

(** C134: a hunt bell does the same in every lead, and no other bell does. *)
Theorem C134_hunt_bells :
  forall m s ars lo fuel pc x lead_path e path f,
    block_holds (first_lead m) s ars lo -> ars <> [] -> is_identity (hd [] (map fst ars)) -> plain_course fuel m = Ret pc ->
    block_path_of (first_lead m) x = Ret (Some (lead_path, e)) -> block_path_of pc x = Ret (Some (path, f)) ->
    (hunt_bell lo x <-> exists n, path = concat (repeat lead_path n)).
Proof.
  intros m s ars lo fuel pc x lp e path f H Na I P El Ep.
  destruct (work m s ars lo fuel pc H Na I P) as (Vl & LL & N & N0 & RN & Mi & _ & W).
  destruct (W x path f Ep) as (Hx & Lp & Wx). pose proof (proj1 Vl) as Vv. pose proof (proj2 Vl) as Lo.
  pose proof (holds_brep _ _ _ _ H) as B. pose proof (brep_vrows _ _ _ _ B) as [Va _].
  destruct (proj1 (pf_C26_block_paths _ _ s ars lo x H) Hx) as (lp' & le & E1 & _ & F1 & _). rewrite El in E1. injection E1 as <- <-.
  pose proof (Forall2_len _ _ _ F1) as Ll. rewrite map_length in Ll. set (L := length ars) in *.
  assert (L0 : 0 < L) by (unfold L; destruct ars; [congruence|cbn; lia]).
  assert (Lead : forall i r, nth_error (map fst ars) i = Some r -> nth_error lp i = Some (place_in r x)).
  { intros i r Er. destruct (Forall2_nth_error_l _ _ _ _ _ F1 Er) as (p & -> & Bp). f_equal. symmetry. apply place_in_unique; [|apply Bp; auto].
    rewrite Forall_forall in Va. apply (Va r). eapply nth_error_In; eauto. }
  assert (Rep : forall n j i, i < L -> nth_error (concat (repeat lp n)) (j * L + i) = if j <? n then nth_error lp i else None).
  { induction n as [|n IH]; intros j i Hi; cbn [repeat concat].
    - destruct (j * L + i); auto.
    - destruct j as [|j].
      + cbn [Nat.mul Nat.add]. rewrite nth_error_app1 by lia. auto.
      + rewrite nth_error_app2 by lia. replace (S j * L + i - length lp) with (j * L + i) by lia. rewrite IH by auto. auto. }
  split.
  - intros Hu. exists N. apply nth_error_ext. intros t. destruct (split_index L t L0) as (j & i & -> & Hi). rewrite Rep by auto.
    destruct (Nat.ltb_spec j N) as [J|J].
    + destruct (nth_error (map fst ars) i) as [r|] eqn:Er; [|apply nth_error_None in Er; rewrite map_length in Er; unfold L in *; lia].
      destruct (Wx j i r Er) as (q & Lq & Fq & Nq). rewrite Nat.mod_small in Nq by nia. rewrite Nq, (Lead i r Er). do 2 f_equal.
      assert (Fx : follow lo j x = x).
      { clear - Hu. induction j as [|j IH]; auto. cbn [follow]. rewrite IH. apply nth_error_nth. auto. }
      apply (follow_inj lo j q x Vv); auto; try lia; congruence.
    + apply nth_error_None. nia.
  - intros (n & E). unfold hunt_bell. rewrite (nth_error_nth' _ 0) by lia. f_equal.
    destruct (nth_error (map fst ars) 0) as [r|] eqn:Er; [|destruct ars; [congruence|discriminate]].
    assert (Vr : vrow s r). { rewrite Forall_forall in Va. apply Va. eapply nth_error_In; eauto. }
    destruct (Nat.eq_dec N 1) as [->|N1].
    + transitivity (nth x (rpow lo 1) 0); [rewrite (rpow_1 s); auto|]. rewrite RN, rounds_seq, seq_nth; auto.
    + destruct (Wx 1 0 r Er) as (q & Lq & Fq & Nq). rewrite Nat.mod_small in Nq by nia. rewrite E, Rep in Nq by auto.
      destruct (1 <? n); [|discriminate]. rewrite (Lead 0 r Er) in Nq. injection Nq as X.
      pose proof (place_in_ok r x (proj1 Vr) ltac:(rewrite (proj2 Vr); auto)) as Y. pose proof (place_in_ok r q (proj1 Vr) ltac:(rewrite (proj2 Vr); auto)) as Y'.
      assert (q = x) as -> by congruence. cbn in Fq. auto.
Qed.

(** Plain Bob Minimus: the lead head is "1342"; two steps along it go from bell 1 (written 2) to bell 3 (written 4), so bell 1 begins with what bell 3
    does from the third lead on. *)
Example C134_example :
  exists pns lead pc p q e f, pn_block_parse (s2l "-14-14,12") 4 = Ret (Ok pns) /\
    pn_block_to_block_from_rounds None pns = Ret lead /\
    plain_course 3 (Method [] [] (FullClass false false false Bob) lead) = Ret pc /\
    block_path_of pc 1 = Ret (Some (p, e)) /\ block_path_of pc 3 = Ret (Some (q, f)) /\
    lead_head (Method [] [] (FullClass false false false Bob) lead) = Ret [0; 2; 3; 1] /\ follow [0; 2; 3; 1] 2 1 = 3 /\
    p = skipn 16 q ++ firstn 16 q /\ p <> skipn 8 q ++ firstn 8 q.
Proof. do 7 eexists. splits; vm_compute; try reflexivity. discriminate. Qed.
