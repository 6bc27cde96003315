(** Property theorems C106: how many rounds the loops of the API take. *)

(* Generated from tools/props/Cost.src: the proofs behind PropsCost.v. *)
From Verif Require Import Base Spec SpecCycle SpecCost ListFacts Bell Stage Parity Row RowFacts MulFacts ParityFacts GroupFacts GroupFacts2 CycleFacts
  Utils SameStageVec SpecVec SsvFacts Block SpecBlock BlockFacts PlaceNot Mask MaskFacts Class Method SpecMethod MethodFacts LawFacts2 TruthFacts EndFacts CostFacts Music SpecMask MusicFacts Steps StepFacts.
From Verif Require Import RowThms GroupThms Laws2Thms CycleThms MethodThms.
Local Open Scope list_scope.

Lemma pf_C106_parity :
  forall r reps, valid_row r -> one_of_each_cycle r reps ->
    takes (fun k => row_parity k r) (length r + (length r - length reps) + 1) /\
    length r + (length r - length reps) + 1 <= 2 * length r.
Proof.
  intros r reps V O. split.
  - unfold row_parity. apply takes_bind; [intros []; discriminate|]. rewrite Nat.add_1_r.
    apply (parity_rounds _ r 0 0 reps); auto; lia.
  - pose proof (valid_row_pos r V). pose proof (reps_le r reps O) as L. assert (length reps <> 0); [|lia].
    intros Z. apply length_zero_iff_nil in Z. subst reps. destruct O as (_ & _ & C & _). destruct (C 0 ltac:(lia)) as (x & [] & _).
Qed.

Lemma pf_C106_closures :
  forall r n, valid_row r -> lcm_of_cycles r n ->
    takes (fun k => closure k r) n /\ takes (fun k => closure_from_rounds k r) n /\
    (exists l, closure n r = Ret l /\ length l = n) /\ (exists l, closure_from_rounds n r = Ret l /\ length l = n) /\
    n <= fact (length r).
Proof.
  intros r n V O. assert (W : vrow (length r) r) by (split; auto). destruct (closure_ok _ r W) as (k & P & R & M & C1 & C2).
  pose proof (order_lcm r k V P R M) as Ok. assert (k = n) as -> by (eapply lcm_unique; eauto).
  assert (T1 : takes (fun k => closure k r) n).
  { pose proof (takes_closure r (S n) r _ (C1 (S n) ltac:(lia))) as T. rewrite map_length, seq_length in T. exact T. }
  assert (T2 : takes (fun k => closure_from_rounds k r) n).
  { pose proof (C2 (S n) ltac:(lia)) as C. unfold closure_from_rounds in C. rewrite valid_row_stage in C by auto. cbn [bind] in C.
    pose proof (takes_closure_from_rounds r (S n) _ _ C) as T. rewrite map_length, seq_length in T.
    eapply takes_ext; [|exact T]. intros k. unfold closure_from_rounds. rewrite valid_row_stage by auto. reflexivity. }
  destruct (pf_C99_the_order_is_the_lcm_of_the_cycles r V) as (Q & _).
  splits; auto.
  - exists (map (rpow r) (seq 1 n)). rewrite map_length, seq_length. split; auto. unfold closure.
    destruct n as [|n]; [lia|]. pose proof (closure_loop_ok (length r) r (S n) W R n 1 (S n)) as C.
    rewrite (rpow_1 (length r)) in C by auto. apply C; [lia|intros; apply M; lia|lia].
  - exists (map (rpow r) (seq 0 n)). rewrite map_length, seq_length. split; auto. unfold closure_from_rounds. rewrite valid_row_stage by auto. cbn [bind].
    destruct n as [|n]; [lia|]. change (row_rounds (length r)) with (rpow r 0).
    rewrite (closure_from_rounds_loop_ok (length r) r (S n) W R n); auto; try lia; intros; apply M; lia.
  - destruct (Q (S n) _ (C1 (S n) ltac:(lia))) as [_ D]. rewrite map_length, seq_length in D. apply Nat.divide_pos_le; auto. apply lt_O_fact.
Qed.

Lemma pf_C106_least_groups :
  (forall n rows, rows <> [] -> Forall (fun r => valid_row r /\ length r = n) rows ->
     exists size set, least_group_containing (S size) rows = Ret (Ok set) /\ length set = size /\
       takes (fun k => least_group_containing k rows) (S size) /\ Nat.divide size (fact n)) /\
  (forall rows, Forall valid_row rows -> (exists x y, In x rows /\ In y rows /\ length x <> length y) ->
     takes (fun k => least_group_containing k rows) 0).
Proof.
  split.
  - intros n rows Ne V. destruct (pf_C19_least_group n rows Ne V) as (f & H). destruct (H f (Nat.le_refl f)) as (set & E & N & Vs & G & I & _).
    exists (length set), set.
    assert (T : takes (fun k => least_group_containing k rows) (S (length set)) /\ (forall k, length set < k -> least_group_containing k rows = Ret (Ok set))).
    { unfold least_group_containing in *. destruct (lgc_seed None [] [] rows) as [[[s0 f0]|e]| | |] eqn:Se; cbn [bind] in E; try discriminate.
      destruct (seed_new _ _ _ _ _ _ Se) as (new & -> & ->). cbn [app] in *.
      destruct (lgc_loop f rows new new) as [out| | |] eqn:Lo; cbn [bind] in E; try discriminate. injection E as <-.
      destruct (takes_lgc rows f new new out Lo (Nat.le_refl _)) as [L T]. rewrite Nat.sub_diag, Nat.sub_0_r in T. split.
      - cbn [bind]. apply takes_bind; [discriminate|]. exact T.
      - intros k Hk. cbn [bind]. destruct (lgc_loop k rows new new) as [o| | |] eqn:Ek.
        + pose proof (lgc_loop_mono rows k new new o (k + f) Ek ltac:(lia)) as A. pose proof (lgc_loop_mono rows f new new out (k + f) Lo ltac:(lia)) as B.
          cbn [bind]. congruence.
        + pose proof (mono_lgc rows new new k (k + f) ltac:(lia)) as A. cbv beta in A. rewrite Ek in A.
          pose proof (lgc_loop_mono rows f new new out (k + f) Lo ltac:(lia)) as B. rewrite B in A. specialize (A ltac:(discriminate)). discriminate.
        + pose proof (mono_lgc rows new new k (k + f) ltac:(lia)) as A. cbv beta in A. rewrite Ek in A.
          pose proof (lgc_loop_mono rows f new new out (k + f) Lo ltac:(lia)) as B. rewrite B in A. specialize (A ltac:(discriminate)). discriminate.
        + apply T in Ek. lia. }
    destruct T as [T K]. splits; auto.
    assert (Pn : 0 < n). { destruct rows as [|r t]; [congruence|]. inversion V as [|? ? [Vr Lr] _]; subst. apply valid_row_pos; auto. }
    assert (Sn : set <> []). { destruct rows as [|r t]; [congruence|]. intros ->. apply (I r). left; auto. }
    replace (fact n) with (length (perms (seq 0 n))) by (rewrite length_perms, seq_length; auto).
    assert (Pm : forall r, In r (perms (seq 0 n)) <-> vrow n r).
    { intros r. rewrite In_perms. split; intros A.
      - pose proof (Permutation_length A) as L. rewrite seq_length in L. split; auto.
        apply valid_row_perm. split; [intros ->; cbn in L; lia|]. rewrite <- L. apply Permutation_sym, A.
      - destruct A as [A L]. apply valid_row_perm in A as [_ A]. rewrite L in A. apply Permutation_sym, A. }
    apply (cosets_divide n set N Sn Vs G (length (perms (seq 0 n))) (perms (seq 0 n))); auto.
    + apply NoDup_perms, seq_NoDup.
    + apply Forall_forall. intros x X. apply Pm; auto.
    + intros x h X Hh. apply Pm. apply valid_rmul; [apply Pm; auto|]. rewrite Forall_forall in Vs. apply Vs; auto.
  - intros rows V X k. destruct (pf_C19_least_group_errors rows k V X) as (a & b & _ & ->). split; [discriminate|lia].
Qed.

Lemma pf_C106_plain_courses :
  forall m s ars lo n, block_holds (first_lead m) s ars lo -> is_identity (hd [] (all_rows_of ars lo)) -> lcm_of_cycles lo n ->
    takes (fun k => plain_course k m) n /\ exists pc, plain_course n m = Ret pc /\ block_len pc = n * lead_len m.
Proof.
  intros m s ars lo n H I O.
  destruct (pf_C59_plain_course m s ars lo H I) as (k & pc & pars & pe & Hk & (e & Pe & Ie) & Min & Ec & B & _ & Ll & _).
  apply holds_brep in H. pose proof (brep_vrows _ _ _ _ H) as [F V]. apply holds_brep in B.
  apply power_fun in Pe. subst e. apply identity_rounds in Ie. rewrite (proj2 (vrow_rpow s lo k V)) in Ie.
  assert (Mn : forall j, 0 < j < k -> rpow lo j <> row_rounds s).
  { intros j Hj E. apply (Min j (rpow lo j) Hj); [eapply power_rpow; eauto|]. rewrite E. apply rounds_identity. }
  assert (k = n) as ->.
  { pose proof (proj2 V) as L. eapply lcm_unique; eauto. apply order_lcm; auto; [apply V|rewrite L; auto|rewrite L; auto]. }
  assert (Lp : block_len pc = n * lead_len m) by (unfold lead_len; rewrite (brep_len _ _ _ _ B), (brep_len _ _ _ _ H); auto).
  split; [|exists pc; split; auto].
  pose proof (Ec n (Nat.le_refl n)) as E. unfold plain_course in E.
  pose proof (brep_index_annots s ars lo (first_lead m) (fun i l => RowAnnot i l) H) as Hm. set (b := block_map_annots_with_index _ _) in *.
  assert (Lm : lead_len m = length ars) by (unfold lead_len; apply (brep_len _ _ _ _ H)).
  assert (Lb : block_len b = lead_len m).
  { rewrite (brep_len _ _ _ _ Hm), map_length, combine_length, seq_length, Lm. lia. }
  destruct (course_rounds s (lead_len m) n b _ lo pc Hm) as (j & T & Lo); auto.
  { rewrite map_length, combine_length, seq_length, Lm. lia. }
  assert (j < n). { destruct (Nat.lt_ge_cases j n) as [|G]; auto. assert (X : plain_course_loop n (lead_len m) b = NoFuel) by (apply T; lia). congruence. }
  assert (S j = n) as <-; [|exact T].
  destruct (Nat.eq_dec (lead_len m) 0) as [Z|Z]; [|rewrite Lb in Lo; nia].
  assert (n = 1); [|lia]. destruct (Nat.eq_dec n 1) as [|D]; auto. exfalso. apply (Mn 1); [lia|].
  rewrite (rpow_1 s) by auto. rewrite Lm in Z. apply length_zero_iff_nil in Z. subst ars. cbn in I. apply identity_rounds in I.
  rewrite I, (proj2 V). reflexivity.
Qed.

Lemma pf_C106_regex_matching :
  forall es r, valid_row r ->
    exists es' v ms a, regex_from_vec es = Ret es' /\ length es' <= length es /\
      c_run_match es' (enumerate r) [] = Ret ((v, ms), a) /\ run_match es' (enumerate r) [] = Ret (v, ms) /\
      regex_matches es' r = Ret v /\ match_pattern es' r = Ret (if v : bool then Some ms else None) /\
      of_elems a <= length es' + 1 /\ of_bells a <= length r + 1 /\
      (v = true -> of_elems a = length es' + 1 /\ (last es' RAny <> RGlob -> of_bells a = length r + 1)).
Proof.
  intros es r V. unfold regex_from_vec. rewrite normalise_ok.
  destruct (regex_run_row (norm es 0 false) r (nf_norm _ _ _) (valid_row_NoDup _ V)) as (v & ms & E & _).
  pose proof (c_run_ok (norm es 0 false) (enumerate r) []) as K.
  assert (L : length (enumerate r) = length r) by (rewrite <- (map_length fst); unfold enumerate; rewrite enumerate_fst; apply seq_length).
  rewrite L in K. destruct (c_run_match (norm es 0 false) (enumerate r) []) as [[x a]| | |] eqn:C; try (congruence || contradiction).
  destruct K as (K1 & K2 & K3 & K4). rewrite E in K1. injection K1 as <-. exists (norm es 0 false), v, ms, a.
  unfold regex_matches, match_pattern. rewrite E. pose proof (norm_shorter es 0 false). cbn [bind]. split; [reflexivity|]. split; [cbn in H; lia|]. splits; auto.
Qed.

Lemma pf_C106_group_test :
  forall rows set, Forall valid_row rows -> collected_set rows set ->
    let n := length set in
    (forall ok, is_group_set set = Ret (Ok ok) ->
       exists products inverses, c_is_group_set set = Ret (Ok ok, products, inverses) /\
         (ok = true -> products = n * n /\ inverses = n) /\
         (ok = false -> rows <> [] -> 1 <= inverses <= n /\ (inverses - 1) * n < products <= inverses * n)) /\
    (forall e, is_group_set set = Ret (Err e) -> c_is_group_set set = Ret (Err e, 0, 0)) /\
    (exists answer, is_group_set set = Ret answer).
Proof.
  intros rows set V C n. pose proof (c_is_group_ok set) as H. splits.
  - intros ok E. rewrite E in H. destruct H as (p & k & E' & L & T & F). exists p, k. splits; auto.
    intros O N. assert (set <> []) as Ns.
    { intros ->. destruct rows as [|r rows]; [congruence|]. destruct C as [_ C]. destruct (proj2 (C r)); left; auto. }
    destruct (F O Ns). subst n. splits; lia.
  - intros e E. rewrite E in H. auto.
  - destruct rows as [|r rows].
    { destruct set as [|x s]; [eexists; reflexivity|]. destruct C as [_ C]. destruct (proj1 (C x)); left; auto. }
    destruct (pf_C20_group_test (r :: rows) set V C) as [A B].
    destruct (Forall_dec (fun x => length x = length r) (fun x => Nat.eq_dec (length x) (length r)) (r :: rows)) as [Y|Nn].
    + destruct (B _ Y) as (ok & E & _). eauto.
    + apply neg_Forall_Exists_neg in Nn; [|intros x; apply Nat.eq_dec]. apply Exists_exists in Nn. destruct Nn as (x & Hx & D).
      destruct (proj2 A) as (e & E); [exists x, r; splits; auto; left; auto|]. eauto.
Qed.
