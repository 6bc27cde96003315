(** Property theorems C123: the paths of the bells. *)

(* Generated from tools/props/Path.src: the proofs behind PropsPath.v. *)
From Verif Require Import Base Spec ListFacts Bell Stage Row RowFacts MulFacts GroupFacts
  Utils SameStageVec SpecVec SsvFacts Block SpecBlock BlockFacts PlaceNot SpecPn PnFacts PnFacts2 PnFacts3 LawFacts
  Class Method SpecMethod MethodFacts BellPathFacts.
From Verif Require Import SsvThms BlockThms PnThms MethodThms.
Local Open Scope list_scope.

Lemma pf_C123_one_bell_at_each_place :
  forall v s rs i p, holds v s rs -> i < length rs -> p < s ->
    exists b, b < s /\ forall c path, ssv_path_of v c = Ret (Some path) -> (nth_error path i = Some p <-> c = b).
Proof.
  intros v s rs i p H Hi Hp. destruct (nth_error rs i) as [r|] eqn:Er; [|apply nth_error_None in Er; lia].
  assert (Vr : vrow s r) by (destruct H as (_ & _ & F & _); rewrite Forall_forall in F; apply F; eapply nth_error_In; eauto).
  destruct (nth_error r p) as [b|] eqn:Eb; [|apply nth_error_None in Eb; destruct Vr; lia].
  exists b. split.
  - destruct Vr as [(_ & _ & Vr) L]. rewrite <- L. apply Vr. eapply nth_error_In; eauto.
  - intros c path Ep. destruct (Nat.lt_ge_cases c s) as [Lc|Lc].
    + destruct (proj1 (pf_C26_paths v s rs c H) Lc) as (path' & Ep' & F). rewrite Ep in Ep'. injection Ep' as <-.
      destruct (Forall2_nth_error_l _ _ _ _ _ F Er) as (j & Ej & J). rewrite Ej. split.
      * intros [= ->]. specialize (proj2 (J p) eq_refl). congruence.
      * intros ->. f_equal. symmetry. apply J. auto.
    + rewrite (proj2 (pf_C26_paths v s rs c H) Lc) in Ep. discriminate.
Qed.

Lemma pf_C123_paths_determine_the_rows :
  forall v w s rs ss, holds v s rs -> holds w s ss -> (forall b, b < s -> ssv_path_of v b = ssv_path_of w b) -> v = w.
Proof.
  intros v w s rs ss H K P.
  assert (E : rs = ss).
  { apply nth_error_ext. intros i.
    destruct (proj1 (pf_C26_paths v s rs 0 H) (proj1 H)) as (p0 & E0 & F0). destruct (proj1 (pf_C26_paths w s ss 0 K) (proj1 H)) as (p1 & E1 & F1).
    rewrite (P 0 (proj1 H)) in E0. rewrite E1 in E0. injection E0 as ->. apply Forall2_len in F0, F1.
    destruct (nth_error rs i) as [r|] eqn:Er, (nth_error ss i) as [q|] eqn:Eq; auto.
    - f_equal.
      assert (Vr : vrow s r) by (destruct H as (_ & _ & F & _); rewrite Forall_forall in F; apply F; eapply nth_error_In; eauto).
      assert (Vq : vrow s q) by (destruct K as (_ & _ & F & _); rewrite Forall_forall in F; apply F; eapply nth_error_In; eauto).
      apply nth_error_ext. intros j. destruct (nth_error r j) as [b|] eqn:Eb.
      + assert (Lb : b < s). { destruct Vr as [(_ & _ & Vr) L]. rewrite <- L. apply Vr. eapply nth_error_In; eauto. }
        destruct (proj1 (pf_C26_paths v s rs b H) Lb) as (p & E & F). destruct (proj1 (pf_C26_paths w s ss b K) Lb) as (p' & E' & F').
        rewrite (P b Lb), E' in E. injection E as ->.
        destruct (Forall2_nth_error_l _ _ _ _ _ F Er) as (x & X & X'). destruct (Forall2_nth_error_l _ _ _ _ _ F' Eq) as (y & Y & Y').
        apply X' in Eb. subst j. rewrite X in Y. injection Y as ->. symmetry. apply Y'. reflexivity.
      + symmetry. apply nth_error_None. apply nth_error_None in Eb. destruct Vr, Vq. lia.
    - exfalso. apply nth_error_None in Eq. assert (i < length rs) by (apply nth_error_Some; congruence). lia.
    - exfalso. apply nth_error_None in Er. assert (i < length ss) by (apply nth_error_Some; congruence). lia. }
  subst ss. apply holds_rep in H, K. destruct H as (_ & H1 & _ & H2), K as (_ & K1 & _ & K2). destruct v, w. cbn in *. congruence.
Qed.

Lemma pf_C123_one_place_at_a_time :
  forall pns start s v b path i p q pn, pns <> [] -> Forall (fun pn => legal pn /\ pn_stage pn = s) pns ->
    valid_row start -> length start = s -> pn_block_to_rows pns start = Ret (Ok v) ->
    ssv_path_of v b = Ret (Some path) -> nth_error pns i = Some pn -> nth_error path i = Some p -> nth_error path (i + 1) = Some q ->
    (In p (pn_places pn) -> q = p) /\
    (~ In p (pn_places pn) -> ~ In q (pn_places pn) /\ (q = p + 1 \/ p = q + 1)).
Proof.
  intros pns start s v b path i p q pn N F V L E P Hpn Hp Hq.
  destruct (to_rows_ok pns start s N F (conj V L)) as (w & rs & y & E1 & Rv & Ru). rewrite E in E1. injection E1 as <-.
  pose proof (proj2 (holds_rep _ _ _) Rv) as H.
  destruct (Nat.lt_ge_cases b s) as [Lb|Lb]; [|rewrite (proj2 (pf_C26_paths v s _ b H) Lb) in P; discriminate].
  destruct (proj1 (pf_C26_paths v s _ b H) Lb) as (path' & P' & F2). rewrite P in P'. injection P' as <-.
  destruct (Forall2_nth_error_r _ _ _ _ _ F2 Hp) as (r & Er & Br). destruct (Forall2_nth_error_r _ _ _ _ _ F2 Hq) as (r' & Er' & Br').
  destruct (rung_nth _ _ _ _ _ _ _ Ru Er Er') as (pn' & Hpn' & Ri). rewrite Hpn in Hpn'. injection Hpn' as <-.
  destruct (rings_moves _ _ _ _ Ri p b) as (q' & Q & D); [apply Br; auto|]. apply Br' in Q. subst q'. cbn in D. split.
  - intros I. destruct D as [[_ ->]|[D _]]; [auto|contradiction].
  - intros I. destruct D as [[D _]|(_ & D1 & D2)]; [contradiction|]. split; auto. lia.
Qed.

Lemma pf_C123_place_bells :
  forall m s ars lo fuel pc pars pe j h c b lead_path e path f i p,
    block_holds (first_lead m) s ars lo -> is_identity (hd [] (all_rows_of ars lo)) ->
    plain_course fuel m = Ret pc -> block_holds pc s pars pe ->
    power lo j h -> nth_error h c = Some b ->
    block_path_of (first_lead m) c = Ret (Some (lead_path, e)) -> block_path_of pc b = Ret (Some (path, f)) ->
    i < length ars -> nth_error path (j * length ars + i) = Some p -> nth_error lead_path i = Some p.
Proof.
  intros m s ars lo fuel pc pars pe j h c b lead_path e path f i p H I Epc Hpc Pw Hc Pl Pp Hi Hp.
  pose proof (holds_brep _ _ _ _ H) as B. pose proof (brep_vrows _ _ _ _ B) as [Va Vl].
  apply power_fun in Pw. subst h. pose proof (vrow_rpow s lo j Vl) as Vh.
  assert (Lc : c < s) by (rewrite <- (proj2 Vh); apply nth_error_Some; congruence).
  assert (Lb : b < s). { destruct Vh as [(_ & _ & W) L]. rewrite <- L. apply W. eapply nth_error_In; eauto. }
  destruct (proj1 (pf_C26_block_paths _ _ s ars lo c H) Lc) as (lp & le & E1 & _ & F1 & _). rewrite Pl in E1. injection E1 as <- <-.
  destruct (proj1 (pf_C26_block_paths _ _ s pars pe b Hpc) Lb) as (pp & ppe & E2 & _ & F2 & _). rewrite Pp in E2. injection E2 as <- <-.
  destruct (Forall2_nth_error_r _ _ _ _ _ F2 Hp) as (r' & Er' & Br').
  destruct (nth_error ars i) as [[r l]|] eqn:Er; [|apply nth_error_None in Er; lia].
  assert (Er1 : nth_error (map fst ars) i = Some r) by (rewrite nth_error_map, Er; reflexivity).
  destruct (Forall2_nth_error_l _ _ _ _ _ F1 Er1) as (q & Eq & Bq).
  assert (Vr : vrow s r) by (rewrite Forall_forall in Va; apply Va; eapply nth_error_In; eauto).
  assert (Lx : j * length ars + i < length pars).
  { rewrite <- (map_length fst pars). apply nth_error_Some. congruence. }
  assert (R : row_in_plain_course m (j * length ars + i) = Ret (rmul (rpow lo j) r)).
  { pose proof (pf_C59_getters m s ars lo i H) as (_ & G2 & G3 & G4 & _). unfold row_in_plain_course. rewrite G2, G3.
    replace (negb (length ars =? 0)) with true by (symmetry; apply negb_true_iff, Nat.eqb_neq; lia). cbn [assert_ bind].
    rewrite Nat.div_add_l, (Nat.div_small i), Nat.add_0_r, (pow_u_ok s) by (auto; lia). cbn [bind].
    rewrite Nat.add_comm, Nat.mod_add, Nat.mod_small, (G4 r l Er) by lia. cbn [bind]. apply (row_mul_ok s); auto. }
  destruct (pf_C59_row_in_plain_course m s ars lo fuel pc pars pe (j * length ars + i) H I) as (x & a & Ex & Rx); auto.
  { intros ->. cbn in Hi. lia. }
  rewrite R in Rx. injection Rx as <-. rewrite Nat.mod_small in Ex by auto.
  rewrite nth_error_map, Ex in Er'. injection Er' as <-.
  rewrite Eq. f_equal. apply Br'. rewrite nth_error_rmul. assert (Eb : nth_error r q = Some c) by (apply Bq; auto). rewrite Eb. cbn.
  f_equal. apply nth_error_nth. exact Hc.
Qed.
