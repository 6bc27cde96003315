(** Property theorems C137: where the repeated rows of a plain course can be. *)

(* Generated from tools/props/RepeatPlace.src: the proofs behind PropsRepeatPlace.v. *)
From Verif Require Import Base Spec ListFacts Bell Stage Row RowFacts MulFacts GroupFacts
  Utils SameStageVec SpecVec SsvFacts Block SpecBlock BlockFacts PlaceNot SpecPn Class SpecClass ClassFacts ClassFacts2 ClassFacts3
  Method SpecMethod SpecHunt BellPathFacts PlainFacts RepeatPlaceFacts.
From Verif Require Import TruthThms.
Local Open Scope list_scope.

Lemma pf_C137_hunt_bells_in_the_same_places :
  forall m s ars lo fuel pc pars pe fuel' powers,
    block_holds (first_lead m) s ars lo -> is_identity (hd [] (all_rows_of ars lo)) ->
    plain_course fuel m = Ret pc -> block_holds pc s pars pe -> closure fuel' lo = Ret powers ->
    (NoDup (map fst pars) <->
     forall i j r q x, i <> j -> nth_error (map fst ars) i = Some r -> nth_error (map fst ars) j = Some q ->
       (forall b, hunt_bell lo b -> place_in r b = place_in q b) -> solve_xa_equals_b r q = Ret (Ok x) -> ~ In x powers).
Proof.
  intros m s ars lo fuel pc pars pe fuel' powers H I Epc B Ecl.
  rewrite (pf_C105_true_plain_courses m s ars lo fuel pc pars pe fuel' powers H I Epc B Ecl).
  apply holds_brep in H. pose proof (brep_vrows _ _ _ _ H) as [F V]. rewrite Forall_forall in F. set (R := map fst ars) in *. split.
  - intros [N T] i j r q x D Ei Ej _ Es Ix. apply D. apply (proj1 (NoDup_nth_error R) N); [apply nth_error_Some; congruence|].
    rewrite Ei, Ej. f_equal. apply (T r q x); [apply (nth_error_In _ _ Ei)|apply (nth_error_In _ _ Ej)|auto|auto].
  - intros T. split.
    + apply NoDup_nth_error. intros i j Hi E. destruct (nth_error R i) as [r|] eqn:Er; [|apply nth_error_None in Er; lia].
      destruct (Nat.eq_dec i j) as [|D]; auto. exfalso. pose proof (F r (nth_error_In _ _ Er)) as Vr.
      apply (T i j r r (row_rounds s) D Er (eq_sym E)); auto.
      * rewrite (solve_xa_ok s), (rmul_rinv_r s) by auto. auto.
      * apply (power_list s lo fuel' powers _ V Ecl). exists 0. cbn. rewrite (proj2 V). auto.
    + intros p q x Ip Iq Es Ix. pose proof (F p Ip) as Vp. pose proof (F q Iq) as Vq.
      apply In_nth_error in Ip as (i & Ei). apply In_nth_error in Iq as (j & Ej). destruct (Nat.eq_dec i j) as [->|D]; [congruence|]. exfalso.
      apply (T i j p q x D Ei Ej); auto. intros b Hb. apply (power_places s lo fuel' powers x); auto.
Qed.

Lemma pf_C137_plain_methods :
  forall m s ars lo fuel pc pars pe fuel' powers t a h k,
    block_holds (first_lead m) s ars lo -> is_identity (hd [] (all_rows_of ars lo)) ->
    plain_course fuel m = Ret pc -> block_holds pc s pars pe -> closure fuel' lo = Ret powers ->
    hunt_bell lo t -> length ars = 2 * h ->
    (forall i, i < 2 * h -> nth_error (path_in (map fst ars) t) ((k + i) mod (2 * h)) = Some (a + out_and_in h i)) ->
    (NoDup (map fst pars) <->
     forall i r q x, i < h -> nth_error (map fst ars) ((k + i) mod (2 * h)) = Some r ->
       nth_error (map fst ars) ((k + (2 * h - 1 - i)) mod (2 * h)) = Some q -> solve_xa_equals_b r q = Ret (Ok x) -> ~ In x powers).
Proof.
  intros m s ars lo fuel pc pars pe fuel' powers t a h k H I Epc B Ecl Ht L K.
  rewrite (pf_C137_hunt_bells_in_the_same_places m s ars lo fuel pc pars pe fuel' powers H I Epc B Ecl).
  apply holds_brep in H. pose proof (brep_vrows _ _ _ _ H) as [F V]. rewrite Forall_forall in F. set (R := map fst ars) in *.
  assert (LR : length R = 2 * h) by (unfold R; rewrite map_length; auto).
  assert (Inj : forall i j, i < 2 * h -> j < 2 * h -> (k + i) mod (2 * h) = (k + j) mod (2 * h) -> i = j).
  { intros i j Hi Hj E. destruct (Nat.lt_trichotomy i j) as [D|[D|D]]; auto; exfalso.
    - apply (mod_apart (2 * h) (k + i) (k + j)); auto; lia.
    - apply (mod_apart (2 * h) (k + j) (k + i)); auto; lia. }
  assert (Sur : forall i, i < 2 * h -> exists u, u < 2 * h /\ (k + u) mod (2 * h) = i).
  { intros i Hi. exists ((i + (2 * h - k mod (2 * h))) mod (2 * h)). assert (k mod (2 * h) < 2 * h) by (apply Nat.mod_upper_bound; lia).
    split; [apply Nat.mod_upper_bound; lia|]. rewrite Nat.add_mod_idemp_r by lia. rewrite <- Nat.add_mod_idemp_l by lia.
    replace (k mod (2 * h) + (i + (2 * h - k mod (2 * h)))) with (i + 1 * (2 * h)) by lia. rewrite Nat.mod_add by lia. apply Nat.mod_small; auto. }
  assert (Pl : forall u r, u < 2 * h -> nth_error R ((k + u) mod (2 * h)) = Some r -> place_in r t = a + out_and_in h u).
  { intros u r Hu Er. specialize (K u Hu). unfold path_in in K. rewrite nth_error_map, Er in K. cbn in K. congruence. }
  assert (Sv : forall r q x, vrow s r -> vrow s q -> solve_xa_equals_b r q = Ret (Ok x) -> solve_xa_equals_b q r = Ret (Ok (rinv x))).
  { intros r q x Vr Vq E. rewrite (solve_xa_ok s) in * by auto. injection E as <-. do 2 f_equal. apply (rmul_cancel_l s (rmul q (rinv r))); auto using valid_rmul, valid_rinv.
    rewrite (rmul_rinv_r s) by auto using valid_rmul, valid_rinv. rewrite (rmul_assoc_vrow s), <- (rmul_assoc_vrow s (rinv r)) by auto using valid_rmul, valid_rinv.
    rewrite (rmul_rinv_l s), (rmul_rounds_l_vrow s), (rmul_rinv_r s) by auto using valid_rinv. auto. }
  split.
  - intros T i r q x Hi Er Eq Es Ix. assert (Vr := F r (nth_error_In _ _ Er)). assert (Vq := F q (nth_error_In _ _ Eq)).
    apply (T _ _ r q x) with (2 := Er) (3 := Eq); auto.
    + intros E. apply Inj in E; lia.
    + intros b Hb. apply (power_places s lo fuel' powers x); auto.
  - intros T i j r q x D Ei Ej Hp Es Ix.
    assert (Li : i < 2 * h) by (rewrite <- LR; apply nth_error_Some; congruence). assert (Lj : j < 2 * h) by (rewrite <- LR; apply nth_error_Some; congruence).
    destruct (Sur i Li) as (u & Hu & Eu). destruct (Sur j Lj) as (w & Hw & Ew).
    assert (Vr := F r (nth_error_In _ _ Ei)). assert (Vq := F q (nth_error_In _ _ Ej)).
    rewrite <- Eu in Ei. rewrite <- Ew in Ej. pose proof (Pl u r Hu Ei) as P1. pose proof (Pl w q Hw Ej) as P2. rewrite (Hp t Ht), P2 in P1.
    assert (Duw : u <> w) by congruence.
    assert (Mir : w = 2 * h - 1 - u). { unfold out_and_in in P1. destruct (Nat.ltb_spec u h), (Nat.ltb_spec w h); lia. }
    destruct (Nat.lt_ge_cases u h) as [Hh|Hh].
    + apply (T u r q x); auto. rewrite <- Mir. auto.
    + apply (T w q r (rinv x)); auto; [lia|replace (2 * h - 1 - w) with u by lia; auto|apply (power_inv s lo fuel' powers); auto].
Qed.

Lemma pf_C137_touches :
  forall v s rs heads leads t, holds v s rs -> Forall (fun h => valid_row h /\ length h = s /\ nth_error h t = Some t) heads -> heads <> [] ->
    Forall2 (fun h lead => exists vh, ssv_pre_multiply v h = Ret (vh, Ok tt) /\ ssv_rows vh = Ret lead) heads leads ->
    (NoDup (concat leads) <->
     NoDup rs /\
     forall i j a b x p q, i < j -> nth_error heads i = Some a -> nth_error heads j = Some b ->
       solve_ax_equals_b a b = Ret (Ok x) -> In p rs -> In q rs -> place_in p t = place_in q t -> solve_xa_equals_b p q <> Ret (Ok x)).
Proof.
  intros v s rs heads leads t H Fh Nh F2.
  rewrite (pf_C105_true_touches v s rs heads leads H); auto.
  2: { eapply Forall_impl; [|apply Fh]. cbn. tauto. }
  rewrite Forall_forall in Fh. assert (Fr : forall p, In p rs -> vrow s p) by (apply Forall_forall; apply holds_rep in H; apply H).
  split; intros [N T]; split; auto.
  - intros i j a b x p q L Ea Eb Ex Ip Iq _. eapply T; eauto.
  - intros i j a b x p q L Ea Eb Ex Ip Iq Es. refine (T i j a b x p q L Ea Eb Ex Ip Iq _ Es).
    destruct (Fh a (nth_error_In _ _ Ea)) as (Va & La & Ta). destruct (Fh b (nth_error_In _ _ Eb)) as (Vb & Lb & Tb).
    assert (Tl : t < s) by (rewrite <- La; apply nth_error_Some; congruence).
    pose proof (Fr p Ip) as Vp. pose proof (Fr q Iq) as Vq. rewrite (solve_xa_ok s) in Es by auto. injection Es as Es.
    assert (Vx : vrow s x) by (rewrite <- Es; auto using valid_rmul, valid_rinv).
    assert (Eq : q = rmul x p). { rewrite <- Es, (rmul_assoc_vrow s), (rmul_rinv_l s), rmul_rounds_r by (auto using valid_rinv; apply Vq). reflexivity. }
    assert (Wa : vrow s a) by (split; auto). assert (Wb : vrow s b) by (split; auto).
    unfold solve_ax_equals_b in Ex. rewrite row_inv_ok in Ex by apply Wa. cbn [bind] in Ex. rewrite (mul_result_ok s) in Ex by auto using valid_rinv. injection Ex as Ex.
    assert (Eb' : b = rmul a x).
    { rewrite <- Ex, <- (rmul_assoc_vrow s), (rmul_rinv_r s), (rmul_rounds_l_vrow s) by auto using valid_rinv. reflexivity. }
    assert (Xt : nth_error x t = Some t).
    { destruct (nth_error x t) as [u|] eqn:Eu; [|apply nth_error_None in Eu; destruct Vx; lia]. rewrite Eb', nth_error_rmul, Eu in Tb. cbn in Tb. injection Tb as Tb.
      f_equal. apply (proj1 (NoDup_nth a 0) (proj1 (proj2 Va))); [| |rewrite Tb; symmetry; apply nth_error_nth; auto].
      - rewrite La, <- (proj2 Vx). apply (proj2 (proj2 (proj1 Vx))). eapply nth_error_In; eauto.
      - lia. }
    assert (Pp : nth_error p (place_in p t) = Some t) by (apply place_in_ok; [apply Vp|rewrite (proj2 Vp); auto]).
    symmetry. apply place_in_unique; [apply Vq|]. rewrite Eq, nth_error_rmul, Pp. cbn. f_equal. apply nth_error_nth. auto.
Qed.
