(** Property theorems C129: when the rows which a mask matches are a group, and what they are otherwise. *)

(* Generated from tools/props/MaskGroup.src: the proofs behind PropsMaskGroup.v. *)
From Verif Require Import Base Bell Stage Row Music Mask Spec SpecMask ListFacts BellFacts RowFacts MulFacts GroupFacts GroupFacts2 MaskFacts
  MaskFacts2 MusicFacts MusicFacts2 MusicFacts3 SsvFacts.
From Verif Require Import GroupThms MaskThms.
Local Open Scope list_scope.

Lemma pf_C129_when_they_are_a_group :
  forall m rows set, m <> [] -> (forall r, In r rows <-> valid_row r /\ mask_matches m r = Ret true) -> rows <> [] ->
    collected_set rows set ->
    exists ok, is_group_set set = Ret (Ok ok) /\ (ok = true <-> forall p b, specifies m p b -> p = b).
Proof.
  intros m rows set N I Ne C. assert (K : forall r, In r rows <-> valid_row r /\ fits m r).
  { intros r. rewrite I. split; intros [V H]; split; auto; destruct (pf_C46_matches m r N V) as (v & E & F).
    - apply F. congruence.
    - rewrite E. f_equal. apply F; auto. }
  assert (Fv : Forall valid_row rows) by (apply Forall_forall; intros r R; apply K in R; tauto).
  assert (Fl : Forall (fun r => length r = length m) rows) by (apply Forall_forall; intros r R; apply K in R as [_ [L _]]; auto).
  assert (P : 0 < length m) by (destruct m; [congruence|cbn; lia]).
  destruct (proj2 (pf_C20_group_test rows set Fv C) (length m) Fl) as (ok & E & H). exists ok. split; auto. rewrite H. split.
  - intros [_ G] p b S. assert (R : In (row_rounds (length m)) rows).
    { apply (sg_identity _ _ G); [apply length_rounds|apply rounds_identity]. }
    apply K in R as [_ [_ R]]. specialize (R p b S). rewrite rounds_seq, nth_error_seq in R.
    destruct (p <? length m); [|discriminate]. injection R as R. auto.
  - intros S. split; auto.
    assert (S' : forall p b, specifies m p b -> specifies m p p /\ p < length m).
    { intros p b Sp. pose proof (S p b Sp) as ->. split; auto. unfold specifies in Sp. apply nth_error_Some. congruence. }
    assert (Q : forall r, vrow (length m) r -> (forall p, specifies m p p -> nth_error r p = Some p) -> In r rows).
    { intros r [V L] F. apply K. split; auto. split; auto. intros p b Sp. pose proof (S p b Sp) as ->. auto. }
    assert (Q' : forall r, In r rows -> vrow (length m) r /\ forall p, specifies m p p -> nth_error r p = Some p).
    { intros r R. apply K in R as [V [L F]]. split; [split; auto|]. auto. }
    split.
    + intros e L Id. apply Q.
      * apply identity_rounds in Id. rewrite Id, L. apply valid_rounds; auto.
      * intros p Sp. destruct (S' p p Sp) as [_ Lp]. destruct (nth_error e p) as [x|] eqn:Ex; [|apply nth_error_None in Ex; lia].
        f_equal. apply (Id p x Ex).
    + intros a b c A B Cm. apply Q' in A as [Va A], B as [Vb B]. apply Q.
      * rewrite (composition_fun a b c Cm). apply valid_rmul; auto.
      * intros p Sp. destruct (proj2 Cm p p (B p Sp)) as (y & Y1 & Y2). rewrite (A p Sp) in Y1. congruence.
    + intros a b e A Lb Le Vb Id Cm. apply Q' in A as [Va A]. apply Q; [split; auto|]. intros p Sp. destruct (S' p p Sp) as [_ Lp].
      destruct (nth_error b p) as [x|] eqn:Ex; [|apply nth_error_None in Ex; lia]. destruct (proj2 Cm p x Ex) as (y & Y1 & Y2).
      apply (Id p y) in Y2. subst y. f_equal. apply (proj1 (NoDup_nth_error a) (proj1 (proj2 (proj1 Va)))).
      * apply nth_error_Some. congruence.
      * rewrite Y1. symmetry. apply A; auto.
Qed.

Lemma pf_C129_otherwise_a_coset :
  forall m r0 places bells, m <> [] -> valid_row r0 -> mask_matches m r0 = Ret true ->
    (forall p, In p places <-> exists b, specifies m p b) -> (forall b, In b bells <-> exists p, specifies m p b) ->
    exists fp fb, mask_fix_bells (length m) places = Ret fp /\ mask_fix_bells (length m) bells = Ret fb /\
      (forall r, valid_row r -> length r = length m ->
         (mask_matches m r = Ret true <-> exists h, valid_row h /\ mask_matches fp h = Ret true /\ row_mul r0 h = Ret r) /\
         (mask_matches m r = Ret true <-> exists h, valid_row h /\ mask_matches fb h = Ret true /\ row_mul h r0 = Ret r)).
Proof.
  intros m r0 places bells N V0 M0 HP HB.
  assert (K : forall m' r, m' <> [] -> valid_row r -> (mask_matches m' r = Ret true <-> fits m' r)).
  { intros m' r N' V. destruct (pf_C46_matches m' r N' V) as (v & E & H). rewrite E, <- H. destruct v; split; congruence. }
  apply K in M0 as [L0 F0]; auto. set (n := length m) in *.
  assert (R0 : vrow n r0) by (split; auto). assert (P : 0 < n) by (subst n; destruct m; [congruence|cbn; lia]).
  destruct (proj1 (pf_C50_fix_bells n places P)) as (fp & Ep & Lp & _ & Sp).
  { apply Forall_forall. intros p I. apply HP in I as (b & I). subst n. apply nth_error_Some. unfold specifies in I. congruence. }
  destruct (proj1 (pf_C50_fix_bells n bells P)) as (fb & Eb & Lb & _ & Sb).
  { apply Forall_forall. intros b I. apply HB in I as (p & I). apply F0 in I. destruct R0 as [V L]. rewrite <- L. apply V. apply nth_error_In in I. auto. }
  exists fp, fb. splits; auto. intros r V L.
  assert (Np : fp <> []) by (intros ->; cbn in Lp; lia). assert (Nb : fb <> []) by (intros ->; cbn in Lb; lia).
  assert (R : vrow n r) by (split; auto). pose proof (valid_rinv n r0 R0) as Ri.
  rewrite (K m r) by auto. split; split.
  - intros [_ F]. assert (Vh : vrow n (rmul (rinv r0) r)) by (apply valid_rmul; auto). exists (rmul (rinv r0) r). split; [apply Vh|]. split.
    + apply K; auto; [apply Vh|]. split; [rewrite Lp; apply Vh|]. intros p b S. apply Sp in S as [-> S]. apply HP in S as (x & S).
      pose proof (F _ _ S) as Fx. pose proof (F0 _ _ S) as Fy.
      assert (C : composition (rinv r0) r0 (row_rounds n)) by (rewrite <- (rmul_rinv_l n r0 R0); apply (composition_vrow n); auto).
      destruct (proj2 C _ _ Fy) as (y & Y1 & Y2). apply (rounds_identity n) in Y2. subst y.
      destruct (proj2 (composition_vrow n (rinv r0) r Ri R) _ _ Fx) as (y & Z1 & Z2). congruence.
    + rewrite (row_mul_ok n) by auto. rewrite <- (rmul_assoc_vrow n), (rmul_rinv_r n), rmul_rounds_l_vrow by auto. reflexivity.
  - intros (h & Vh & Mh & E). apply K in Mh as [Lh Fh]; auto. assert (H : vrow n h) by (split; auto; congruence).
    rewrite (row_mul_ok n) in E by auto. injection E as <-. split; [apply R|]. intros p b S.
    assert (Hp : nth_error h p = Some p) by (apply Fh, Sp; split; auto; apply HP; eauto).
    destruct (proj2 (composition_vrow n r0 h R0 H) _ _ Hp) as (y & Y1 & Y2). rewrite (F0 _ _ S) in Y1. congruence.
  - intros [_ F]. assert (Vh : vrow n (rmul r (rinv r0))) by (apply valid_rmul; auto). exists (rmul r (rinv r0)). split; [apply Vh|]. split.
    + apply K; auto; [apply Vh|]. split; [rewrite Lb; apply Vh|]. intros p b S. apply Sb in S as [-> S]. apply HB in S as (p & S).
      pose proof (F _ _ S) as Fx. pose proof (F0 _ _ S) as Fy.
      assert (C : composition (rinv r0) r0 (row_rounds n)) by (rewrite <- (rmul_rinv_l n r0 R0); apply (composition_vrow n); auto).
      destruct (proj2 C _ _ Fy) as (y & Y1 & Y2). apply (rounds_identity n) in Y2. subst y.
      destruct (proj2 (composition_vrow n r (rinv r0) R Ri) _ _ Y1) as (y & Z1 & Z2). congruence.
    + rewrite (row_mul_ok n) by auto. rewrite (rmul_assoc_vrow n), (rmul_rinv_l n), rmul_rounds_r by (auto; apply R). reflexivity.
  - intros (h & Vh & Mh & E). apply K in Mh as [Lh Fh]; auto. assert (H : vrow n h) by (split; auto; congruence).
    rewrite (row_mul_ok n) in E by auto. injection E as <-. split; [apply R|]. intros p b S.
    destruct (proj2 (composition_vrow n h r0 H R0) _ _ (F0 _ _ S)) as (y & Y1 & Y2).
    assert (Hb : nth_error h b = Some b) by (apply Fh, Sb; split; auto; apply HB; eauto). congruence.
Qed.
