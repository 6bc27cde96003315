(** Property theorems C146: round touches of plain and called leads. *)

(* Generated from tools/props/Round.src: the proofs behind PropsRound.v. *)
From Coq Require Import Factorial.
From Verif Require Import Base Spec ListFacts Bell Stage Parity Row RowFacts MulFacts ParityFacts GroupFacts
  Utils SameStageVec SpecVec SsvFacts Block SpecBlock BlockFacts PlaceNot SpecPn PnFacts PnFacts2 PnFacts3 LawFacts LawFacts2
  SymFacts3 ShapeFacts SpecHunt HuntFacts BobFacts SpecGrandsire GrandsireFacts EvenFacts EvenBobFacts ConjFacts RoundFacts SpecRound RoundFacts2.
Local Open Scope list_scope.

Lemma pf_C146_round_touches :
  forall A (d : A) n plain called calls pb cb p c p' q f l g l' b ars, 0 < n -> plain <> [] -> length called = length plain -> calls <> [] ->
    Forall (fun pn => legal pn /\ pn_stage pn = n) plain -> Forall (fun pn => legal pn /\ pn_stage pn = n) called ->
    pn_block_to_block_from_rounds tt plain = Ret pb -> block_leftover_row pb = Ret p ->
    pn_block_to_block_from_rounds tt called = Ret cb -> block_leftover_row cb = Ret c ->
    row_inv p = Ret p' -> row_mul c p' = Ret q -> closure f p = Ret l -> closure g q = Ret l' -> Nat.Odd (length l') ->
    pn_block_to_block_from_rounds d (touch_of plain called calls) = Ret b -> block_holds b n ars (seq 0 n) -> NoDup (map fst ars) ->
    (forall i r, i < length calls -> nth_error (map fst ars) (i * length plain) = Some r ->
      exists j r', j < length calls /\ composition r p r' /\ nth_error (map fst ars) (j * length plain) = Some r') ->
    exists courses, Nat.Odd courses /\ length calls = courses * length l.
Proof.
  intros A d n plain called calls pb cb p c p' q f l g l' b ars Hn Np Lc Nc Fp Fc Epb Ep Ecb Ec Ei Eq Cl Cl' Od E H Nd Cd.
  destruct (lead_crs n plain Hn Np Fp tt) as (pb0 & pars & E1 & H1 & _). rewrite Epb in E1. injection E1 as <-.
  pose proof (Nca n plain called Hn Np Fp Lc) as Nca.
  destruct (lead_crs n called Hn Nca Fc tt) as (cb0 & cars & E2 & H2 & _). rewrite Ecb in E2. injection E2 as <-. rewrite Lc in H2.
  change (crs n (trof n plain) (length plain)) with (head_of n plain plain) in H1. change (crs n (trof n called) (length plain)) with (head_of n plain called) in H2.
  assert (p = head_of n plain plain) as -> by (destruct H1 as (_ & _ & _ & _ & _ & _ & X); congruence).
  assert (c = head_of n plain called) as -> by (destruct H2 as (_ & _ & _ & _ & _ & _ & X); congruence).
  pose proof (head_of_v n plain called Hn Np Fp Fc Lc false) as Vp. pose proof (head_of_v n plain called Hn Np Fp Fc Lc true) as Vc. cbn beta iota in Vp, Vc.
  rewrite row_inv_ok in Ei by apply Vp. injection Ei as <-. rewrite (row_mul_ok n) in Eq by auto using valid_rinv. injection Eq as <-.
  assert (Vq : vrow n (rmul (head_of n plain called) (rinv (head_of n plain plain)))) by auto using valid_rmul, valid_rinv.
  destruct (closure_result n _ f l Vp Cl) as (k & K0 & K1 & K2 & ->). destruct (closure_result n _ g l' Vq Cl') as (e & _ & Q1 & _ & ->).
  rewrite map_length, seq_length in *. apply Nat.odd_spec in Od.
  destruct (lead_crs n (touch_of plain called calls) Hn (touch_nonempty n _ _ _ Hn Np Fp Lc Nc) (touch_legal n _ _ _ Fp Fc) d) as (b0 & ars0 & E0 & H0 & M0 & _).
  rewrite E in E0. injection E0 as <-. rewrite (touch_length plain called calls Lc) in *.
  assert (ars0 = ars) as -> by (destruct H as (_ & _ & _ & _ & _ & X & _), H0 as (_ & _ & _ & _ & _ & Y & _); congruence).
  pose proof (touch_L n plain called Hn Np Fp Lc) as L0.
  assert (At : forall i, i < length calls -> nth_error (map fst ars) (i * length plain) = Some (trow n plain called calls (i * length plain))).
  { intros i Hi. rewrite M0. unfold crows. assert (i * length plain < length calls * length plain) by nia.
    rewrite nth_error_map, (nth_error_nth' _ 0), seq_nth by (rewrite ?seq_length; auto). auto. }
  apply (touch_circuit n plain called calls Hn Np Fp Fc Lc Nc k e); auto.
  - rewrite rounds_seq. destruct H as (_ & _ & _ & _ & _ & _ & X), H0 as (_ & _ & _ & _ & _ & _ & Y). rewrite X in Y. injection Y as Y. symmetry. exact Y.
  - intros i j Hi Hj Q. assert (X : i * length plain = j * length plain).
    { apply (proj1 (NoDup_nth_error _) Nd); [apply nth_error_Some; rewrite At by auto; discriminate|]. rewrite !At by auto. f_equal. auto. }
    nia.
  - intros i Hi. destruct (Cd i _ Hi (At i Hi)) as (j & r' & Hj & C & R). exists j. split; auto. apply composition_fun in C. rewrite At in R by auto. injection R as R. rewrite R. auto.
Qed.

Lemma pf_C146_no_extent_of_grandsire_with_bobs_only :
  forall A (d : A) n calls b ars, 5 <= n -> Nat.Odd n -> calls <> [] ->
    pn_block_to_block_from_rounds d (touch_of (grandsire n) (grandsire_bob n) calls) = Ret b -> block_holds b n ars (seq 0 n) ->
    NoDup (map fst ars) -> length ars < fact n.
Proof.
  intros A d n calls b ars Hn5 O Nc E H Nd. assert (H3 : 3 <= n) by lia. assert (Hn : 0 < n) by lia.
  pose proof (gs_legal n H3) as Fp. pose proof (gb_legal n H3 O) as Fc. pose proof (gs_nonempty n) as Np.
  assert (Lp : length (grandsire n) = 2 * n) by (apply gs_length; auto).
  assert (Lc : length (grandsire_bob n) = length (grandsire n)) by (rewrite Lp; apply gb_length; auto).
  destruct (lead_crs n (touch_of (grandsire n) (grandsire_bob n) calls) Hn (touch_nonempty n _ _ _ Hn Np Fp Lc Nc) (touch_legal n _ _ _ Fp Fc) d) as (b0 & ars0 & E0 & H0 & M0 & _).
  rewrite E in E0. injection E0 as <-. rewrite (touch_length _ _ calls Lc) in *.
  assert (ars0 = ars) as -> by (destruct H as (_ & _ & _ & _ & _ & X & _), H0 as (_ & _ & _ & _ & _ & Y & _); congruence).
  assert (La : length ars = length calls * (2 * n)) by (rewrite <- (map_length fst), M0; unfold crows; rewrite map_length, seq_length, Lp; auto).
  set (K := length calls) in *. set (R := trow n (grandsire n) (grandsire_bob n) calls).
  assert (VR : forall t, vrow n (R t)) by (intros; apply trow_v; auto).
  set (hs := map (fun i => R (i * (2 * n))) (seq 0 K)).
  assert (Inj : forall i j, i < K -> j < K -> R (i * (2 * n)) = R (j * (2 * n)) -> i = j).
  { intros i j Hi Hj Q. assert (At : forall i, i < K -> nth_error (map fst ars) (i * (2 * n)) = Some (R (i * (2 * n)))).
    { intros a Ha. rewrite M0. unfold crows. assert (a * (2 * n) < K * length (grandsire n)) by (rewrite Lp; nia).
      rewrite nth_error_map, (nth_error_nth' _ 0), seq_nth by (rewrite ?seq_length; auto). auto. }
    assert (X : i * (2 * n) = j * (2 * n)); [|nia].
    apply (proj1 (NoDup_nth_error _) Nd); [apply nth_error_Some; rewrite At by auto; discriminate|]. rewrite !At by auto. f_equal. auto. }
  assert (Nh : NoDup hs) by (apply NoDup_map_inj; [|apply seq_NoDup]; intros i j I J; apply in_seq in I, J; apply Inj; lia).
  assert (Ep : head_of n (grandsire n) (grandsire n) = gs_head n) by (unfold head_of; rewrite Lp; auto).
  assert (Eb : head_of n (grandsire n) (grandsire_bob n) = gb_head n) by (unfold head_of; rewrite Lp; auto).
  pose proof (gs_head_v n H3) as Vp. pose proof (gb_head_v n H3 O) as Vb.
  assert (Sp : sgn (gs_head n) = false).
  { unfold gs_head, grow. rewrite one_place_sgn by (auto using gs_one_place). rewrite <- Nat.negb_even, even2. auto. }
  assert (Sb : sgn (gb_head n) = false).
  { unfold gb_head. rewrite one_place_sgn by (auto using gb_one_place, gb_nonempty). rewrite <- Nat.negb_even, even2. auto. }
  assert (Ev : forall k, k <= K -> nth 0 (R (k * (2 * n))) 0 = 0 /\ sgn (R (k * (2 * n))) = false).
  { induction k as [|k IH]; intros Hk.
    - change (0 * (2 * n)) with 0. unfold R, trow. cbn [crs]. rewrite rounds_seq, sgn_rounds, seq_nth by auto. auto.
    - destruct (IH ltac:(lia)) as [I1 I2]. pose proof (trow_head n (grandsire n) (grandsire_bob n) calls Hn Np Fp Fc Lc k ltac:(lia)) as Q. rewrite Lp in Q. fold R in Q. rewrite Q.
      destruct (nth k calls false); rewrite ?Ep, ?Eb; (split; [rewrite nth_rmul; [|rewrite ?(proj2 Vp), ?(proj2 Vb); auto]|rewrite (sgn_rmul n), I2 by auto; rewrite ?Sp, ?Sb; auto]).
      + rewrite gb_head_0; auto.
      + rewrite gs_head_01; auto. }
  assert (Ok : forall r, In r hs -> nth_error r 0 = Some 0 /\ sgn r = false).
  { intros r I. apply in_map_iff in I as (i & <- & I). apply in_seq in I. destruct (Ev i ltac:(lia)) as [X Y]. split; auto. rewrite (nth_error_nth' _ 0) by (rewrite (proj2 (VR _)); auto). f_equal. auto. }
  assert (Vh : Forall (vrow n) hs) by (apply Forall_forall; intros r I; apply in_map_iff in I as (i & <- & _); auto).
  pose proof (even_rows_with_treble n hs H3 Nh Vh Ok) as Bd. unfold hs in Bd. rewrite map_length, seq_length in Bd. fold hs in Bd.
  assert (Fn : fact n = n * fact (n - 1)) by (replace n with (S (n - 1)) at 1 by lia; change (fact (S (n - 1))) with (S (n - 1) * fact (n - 1)); f_equal; lia).
  destruct (Nat.eq_dec (2 * K) (fact (n - 1))) as [Full|Less]; [exfalso|rewrite La, Fn; nia].
  destruct (gs_ends n H3) as (D0 & D1 & D2).
  assert (Pw : forall j, crs n (trof n (grandsire n)) (j * (2 * n)) = rpow (gs_head n) j).
  { intros j. apply (crs_pow n (2 * n)); auto; [lia|intros; apply gs_trof_v; auto|apply gs_period; auto]. }
  destruct (gb_difference n H3 O) as (r & Vr & Eq).
  destruct (touch_circuit n (grandsire n) (grandsire_bob n) calls Hn Np Fp Fc Lc Nc (n - 2) (n - 2)) as (c & Oc & Ek); rewrite ?Ep, ?Eb, ?Lp; auto.
  - fold K R. rewrite rounds_seq. destruct H as (_ & _ & _ & _ & _ & _ & X), H0 as (_ & _ & _ & _ & _ & _ & Y). rewrite X, Lp in Y. injection Y as Y. symmetry. exact Y.
  - fold K R. intros i Hi. set (x := rmul (R (i * (2 * n))) (gs_head n)). assert (Vx : vrow n x) by (apply valid_rmul; auto).
    destruct (in_dec (list_eq_dec Nat.eq_dec) x hs) as [I|I].
    + apply in_map_iff in I as (j & <- & I). apply in_seq in I. exists j. split; auto. lia.
    + exfalso. assert (B : 2 * length (x :: hs) <= fact (n - 1)).
      { apply even_rows_with_treble; auto; [constructor; auto|]. intros r' [<-|I']; auto. destruct (Ev i ltac:(lia)) as [X Y]. split.
        - rewrite (nth_error_nth' _ 0) by (rewrite (proj2 Vx); auto). f_equal. unfold x. rewrite nth_rmul by (rewrite (proj2 Vp); auto). rewrite gs_head_01; auto.
        - unfold x. rewrite (sgn_rmul n), Y, Sp; auto. }
      cbn [length] in B. unfold hs in B. rewrite map_length, seq_length in B. lia.
  - rewrite <- Pw. auto.
  - intros j Hj. rewrite <- Pw. auto.
  - rewrite Eq, (cj_rpow n) by auto. rewrite <- Pw, D1. apply (cj_rounds n r); auto.
  - apply Nat.odd_spec. destruct O as (m & Em). exists (m - 1). lia.
  - fold K in Ek. destruct O as (m & Em).
    assert (F2 : fact (n - 1) = (n - 1) * ((n - 2) * fact (n - 3))).
    { replace (n - 1) with (S (n - 2)) at 1 by lia. change (fact (S (n - 2))) with (S (n - 2) * fact (n - 2)). f_equal; [lia|]. replace (n - 2) with (S (n - 3)) at 1 by lia.
      change (fact (S (n - 3))) with (S (n - 3) * fact (n - 3)). f_equal. lia. }
    destruct (fact_half (n - 3) ltac:(lia)) as (z & Z). destruct Oc as (y & Y).
    assert (X : (n - 2) * (2 * c) = (n - 2) * ((n - 1) * fact (n - 3))) by nia.
    apply Nat.mul_cancel_l in X; [|lia]. rewrite Z in X. replace (n - 1) with (2 * m) in X by lia. nia.
Qed.
