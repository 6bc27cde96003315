(** Property theorems C121: how many rows of a group, of a stage and of a touch are even. *)

(* Generated from tools/props/Even.src: the proofs behind PropsEven.v. *)
From Coq Require Import Permutation.
From Verif Require Import Base Bell Stage Parity Row Utils SameStageVec Block PlaceNot Spec SpecVec SpecBlock SpecPn ListFacts
  BellFacts RowFacts MulFacts ParityFacts GroupFacts GroupFacts2 SsvFacts BlockFacts PnFacts PnFacts2 PnFacts3 LawFacts LawFacts2 MaskFacts EvenFacts.
From Verif Require Import RowThms GroupThms PnThms Laws2Thms.
Local Open Scope list_scope.

Lemma pf_C121_groups :
  forall n set, NoDup set -> Forall (fun r => valid_row r /\ length r = n) set -> is_group_set set = Ret (Ok true) ->
    exists even odd, Permutation set (even ++ odd) /\
      (forall r fuel, In r even -> 2 * n < fuel -> exists x, row_parity fuel r = Ret (x, Even)) /\
      (forall r fuel, In r odd -> 2 * n < fuel -> exists x, row_parity fuel r = Ret (x, Odd)) /\
      (odd = [] \/ length even = length odd) /\ is_group_set even = Ret (Ok true).
Proof.
  intros n set N V G. assert (Ne : set <> []) by (intros ->; discriminate G).
  assert (Sg : subgroup n (fun x => In x set)).
  { destruct (is_group_set_ok n set Ne V) as (ok & E' & K). rewrite G in E'. injection E' as <-. apply subgroup_test; auto. apply K. reflexivity. }
  assert (V' : forall r, In r set -> vrow n r) by (rewrite Forall_forall in V; exact V).
  exists (evens set), (odds set).
  assert (Hp : forall r fuel, In r set -> 2 * n < fuel -> row_parity fuel r = Ret (row_rounds n, if sgn r then Odd else Even)).
  { intros r fuel R F. destruct (V' r R) as [V1 V2]. destruct (row_parity_ok r fuel V1 ltac:(lia)) as [P _]. rewrite V2 in P. exact P. }
  splits.
  - apply evens_odds.
  - intros r fuel R F. apply in_evens in R as [R S]. rewrite (Hp r fuel R F), S. eauto.
  - intros r fuel R F. apply in_odds in R as [R S]. rewrite (Hp r fuel R F), S. eauto.
  - destruct (odds set) as [|o os] eqn:E; auto. right. rewrite <- E.
    assert (O : In o set /\ sgn o = true) by (apply in_odds; rewrite E; left; auto). destruct O as [O S].
    apply (halves n o); auto. intros x X. apply (subgroup_mul n (fun x => In x set)); auto.
  - assert (Vn : Forall (vrow n) (evens set)) by (apply Forall_forall; intros r R; apply in_evens in R; apply V', R).
    assert (Hn : 0 < n). { destruct set as [|x t]; [congruence|]. destruct (V' x (or_introl eq_refl)) as [W1 W2]. rewrite <- W2. apply valid_row_pos; auto. }
    assert (Rn : In (row_rounds n) (evens set)).
    { apply in_evens. split; [apply (sg_identity _ _ Sg); [apply length_rounds|apply rounds_identity]|]. rewrite rounds_seq. apply sgn_rounds. }
    assert (Nn : evens set <> []) by (intros X; rewrite X in Rn; destruct Rn).
    destruct (is_group_set_ok n (evens set) Nn Vn) as (ok & E' & K). rewrite E'. do 2 f_equal. apply K.
    intros a b A B. apply in_evens in A as [A1 A2]. apply in_evens in B as [B1 B2]. apply in_evens. split.
    + apply (subgroup_mul n (fun x => In x set)); auto; [apply valid_rinv; auto|]. apply (subgroup_inv n (fun x => In x set)); auto.
    + rewrite (sgn_rmul n), (sgn_rinv n), A2, B2; auto. apply valid_rinv; auto.
Qed.

Lemma pf_C121_extents :
  forall n l, 2 <= n -> NoDup l -> (forall r, In r l <-> valid_row r /\ length r = n) ->
    exists even odd, Permutation l (even ++ odd) /\
      (forall r fuel, In r even -> 2 * n < fuel -> exists x, row_parity fuel r = Ret (x, Even)) /\
      (forall r fuel, In r odd -> 2 * n < fuel -> exists x, row_parity fuel r = Ret (x, Odd)) /\
      length even = length odd /\ 2 * length even = fact n.
Proof.
  intros n l Hn N I. exists (evens l), (odds l).
  assert (Hp : forall r fuel, In r l -> 2 * n < fuel -> row_parity fuel r = Ret (row_rounds n, if sgn r then Odd else Even)).
  { intros r fuel R F. apply I in R as [V1 V2]. destruct (row_parity_ok r fuel V1 ltac:(lia)) as [P _]. rewrite V2 in P. exact P. }
  destruct (extent_halves n l Hn N I) as [A B]. splits; auto.
  - apply evens_odds.
  - intros r fuel R F. apply in_evens in R as [R S]. rewrite (Hp r fuel R F), S. eauto.
  - intros r fuel R F. apply in_odds in R as [R S]. rewrite (Hp r fuel R F), S. eauto.
Qed.

Lemma pf_C121_even_changes :
  forall pns start s v rows k, 2 <= s -> pns <> [] -> Forall (fun pn => legal pn /\ pn_stage pn = s) pns ->
    Forall (fun pn => Nat.Even ((s - length (pn_places pn)) / 2)) pns ->
    valid_row start -> length start = s -> pn_block_to_rows pns start = Ret (Ok v) -> ssv_rows v = Ret rows ->
    k <= length rows -> NoDup (firstn k rows) -> 2 * k <= fact s.
Proof.
  intros pns start s v rows k Hs N F Fe V L E R Hk D.
  destruct (to_rows_ok pns start s N F (conj V L)) as (w & rs & y & E1 & Rv & Ru). rewrite E in E1. injection E1 as <-.
  pose proof (rep_rows _ _ _ Rv) as R'. rewrite R in R'. injection R' as R'.
  rewrite <- (firstn_length_le rows Hk) at 1. apply (one_parity_bound s (sgn start)); auto.
  - apply Forall_forall. intros r Hr.
    assert (Ir : In r rows) by (rewrite <- (firstn_skipn k rows); apply in_or_app; auto).
    destruct (rung_vrow s _ _ _ _ (conj V L) Ru) as [Fr _]. subst rows. destruct Ir as [<-|Ir]; [split; auto|]. rewrite Forall_forall in Fr. auto.
  - intros r Hr. assert (Ir : In r rows) by (rewrite <- (firstn_skipn k rows); apply in_or_app; auto).
    apply In_nth_error in Ir as (i & Hi). subst rows. rewrite (sgn_rung s _ _ _ _ Ru (conj V L) F i r Hi).
    assert (Z : Nat.odd (list_sum (map pairs (firstn i pns))) = false).
    { assert (X : Forall (fun pn => Nat.odd (pairs pn) = false) (firstn i pns)).
      { apply Forall_forall. intros pn P. assert (P' : In pn pns) by (rewrite <- (firstn_skipn i pns); apply in_or_app; auto).
        rewrite Forall_forall in F, Fe. specialize (Fe pn P'). destruct (F pn P') as [_ Sp]. unfold pairs. rewrite Sp.
        rewrite <- Nat.negb_even, (proj2 (Nat.even_spec _)); auto. }
      revert X. generalize (firstn i pns). clear. induction l as [|a l IH]; intros X; auto. inversion X; subst.
      cbn [map list_sum fold_right]. change (Nat.odd (pairs a + list_sum (map pairs l)) = false). rewrite Nat.odd_add, H1, IH; auto. }
    rewrite Z, xorb_false_r. auto.
Qed.
