(** Property theorems C150: how many changes it takes from one row to another. *)

(* Generated from tools/props/Few.src: the proofs behind PropsFew.v. *)
From Coq Require Import Permutation.
From Verif Require Import Base Bell Stage Row Utils SameStageVec Block PlaceNot Spec SpecVec SpecBlock SpecPn SpecClass ListFacts
  BellFacts RowFacts MulFacts GroupFacts SsvFacts BlockFacts PnFacts PnFacts2 PnFacts3 LawFacts BetweenFacts SortNetFacts FewFacts.
From Verif Require Import PnThms LawsThms BetweenThms.
Local Open Scope list_scope.

Lemma pf_C150_as_many_changes_as_bells :
  forall r1 r2, valid_row r1 -> valid_row r2 -> length r1 = length r2 ->
    exists pns v rows, length pns = length r1 /\ pn_block_from_vec pns = Ok pns /\
      pn_block_to_rows pns r1 = Ret (Ok v) /\ ssv_rows v = Ret (r1 :: rows) /\ last (r1 :: rows) [] = r2.
Proof.
  intros a b Va Vb L. destruct (way_between (length a) a b) as (rows & Lr & F & E & J); [split; auto|split; auto|].
  assert (P : 0 < length rows) by (rewrite Lr; destruct Va as [N _]; destruct a; [congruence|cbn; lia]).
  destruct (pf_C128_rows_without_jumps_are_rung (length a) a rows P F) as (pns & v & L1 & E1 & E2 & E3 & _).
  - intros i x y Ex Ey bell p q. apply (J i x y Ex Ey bell p q).
  - exists pns, v, rows. splits; auto. congruence.
Qed.

Lemma pf_C150_backrounds_needs_as_many :
  forall s pns v rows i, 3 <= s -> Forall (fun pn => legal pn /\ pn_stage pn = s) pns -> pns <> [] ->
    pn_block_to_rows pns (row_rounds s) = Ret (Ok v) -> ssv_rows v = Ret rows ->
    nth_error rows i = Some (row_backrounds s) -> s <= i /\ s <= length pns.
Proof.
  intros s pns v rows i Hs F N T R E. assert (V : vrow s (row_rounds s)) by (apply valid_rounds; lia).
  destruct (to_rows_ok pns (row_rounds s) s N F V) as (v' & rs & x & E' & Rv & Ru). rewrite E' in T. injection T as ->.
  apply rep_rows in Rv as E''. rewrite E'' in R. injection R as <-.
  destruct (pf_C80_rows_give_the_changes_back pns (row_rounds s) s v _ N F (proj1 V) (proj2 V) E' E'') as [Ll K].
  destruct (rung_vrow s _ _ _ _ V Ru) as [Fr _]. assert (Fa : Forall (vrow s) (row_rounds s :: rs)) by (constructor; auto).
  assert (Q : s <= i).
  { apply (to_backrounds s (row_rounds s :: rs) i Hs Fa); auto. intros j a b A B. rewrite Forall_forall in Fa.
    destruct (Fa a (nth_error_In _ _ A)) as [Va La]. destruct (Fa b (nth_error_In _ _ B)) as [Vb Lb].
    assert (Lab : length a = length b) by congruence. pose proof (K j a b A B) as Eb. destruct (nth_error pns j) as [pn|] eqn:Ep.
    - intros bell p q. apply (proj1 (proj1 (pf_C128_exists_exactly_when_no_bell_jumps a b Va Vb Lab))). eauto.
    - apply nth_error_None in Ep. assert (j + 1 < length (row_rounds s :: rs)) by (apply nth_error_Some; congruence). lia. }
  split; auto. assert (i < length (row_rounds s :: rs)) by (apply nth_error_Some; congruence). lia.
Qed.

Lemma pf_C150_at_least_as_many_as_places_to_go :
  forall s pns start v rows i r b p q, Forall (fun pn => legal pn /\ pn_stage pn = s) pns -> pns <> [] -> valid_row start -> length start = s ->
    pn_block_to_rows pns start = Ret (Ok v) -> ssv_rows v = Ret rows -> nth_error rows i = Some r ->
    place_of start b = Some p -> place_of r b = Some q -> p <= q + i /\ q <= p + i.
Proof.
  intros s pns start v rows i r b p q F N Vs Ls T R E Ep Eq. assert (V : vrow s start) by (split; auto).
  destruct (to_rows_ok pns start s N F V) as (v' & rs & x & E' & Rv & Ru). rewrite E' in T. injection T as ->.
  apply rep_rows in Rv as E''. rewrite E'' in R. injection R as <-.
  destruct (pf_C80_rows_give_the_changes_back pns start s v _ N F Vs Ls E' E'') as [Ll K].
  destruct (rung_vrow s _ _ _ _ V Ru) as [Fr _]. assert (Fa : Forall (vrow s) (start :: rs)) by (constructor; auto).
  assert (Pl : forall w c k, place_of w c = Some k -> nth_error w k = Some c).
  { intros w c k H. unfold place_of in H. apply position_Some in H as [(y & Hy & Q) _]. apply Nat.eqb_eq in Q. congruence. }
  apply Pl in Ep, Eq.
  apply (no_jumps_far s (start :: rs) Fa) with (i := 0) (x := start) (y := r) (b := b); auto.
  intros j a c A B. pose proof Fa as Fb. rewrite Forall_forall in Fb.
  destruct (Fb a (nth_error_In _ _ A)) as [Va La]. destruct (Fb c (nth_error_In _ _ B)) as [Vb Lb].
  assert (Lab : length a = length c) by congruence. pose proof (K j a c A B) as Eb. destruct (nth_error pns j) as [pn|] eqn:Epn.
  - intros bell p' q'. apply (proj1 (proj1 (pf_C128_exists_exactly_when_no_bell_jumps a c Va Vb Lab))). eauto.
  - apply nth_error_None in Epn. assert (j + 1 < length (start :: rs)) by (apply nth_error_Some; congruence). lia.
Qed.
