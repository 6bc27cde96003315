(** Property theorems C133: the working bells of a method and the length of its plain course. *)

(* Generated from tools/props/Diff.src: the proofs behind PropsDiff.v. *)
From Verif Require Import Base Bell Stage Parity Row Utils SameStageVec Block PlaceNot Spec SpecVec SpecBlock SpecPn ListFacts
  BellFacts RowFacts MulFacts GroupFacts GroupFacts2 SsvFacts BlockFacts LawFacts
  Class SpecClass ClassFacts ClassFacts2 ClassFacts3 Method SpecMethod SpecCycle CycleFacts DiffFacts.
From Verif Require Import ClassThms MethodThms CycleThms.
Local Open Scope list_scope.

Lemma pf_C133_working_bells :
  forall m s ars lo hash_order fc fuel pc, block_holds (first_lead m) s ars lo -> ars <> [] ->
    is_identity (hd [] (map fst ars)) -> (forall l, collected_set l (hash_order l)) ->
    classify hash_order (first_lead m) = Ret fc -> plain_course fuel m = Ret pc ->
    exists leads, 0 < leads /\ block_len pc = leads * lead_len m /\
      (is_differential fc = false <-> forall x, x < s -> ~ hunt_bell lo x -> returns_after lo x leads) /\
      (is_differential fc = false -> exists k, s = length (fixed_bells lo) + k * leads).
Proof.
  intros m s ars lo ho fc fuel pc H Na I HO E P.
  assert (I' : is_identity (hd [] (all_rows_of ars lo))). { unfold all_rows_of. destruct ars; [congruence|exact I]. }
  destruct (pf_C99_plain_course m s ars lo H I') as [_ L]. destruct (L fuel pc P) as (n & Ln & Lp). clear L.
  pose proof (holds_brep _ _ _ _ H) as B. pose proof (brep_vrows _ _ _ _ B) as [Fv V].
  assert (D : is_differential fc = true <-> two_lengths s lo).
  { destruct (classify_ok s ars lo (first_lead m) B Na I' ho HO) as (d & Hd & [[N E']|(x & h & little & Dm & Hl & K)]).
    - rewrite E in E'. injection E' as ->. exact Hd.
    - destruct K as [(_ & _ & E')|(_ & cl & _ & E')]; rewrite E in E'; [discriminate|]. injection E' as ->. exact Hd. }
  pose proof (proj2 V) as Lo. pose proof (proj1 V) as Vv.
  assert (N0 : 0 < n).
  { destruct (Nat.eq_dec n 0) as [->|]; [|lia]. exfalso. pose proof (proj2 Ln (Factorial.fact s)) as X. apply Nat.divide_0_l in X.
    - pose proof (Factorial.lt_O_fact s). lia.
    - intros b k Hb C. apply divide_fact; [apply C|]. rewrite <- Lo. eapply cycle_le; eauto. }
  assert (Q : is_differential fc = false -> forall x, x < s -> ~ hunt_bell lo x -> returns_after lo x n).
  { intros F x X W. destruct (cycle_exists lo x Vv ltac:(lia)) as (k & C). assert (k = n) as <-; [|apply (returns_cycle s); auto].
    apply Nat.divide_antisym; [apply (proj1 Ln) with (b := x); auto; lia|]. apply (proj2 Ln). intros y l Y Cy.
    destruct (Nat.eq_dec l k) as [->|Nk]; [apply Nat.divide_refl|].
    assert (Z : hunt_bell lo y).
    { destruct (nth_error lo y) as [z|] eqn:Ey; [|apply nth_error_None in Ey; lia]. destruct (Nat.eq_dec z y) as [->|Nz]; auto. exfalso.
      assert (is_differential fc = true); [|congruence]. apply D. exists x, y, k, l. splits; auto; try lia; try (apply (returns_cycle s); auto; lia).
      unfold hunt_bell. congruence. }
    rewrite (hunt_cycle lo y l Vv Y Z Cy). apply Nat.divide_1_l. }
  exists n. splits; auto.
  - split; auto. intros A. destruct (is_differential fc) eqn:F; auto. exfalso. destruct (proj1 D eq_refl) as (x & y & k & l & Lx & Nx & Rx & Ly & Ny & Ry & Nk).
    apply Nk. apply (returns_cycle s) in Rx, Ry; auto. pose proof (A x Lx Nx) as Ax. pose proof (A y Ly Ny) as Ay. apply (returns_cycle s) in Ax, Ay; auto.
    rewrite (cycle_fun _ _ _ _ Rx Ax), (cycle_fun _ _ _ _ Ry Ay). auto.
  - intros F. destruct (fixed_count lo Vv) as (W & NW & IW & LW).
    assert (X : Nat.divide n (length W)).
    { apply (orbits_divide lo n Vv (length W) W); auto.
      - intros x X. apply IW in X. lia.
      - intros x j X. apply IW in X as [X1 X2]. apply IW. split; [apply follow_lt; auto|apply not_hunt_follow; auto].
      - intros x X. apply IW in X as [X1 X2]. apply (returns_cycle s); auto; [lia|]. apply Q; auto. lia. }
    destruct X as [q X]. exists q. lia.
Qed.

Lemma pf_C133_principles_on_a_prime_number_of_bells :
  forall m s ars lo hash_order fc fuel pc, block_holds (first_lead m) s ars lo -> ars <> [] ->
    is_identity (hd [] (map fst ars)) -> (forall l, collected_set l (hash_order l)) ->
    classify hash_order (first_lead m) = Ret fc -> plain_course fuel m = Ret pc ->
    is_differential fc = false ->
    block_len pc <= s * lead_len m /\
    (fc_class fc = Principle -> (forall d, Nat.divide d s -> d = 1 \/ d = s) -> 2 <= s -> block_len pc = s * lead_len m).
Proof.
  intros m s ars lo ho fc fuel pc H Na I HO E P F.
  assert (I' : is_identity (hd [] (all_rows_of ars lo))). { unfold all_rows_of. destruct ars; [congruence|exact I]. }
  destruct (pf_C133_working_bells m s ars lo ho fc fuel pc H Na I HO E P) as (n & N0 & L & D & C).
  pose proof (holds_brep _ _ _ _ H) as B. pose proof (brep_vrows _ _ _ _ B) as [Fv V]. pose proof (proj2 V) as Lo. pose proof (proj1 V) as Vv.
  destruct (pf_C99_plain_course m s ars lo H I') as [_ L']. destruct (L' fuel pc P) as (n' & Ln & Lp). clear L'.
  assert (Ll : 0 < lead_len m). { unfold lead_len. rewrite (brep_len _ _ _ _ B). destruct ars; [congruence|cbn; lia]. }
  assert (n' = n) as -> by nia.
  assert (S0 : 0 < s). { rewrite <- Lo. destruct Vv as [X _]. destruct lo; [congruence|cbn; lia]. }
  assert (U : (forall x, x < s -> hunt_bell lo x) -> n = 1).
  { intros A. apply Nat.divide_1_r. apply (proj2 Ln). intros x k X Ck. rewrite (hunt_cycle lo x k Vv X (A x ltac:(lia)) Ck). apply Nat.divide_refl. }
  destruct (C F) as (k & Ek). split.
  - rewrite L. apply Nat.mul_le_mono_r. destruct k as [|k]; [|nia]. rewrite U; [lia|]. intros x X.
    destruct (fixed_count lo Vv) as (W & NW & IW & LW). destruct W as [|w W]; [|cbn in LW; lia].
    destruct (nth_error lo x) as [z|] eqn:Ex; [|apply nth_error_None in Ex; lia]. destruct (Nat.eq_dec z x) as [->|Nz]; auto. exfalso.
    apply (IW x). split; [lia|congruence].
  - intros Pr Prime S2. rewrite L. f_equal.
    assert (NH : forall x, ~ hunt_bell lo x).
    { destruct (classify_ok s ars lo (first_lead m) B Na I' ho HO) as (d & Hd & [[Nh E']|(x & h & little & Dm & Hl & K)]); auto.
      destruct K as [(_ & _ & E')|(_ & cl & Mc & E')]; rewrite E in E'; [discriminate|]. injection E' as ->. cbn in Pr. subst cl. exfalso. inversion Mc; subst; try discriminate; congruence. }
    assert (F0 : length (fixed_bells lo) = 0).
    { destruct (fixed_bells lo) as [|x l] eqn:Ef; auto. exfalso. apply (NH x). apply (proj1 (fixed_bells_spec lo)). rewrite Ef. left; auto. }
    rewrite F0 in Ek. destruct (Prime n) as [N1|N1]; auto; [exists k; lia|]. exfalso. subst n.
    assert (R := proj1 D F 0 ltac:(lia) (NH 0)). apply (returns_cycle s) in R; auto. destruct R as (_ & R & _). cbn in R.
    apply (NH 0). unfold hunt_bell. rewrite (nth_error_nth' _ 0) by lia. congruence.
Qed.
