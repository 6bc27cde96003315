(** Property theorems C126: effective stages of products, inverses, powers, groups and blocks of changes. *)

(* Generated from tools/props/Still.src: the proofs behind PropsStill.v. *)
From Verif Require Import Base Bell Stage Row Utils SameStageVec Block PlaceNot Spec SpecVec SpecBlock SpecPn ListFacts
  BellFacts RowFacts MulFacts GroupFacts SsvFacts BlockFacts PnFacts PnFacts2 PnFacts3 LawFacts ReachFacts StillFacts.
From Verif Require Import RowThms GroupThms BlockThms PnThms.
Local Open Scope list_scope.

Lemma pf_C126_products :
  forall a b ea eb, valid_row a -> valid_row b -> length a = length b ->
    effective_stage a = Ret ea -> effective_stage b = Ret eb ->
    exists c e, row_mul a b = Ret c /\ effective_stage c = Ret e /\ e <= Nat.max ea eb /\ (ea <> eb -> e = Nat.max ea eb) /\
      (forall x, In x (fixed_bells a) -> In x (fixed_bells b) -> In x (fixed_bells c)).
Proof.
  intros a b ea eb Va Vb L Ea Eb. assert (A : vrow (length a) a) by (split; auto). assert (B : vrow (length a) b) by (split; auto).
  set (n := length a) in *. pose proof (composition_vrow n a b A B) as C. pose proof (valid_rmul n a b A B) as Vc.
  destruct (eff_still _ _ Ea) as (A1 & A2 & A3). destruct (eff_still _ _ Eb) as (B1 & B2 & B3).
  destruct (still_eff (rmul a b)) as (e & E & E1 & E2 & E3). exists (rmul a b), e.
  assert (Le : e <= Nat.max ea eb).
  { apply E3; [lia|]. apply (still_comp n _ a b (rmul a b)); auto; [apply (still_weaken ea)|apply (still_weaken eb)]; auto; lia. }
  splits; auto.
  - apply (row_mul_ok n); auto.
  - intros D. destruct (Nat.lt_ge_cases e (Nat.max ea eb)) as [Lt|Ge]; [exfalso|lia].
    destruct (Nat.lt_ge_cases ea eb) as [K|K].
    + assert (eb <= Nat.max ea e); [apply B3; [lia|]|lia].
      apply (still_comp_r n _ a b (rmul a b)); auto; [apply (still_weaken ea)|apply (still_weaken e)]; auto; lia.
    + assert (ea <= Nat.max eb e); [apply A3; [lia|]|lia].
      apply (still_comp_l n _ a b (rmul a b)); auto; [apply (still_weaken eb)|apply (still_weaken e)]; auto; lia.
  - intros x X Y. apply (proj1 (fixed_bells_spec a)) in X. apply (proj1 (fixed_bells_spec b)) in Y. apply (proj1 (fixed_bells_spec (rmul a b))).
    destruct (proj2 C x x Y) as (y & Y1 & Y2). congruence.
Qed.

Lemma pf_C126_inverses_and_powers :
  forall a ea, valid_row a -> effective_stage a = Ret ea ->
    (exists i, row_inv a = Ret i /\ effective_stage i = Ret ea /\ fixed_bells i = fixed_bells a) /\
    (forall z, exists p e, pow_i a z = Ret p /\ effective_stage p = Ret e /\ e <= ea).
Proof.
  intros a ea Va Ea. assert (A : vrow (length a) a) by (split; auto). set (n := length a) in *.
  assert (P : 0 < n) by (apply valid_row_pos; auto).
  destruct (eff_still _ _ Ea) as (A1 & A2 & A3). pose proof (valid_rinv n a A) as Ai.
  pose proof (valid_rounds n P) as Vr. pose proof (rounds_identity n) as Ri.
  assert (C : composition a (rinv a) (row_rounds n)) by (rewrite <- (rmul_rinv_r n a A); apply (composition_vrow n); auto).
  assert (Si : forall e, still e (rinv a) <-> still e a).
  { intros e. split; intros S.
    - apply (still_comp_l n e a (rinv a) (row_rounds n)); auto. apply still_identity; auto.
    - apply (still_comp_r n e a (rinv a) (row_rounds n)); auto. apply still_identity; auto. }
  split.
  - exists (rinv a). splits; [apply row_inv_ok; auto| |].
    + destruct (still_eff (rinv a)) as (e & E & E1 & E2 & E3). rewrite E. f_equal. apply Nat.le_antisymm.
      * apply E3; auto. apply Si; auto.
      * apply A3; auto. apply Si; auto.
    + apply sorted_ext; try apply fixed_bells_spec. intros x. rewrite !(proj1 (fixed_bells_spec _)). split; intros H.
      * destruct (proj2 C x x H) as (y & Y1 & Y2). apply (Ri x y) in Y2. congruence.
      * assert (X : x < n) by (apply nth_error_Some; congruence).
        rewrite (nth_error_nth' _ 0), nth_rinv by (rewrite ?length_rinv; auto). f_equal.
        apply (nth_error_nth _ _ 0) in H. rewrite <- H at 1. apply index_of_nth; auto. apply Va.
  - assert (Sp : forall r k, vrow n r -> still ea r -> still ea (rpow r k)).
    { intros r k R S. induction k as [|k IH]; cbn [rpow].
      - rewrite (proj2 R). apply still_identity; auto.
      - apply (still_comp n ea (rpow r k) r); auto; [apply vrow_rpow; auto|]. apply (composition_vrow n); auto. apply vrow_rpow; auto. }
    intros z. rewrite (pow_i_ok n) by auto.
    set (p := if (z <? 0)%Z then rpow (rinv a) (Z.to_nat (- z)) else rpow a (Z.to_nat z)).
    destruct (still_eff p) as (e & E & E1 & E2 & E3). exists p, e. splits; auto. apply E3; auto.
    subst p. destruct (z <? 0)%Z; apply Sp; auto. apply Si; auto.
Qed.

Lemma pf_C126_groups :
  forall n e rows fuel l, rows <> [] -> Forall (fun r => valid_row r /\ length r = n) rows ->
    Forall (fun r => exists er, effective_stage r = Ret er /\ er <= e) rows ->
    least_group_containing fuel rows = Ret (Ok l) -> Forall (fun r => exists er, effective_stage r = Ret er /\ er <= e) l.
Proof.
  intros n e rows fuel l N F Fe E. destruct rows as [|r0 rows]; [congruence|].
  assert (P : 0 < n /\ 1 <= e).
  { inversion F as [|? ? [V L] _]; inversion Fe as [|? ? (er & Er & Ee) _]; subst. split; [apply valid_row_pos; auto|].
    destruct (eff_still _ _ Er) as (X & _). lia. }
  destruct (pf_C19_least_group n (r0 :: rows) N F) as (fuel0 & K).
  destruct (K (fuel0 + fuel) ltac:(lia)) as (set & E1 & _ & _ & _ & _ & M).
  assert (E2 : least_group_containing (fuel0 + fuel) (r0 :: rows) = Ret (Ok l)) by (apply (lgc_more fuel); auto; lia).
  assert (set = l) by congruence. subst set. apply Forall_forall. intros x X.
  destruct (M _ (still_subgroup n e (proj1 P))) with (x := x) as [_ S]; auto.
  - intros r R. rewrite Forall_forall in F, Fe. split; [exact (F r R)|]. destruct (Fe r R) as (er & Er & Ee).
    destruct (eff_still _ _ Er) as (_ & S & _). apply (still_weaken er); auto.
  - destruct (still_eff x) as (ex & Ex & X1 & X2 & X3). exists ex. split; auto. apply X3; auto. lia.
Qed.

Lemma pf_C126_changes :
  forall A (d : A) pns start s e es, pns <> [] -> Forall (fun pn => legal pn /\ pn_stage pn = s) pns ->
    valid_row start -> length start = s -> effective_stage start = Ret es -> 1 <= e ->
    Forall (fun pn => forall p, e <= p -> p < s -> In p (pn_places pn)) pns ->
    exists b eb, pn_block_to_block d pns start = Ret (Ok b) /\ block_effective_stage b = Ret eb /\ es <= eb /\ eb <= Nat.max e es.
Proof.
  intros A d pns start s e es N F V L Es He Fp.
  destruct (pf_C45_to_block A d pns start s N F V L) as (b & rs & lst & E & R & H & _). destruct (pf_C45_to_rows pns start s N F V L) as (v & rs' & l' & ts & _ & _ & _ & R' & Hl & _).
  destruct (rung_fun _ _ _ _ _ _ R R') as [-> ->].
  destruct (pf_C35_effective_stage A b s _ _ H) as (eb & Eb & _ & _ & _ & _ & (r & Ir & Er) & M). exists b, eb.
  assert (Al : map fst (map (fun r => (r, d)) (removelast (start :: rs'))) ++ [l'] = start :: rs').
  { rewrite map_map. cbn [fst]. rewrite map_id, <- Hl. symmetry. apply app_removelast_last. discriminate. }
  rewrite Al in *. destruct (eff_still _ _ Es) as (S1 & S2 & _).
  splits; auto.
  - apply (M start); auto. left; auto.
  - destruct (eff_still _ _ Er) as (_ & _ & K). apply K; [lia|].
    destruct (rung_still s (Nat.max e es) start pns rs' l' R L) as [Fs _].
    + apply (still_weaken es); auto; lia.
    + apply Forall_forall. intros pn I p P1 P2. rewrite Forall_forall in Fp. apply (Fp pn I p); lia.
    + destruct Ir as [<-|Ir]; [apply (still_weaken es); auto; lia|]. rewrite Forall_forall in Fs. auto.
Qed.
