(** Facts about rows which leave the bells from a place on at home, for property C126. *)
From Verif Require Import Base Bell Stage Row PlaceNot Spec SpecPn ListFacts RowFacts MulFacts GroupFacts PnFacts.
Local Open Scope list_scope.

Definition still (e : nat) (r : list nat) : Prop := forall i b, e <= i -> nth_error r i = Some b -> b = i.

Lemma still_weaken e e' r : e <= e' -> still e r -> still e' r.
Proof. intros L H i b I E. apply (H i b); auto. lia. Qed.

Lemma still_eff r : exists e, effective_stage r = Ret e /\ 1 <= e /\ still e r /\ (forall e', 1 <= e' -> still e' r -> e <= e').
Proof. destruct (effective_stage_spec r) as (e & E & H1 & _ & H3 & H4). exists e. splits; auto. Qed.

Lemma eff_still r e : effective_stage r = Ret e -> 1 <= e /\ still e r /\ (forall e', 1 <= e' -> still e' r -> e <= e').
Proof. intros E. destruct (still_eff r) as (e' & E' & H). assert (e = e') by congruence. subst. exact H. Qed.

Lemma still_comp n e a b c : vrow n a -> vrow n b -> still e a -> still e b -> composition a b c -> still e c.
Proof.
  intros Va Vb Sa Sb [Lc C] i x I E.
  assert (Hi : i < length b) by (rewrite <- Lc; apply nth_error_Some; congruence).
  destruct (nth_error b i) as [y|] eqn:Eb; [|apply nth_error_None in Eb; lia].
  destruct (C i y Eb) as (z & Z1 & Z2). apply (Sb i y I) in Eb. subst y. apply (Sa i z I) in Z1. congruence.
Qed.

Lemma still_comp_l n e a b c : vrow n a -> vrow n b -> vrow n c -> still e b -> still e c -> composition a b c -> still e a.
Proof.
  intros Va Vb Vc Sb Sc [Lc C] i x I E.
  assert (Hi : i < n) by (rewrite <- (proj2 Va); apply nth_error_Some; congruence).
  destruct (nth_error b i) as [y|] eqn:Eb; [|apply nth_error_None in Eb; rewrite (proj2 Vb) in Eb; lia].
  destruct (C i y Eb) as (z & Z1 & Z2). apply (Sb i y I) in Eb. subst y. apply (Sc i z I) in Z2. congruence.
Qed.

Lemma still_comp_r n e a b c : vrow n a -> vrow n b -> vrow n c -> still e a -> still e c -> composition a b c -> still e b.
Proof.
  intros Va Vb Vc Sa Sc [Lc C] i y I Eb. destruct (C i y Eb) as (z & Z1 & Z2). apply (Sc i z I) in Z2. subst z.
  assert (Hi : i < n) by (rewrite <- (proj2 Vb); apply nth_error_Some; congruence).
  destruct (nth_error a i) as [w|] eqn:Ea; [|apply nth_error_None in Ea; rewrite (proj2 Va) in Ea; lia].
  pose proof (Sa i w I Ea) as ->.
  assert (N : NoDup a) by apply Va. apply (proj1 (NoDup_nth_error a) N y i).
  - apply nth_error_Some. congruence.
  - congruence.
Qed.

Lemma still_identity e r : is_identity r -> still e r.
Proof. intros H i b _ E. apply (H i b) in E. auto. Qed.

Lemma still_subgroup n e : 0 < n -> subgroup n (fun r => vrow n r /\ still e r).
Proof.
  intros P. split.
  - intros r L I. assert (r = row_rounds n) by (rewrite <- L; apply identity_rounds; auto). split; [|apply still_identity; auto].
    subst r. apply valid_rounds; auto.
  - intros a b c [A1 A2] [B1 B2] C. split; [rewrite (composition_fun a b c C); apply valid_rmul; auto|]. apply (still_comp n e a b c); auto.
  - intros a b r [A1 A2] L1 L2 V I C. assert (B : vrow n b) by (split; auto). split; auto.
    apply (still_comp_r n e a b r); auto; [|apply still_identity; auto].
    apply identity_rounds in I. rewrite I, L2. apply valid_rounds; auto.
Qed.

Lemma rings_still made i r r' e : rings made i r r' -> (forall p, e <= p -> p < i + length r -> In p made) ->
  (forall j b, e <= i + j -> nth_error r j = Some b -> b = i + j) -> forall j b, e <= i + j -> nth_error r' j = Some b -> b = i + j.
Proof.
  induction 1 as [i|i x r r' I H IH|i x y r r' I1 I2 H IH]; intros M S j b J E.
  - destruct j; discriminate.
  - destruct j as [|j]; cbn [nth_error] in E.
    + injection E as <-. apply (S 0); auto.
    + replace (i + Datatypes.S j) with (i + 1 + j) in * by lia. apply IH; auto.
      * intros p P Q. apply M; auto. cbn [length]. lia.
      * intros k c K N. replace (i + 1 + k) with (i + Datatypes.S k) by lia. apply S; auto. lia.
  - cbn [length] in M. destruct (Nat.le_gt_cases e (i + 1)) as [Le|Gt]; [exfalso; apply I2, M; lia|].
    destruct j as [|[|j]]; cbn [nth_error] in E; try lia.
    replace (i + Datatypes.S (Datatypes.S j)) with (i + 2 + j) in * by lia. apply IH; auto.
    + intros p P Q. apply M; auto. lia.
    + intros k c K N. replace (i + 2 + k) with (i + Datatypes.S (Datatypes.S k)) by lia. apply S; auto. lia.
Qed.

Lemma rings_length made i r r' : rings made i r r' -> length r' = length r.
Proof. induction 1; cbn [length]; congruence. Qed.

Lemma rung_still s e r pns rs r' : rung r pns rs r' -> length r = s -> still e r ->
  Forall (fun pn => forall p, e <= p -> p < s -> In p (pn_places pn)) pns -> Forall (still e) rs /\ still e r'.
Proof.
  induction 1 as [r|r pn pns r1 rs r' R1 R2 IH]; intros L S F; auto. inversion F as [|? ? F1 F2]; subst.
  assert (S1 : still e r1).
  { intros i b I E. pose proof (rings_still _ _ _ _ e R1) as K. cbn [Nat.add] in K. apply K; auto. }
  destruct IH as [A B]; auto. apply (rings_length _ _ _ _ R1).
Qed.

Lemma lgc_loop_more rows : forall fuel fuel' set w l, fuel <= fuel' -> lgc_loop fuel rows set w = Ret l -> lgc_loop fuel' rows set w = Ret l.
Proof.
  induction fuel as [|fuel IH]; intros fuel' set w l Le E; [discriminate|]. destruct fuel' as [|fuel']; [lia|].
  cbn [lgc_loop] in *. destruct w as [|r t]; auto. destruct (lgc_expand r set t rows) as [[set' t']| | |]; try discriminate.
  cbn [bind] in *. apply IH; auto. lia.
Qed.

Lemma lgc_more fuel fuel' rows l : fuel <= fuel' -> least_group_containing fuel rows = Ret (Ok l) -> least_group_containing fuel' rows = Ret (Ok l).
Proof.
  intros Le E. unfold least_group_containing in *. destruct (lgc_seed None [] [] rows) as [[x|e]| | |]; try discriminate. cbn [bind] in *.
  destruct x as [set w].
  destruct (lgc_loop fuel rows set w) as [m| | |] eqn:F; try discriminate. rewrite (lgc_loop_more rows fuel fuel' set w m Le F). exact E.
Qed.
