(** Property theorems C128: between which rows there is a place notation, and what it depends on. *)
(*IMPORTS*)
From Verif Require Import Base Bell Stage Row Utils SameStageVec Block PlaceNot Spec SpecVec SpecBlock SpecPn ListFacts
  BellFacts RowFacts MulFacts GroupFacts SsvFacts BlockFacts PnFacts PnFacts2 PnFacts3 LawFacts BetweenFacts.
From Verif Require Import PnThms LawsThms.
Local Open Scope list_scope.
(*BODY*)

(** C128: there is a place notation between two rows of a stage exactly when no bell moves by more than one place. *)
Theorem C128_exists_exactly_when_no_bell_jumps :
  forall a b, valid_row a -> valid_row b -> length a = length b ->
    ((exists pn, pn_between a b = Ret (Some pn)) <->
     (forall bell p q, nth_error a p = Some bell -> nth_error b q = Some bell -> p <= q + 1 /\ q <= p + 1)) /\
    ((exists pn, pn_between a b = Ret (Some pn)) \/ pn_between a b = Ret None).
Proof.
  intros a b Va Vb L. destruct (pf_C40_place_notation_between a b Va Vb) as (o & E & H1 & H2). rewrite E.
  split; [|destruct o; eauto]. split.
  - intros (pn & P). injection P as ->. destruct (proj1 (H1 pn) eq_refl) as (Lg & Ls & P).
    destruct (pn_permute_ok pn a Lg Va Ls) as (r' & _ & E1 & E2 & _). rewrite P in E1. injection E1 as <-.
    apply (rings_near (pn_places pn) 0); auto. apply Va.
  - intros N. destruct o as [pn|]; [eauto|]. exfalso.
    destruct (near_rings (length a) 0 a b) as (made & M1 & M2); auto; [apply Va|apply Vb| |].
    + intros x. destruct Va as (_ & _ & A), Vb as (_ & _ & B). rewrite A, B, L. tauto.
    + apply (proj1 H2 eq_refl (PlaceNot made (length a))); auto. split; auto. apply valid_row_pos; auto.
Qed.

(** C128: it depends only on which places exchange, not on which bells do: multiplying both rows by the same row on the left
    changes nothing, and one may start from rounds. *)
Theorem C128_does_not_depend_on_the_bells :
  forall x a b, valid_row x -> valid_row a -> valid_row b -> length x = length a -> length a = length b ->
    exists xa xb ia t, row_mul x a = Ret xa /\ row_mul x b = Ret xb /\ pn_between xa xb = pn_between a b /\
      row_inv a = Ret ia /\ row_mul ia b = Ret t /\ pn_between (row_rounds (length a)) t = pn_between a b.
Proof.
  assert (K : forall n x a b, vrow n x -> vrow n a -> vrow n b -> pn_between (rmul x a) (rmul x b) = pn_between a b).
  { assert (G : forall n x a b pn, vrow n x -> vrow n a -> vrow n b -> pn_between a b = Ret (Some pn) -> pn_between (rmul x a) (rmul x b) = Ret (Some pn)).
    { intros n x a b pn X A B E. pose proof (valid_rmul n x a X A) as XA. pose proof (valid_rmul n x b X B) as XB.
      destruct (pn_between_ok a b (proj1 A) (proj1 B)) as (o & Eo & Ho). rewrite E in Eo. injection Eo as <-.
      destruct (proj1 (Ho pn) eq_refl) as (S & Lg & R).
      destruct (pn_between_ok (rmul x a) (rmul x b) (proj1 XA) (proj1 XB)) as (o' & Eo' & Ho'). rewrite Eo'. f_equal. apply Ho'. splits; auto.
      - rewrite (proj2 XA), <- (proj2 A). auto.
      - apply rings_map; auto. }
    intros n x a b X A B. pose proof (valid_rmul n x a X A) as XA. pose proof (valid_rmul n x b X B) as XB.
    destruct (pn_between_ok a b (proj1 A) (proj1 B)) as (o & Eo & _).
    destruct (pn_between_ok (rmul x a) (rmul x b) (proj1 XA) (proj1 XB)) as (o' & Eo' & _).
    destruct o as [pn|]; [rewrite Eo; apply (G n x a b pn); auto|].
    destruct o' as [pn|]; [|congruence]. pose proof (valid_rinv n x X) as Xi.
    pose proof (G n (rinv x) (rmul x a) (rmul x b) pn Xi XA XB Eo') as F.
    rewrite <- !(rmul_assoc_vrow n), (rmul_rinv_l n x X), !rmul_rounds_l_vrow in F by auto. congruence. }
  intros x a b Vx Va Vb L1 L2. set (n := length a) in *.
  assert (X : vrow n x) by (split; auto). assert (A : vrow n a) by (split; auto). assert (B : vrow n b) by (split; auto).
  exists (rmul x a), (rmul x b), (rinv a), (rmul (rinv a) b). pose proof (valid_rinv n a A) as Ai. splits; auto.
  - apply (row_mul_ok n); auto.
  - apply (row_mul_ok n); auto.
  - apply (K n); auto.
  - apply row_inv_ok; auto.
  - apply (row_mul_ok n); auto.
  - rewrite <- (rmul_rinv_l n a A). apply (K n); auto.
Qed.

(** C128: hence every list of rows in which no bell jumps is rung by exactly one list of changes, found between its rows. *)
Theorem C128_rows_without_jumps_are_rung :
  forall s r rows, 0 < length rows -> Forall (fun x => valid_row x /\ length x = s) (r :: rows) ->
    (forall i a b, nth_error (r :: rows) i = Some a -> nth_error (r :: rows) (i + 1) = Some b ->
       forall bell p q, nth_error a p = Some bell -> nth_error b q = Some bell -> p <= q + 1 /\ q <= p + 1) ->
    exists pns v, length pns = length rows /\ pn_block_from_vec pns = Ok pns /\
      pn_block_to_rows pns r = Ret (Ok v) /\ ssv_rows v = Ret (r :: rows) /\
      forall pns' v', Forall (fun pn => legal pn /\ pn_stage pn = s) pns' -> pn_block_to_rows pns' r = Ret (Ok v') ->
        ssv_rows v' = Ret (r :: rows) -> pns' = pns.
Proof.
  intros s r rows P F J.
  assert (Q : forall rows r, Forall (fun x => valid_row x /\ length x = s) (r :: rows) ->
    (forall i a b, nth_error (r :: rows) i = Some a -> nth_error (r :: rows) (i + 1) = Some b ->
       forall bell p q, nth_error a p = Some bell -> nth_error b q = Some bell -> p <= q + 1 /\ q <= p + 1) ->
    exists pns, length pns = length rows /\
      (forall i a b, nth_error (r :: rows) i = Some a -> nth_error (r :: rows) (i + 1) = Some b ->
         exists pn, nth_error pns i = Some pn /\ pn_between a b = Ret (Some pn))).
  { clear. induction rows as [|r1 rows IH]; intros r F J.
    - exists []. split; auto. intros [|[|i]] a b A B; discriminate.
    - inversion F as [|? ? [V L] F1]; subst. inversion F1 as [|? ? [V1 L1] _]; subst.
      destruct (proj2 (proj1 (pf_C128_exists_exactly_when_no_bell_jumps r r1 V V1 (eq_sym L1))) (J 0 r r1 eq_refl eq_refl)) as (pn & E).
      destruct (IH r1) as (pns & Lp & H); auto.
      + intros i a b A B. apply (J (S i)); auto.
      + exists (pn :: pns). split; [cbn; congruence|]. intros [|i] a b A B.
        * cbn in A, B. injection A as <-. injection B as <-. exists pn. auto.
        * apply (H i a b A B). }
  destruct (Q rows r F J) as (pns & L & H). destruct (pf_C80_changes_give_the_rows_back s r rows pns P F L H) as (E1 & v & E2 & E3).
  exists pns, v. splits; auto. intros pns' v' F' E1' E2'.
  assert (N : pns' <> []) by (intros ->; cbn in E1'; unfold pn_block_to_rows in E1'; inversion F as [|? ? [V _] _]; subst; rewrite valid_row_stage in E1' by auto; discriminate).
  inversion F as [|? ? [V Lr] _]; subst.
  destruct (to_rows_ok pns' r (length r) N F' (conj V eq_refl)) as (w & rs & y & W1 & W2 & W3). rewrite E1' in W1. injection W1 as <-.
  rewrite (rep_rows _ _ _ W2) in E2'. injection E2' as ->. pose proof (rung_length _ _ _ _ W3) as L'.
  apply nth_error_ext. intros i. destruct (nth_error pns' i) as [pn'|] eqn:E; [|symmetry; apply nth_error_None; apply nth_error_None in E; lia].
  assert (Li : i < length pns') by (apply nth_error_Some; congruence).
  destruct (nth_error (r :: rows) i) as [a|] eqn:A; [|apply nth_error_None in A; cbn in A; lia].
  destruct (nth_error (r :: rows) (i + 1)) as [b|] eqn:B; [|apply nth_error_None in B; cbn in B; lia].
  destruct (H i a b A B) as (pn & Pn & Eb). rewrite Pn, <- E.
  destruct (rung_nth _ _ _ _ i a b W3 A B) as (pn2 & P2 & R2). rewrite P2. f_equal.
  rewrite Forall_forall in F, F'. destruct (F a (nth_error_In _ _ A)) as [Va La]. destruct (F b (nth_error_In _ _ B)) as [Vb Lb].
  destruct (F' pn2 (nth_error_In _ _ P2)) as [Lg Ls].
  destruct (pn_between_ok a b Va Vb) as (o & Eo & Ho). assert (o = Some pn2) by (apply Ho; splits; auto; congruence). congruence.
Qed.

(** From 2143 to 2413 each bell moves by at most one place; to 4213 one jumps.  Renamed, the change is the same. *)
Example C128_example :
  pn_between [1; 0; 3; 2] [1; 3; 0; 2] = Ret (Some (PlaceNot [0; 3] 4)) /\
  pn_between [1; 0; 3; 2] [3; 1; 0; 2] = Ret None /\
  row_mul [3; 2; 0; 1] [1; 0; 3; 2] = Ret [2; 3; 1; 0] /\ row_mul [3; 2; 0; 1] [1; 3; 0; 2] = Ret [2; 1; 3; 0] /\
  pn_between [2; 3; 1; 0] [2; 1; 3; 0] = Ret (Some (PlaceNot [0; 3] 4)) /\
  row_inv [1; 0; 3; 2] = Ret [1; 0; 3; 2] /\ row_mul [1; 0; 3; 2] [1; 3; 0; 2] = Ret [0; 2; 1; 3] /\
  pn_between [0; 1; 2; 3] [0; 2; 1; 3] = Ret (Some (PlaceNot [0; 3] 4)) /\
  exists v, pn_block_to_rows [PlaceNot [] 4; PlaceNot [0; 3] 4] [0; 1; 2; 3] = Ret (Ok v) /\
    ssv_rows v = Ret [[0; 1; 2; 3]; [1; 0; 3; 2]; [1; 3; 0; 2]].
Proof. splits; try (vm_compute; reflexivity). eexists. split; vm_compute; reflexivity. Qed.
