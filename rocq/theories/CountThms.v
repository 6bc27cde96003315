(** Property theorems C120: how many changes a stage has, and that changes reach every row. *)

(* Generated from tools/props/Count.src: the proofs behind PropsCount.v. *)
From Coq Require Import Permutation.
From Verif Require Import Base Bell Stage Row Utils SameStageVec Block PlaceNot Spec SpecVec SpecBlock SpecPn SpecMask SpecCount ListFacts
  BellFacts RowFacts MulFacts GroupFacts SsvFacts BlockFacts PnFacts PnFacts2 PnFacts3 LawFacts ReachFacts.
From Verif Require Import PnThms.
Local Open Scope list_scope.

Lemma pf_C120_number_of_changes :
  forall s, 0 < s -> there_are (number_of_changes s) (fun places => legal (PlaceNot places s)).
Proof.
  intros s H. exists (all_changes s 0). splits; [apply all_changes_length|apply all_changes_NoDup|]. intros l. unfold legal. cbn [pn_stage pn_places].
  rewrite (all_changes_ok s s 0) by lia. tauto.
Qed.

Lemma pf_C120_rows_one_change_away :
  forall r, valid_row r -> there_are (number_of_changes (length r))
    (fun r' => valid_row r' /\ exists pn, pn_between r r' = Ret (Some pn)).
Proof.
  intros r V. set (s := length r). assert (Hs : 0 < s) by (subst s; destruct V as (V & _); destruct r; [congruence|cbn; lia]).
  set (f := fun l => match pn_permute_new (PlaceNot l s) r with Ret (Ok r') => r' | _ => [] end).
  assert (Lg : forall l, In l (all_changes s 0) <-> legal (PlaceNot l s)).
  { intros l. unfold legal. cbn [pn_stage pn_places]. rewrite (all_changes_ok s s 0) by lia. tauto. }
  assert (Fo : forall l, legal (PlaceNot l s) -> pn_permute_new (PlaceNot l s) r = Ret (Ok (f l)) /\ valid_row (f l)).
  { intros l L. destruct (pn_permute_ok (PlaceNot l s) r L V eq_refl) as (r' & _ & E1 & _ & E3 & _). unfold f. rewrite E1. auto. }
  assert (Bt : forall l, legal (PlaceNot l s) -> pn_between r (f l) = Ret (Some (PlaceNot l s))).
  { intros l L. destruct (Fo l L) as (E & V'). destruct (pf_C40_place_notation_between r (f l) V V') as (o & Eo & H & _).
    rewrite Eo. f_equal. apply H. auto. }
  exists (map f (all_changes s 0)). splits.
  - rewrite map_length. apply all_changes_length.
  - apply NoDup_map_inj; [|apply all_changes_NoDup]. intros x y X Y E. apply Lg in X, Y.
    pose proof (Bt x X) as B1. rewrite E, (Bt y Y) in B1. congruence.
  - intros r'. rewrite in_map_iff. split.
    + intros (l & <- & I). apply Lg in I. split; [apply (Fo l I)|]. eauto.
    + intros (V' & pn & E). destruct (pf_C40_place_notation_between r r' V V') as (o & Eo & H & _).
      rewrite Eo in E. injection E as E. apply H in E. destruct E as (L & Ls & P). destruct pn as [l s']. cbn [pn_stage] in Ls.
      assert (s' = s) by auto. subst s'. exists l. split; [|apply Lg; auto]. destruct (Fo l L) as (E & _). congruence.
Qed.

Lemma pf_C120_both_ways :
  forall r1 r2, valid_row r1 -> valid_row r2 -> pn_between r1 r2 = pn_between r2 r1.
Proof.
  assert (K : forall r1 r2 o pn, valid_row r1 -> valid_row r2 -> pn_between r2 r1 = Ret o -> pn_between r1 r2 = Ret (Some pn) -> o = Some pn).
  { intros r1 r2 o pn V1 V2 Eo E. destruct (pf_C40_place_notation_between r1 r2 V1 V2) as (o1 & E1 & H1 & _).
    destruct (pf_C40_place_notation_between r2 r1 V2 V1) as (o2 & E2 & H2 & _).
    rewrite E1 in E. injection E as E. apply H1 in E. destruct E as (L & Ls & P). rewrite E2 in Eo. injection Eo as <-. apply H2.
    destruct (pn_permute_ok pn r1 L V1 Ls) as (r' & _ & F1 & _ & _ & F4). rewrite F1 in P. injection P as ->.
    splits; auto; [congruence|]. destruct (pf_C39_transposition pn L) as (t & _ & _ & _ & _ & _ & T).
    destruct (T r1 V1 Ls) as (r' & T1 & _ & _ & T2). rewrite F1 in T1. injection T1 as <-. auto. }
  intros r1 r2 V1 V2. destruct (pf_C40_place_notation_between r1 r2 V1 V2) as (o1 & E1 & _). destruct (pf_C40_place_notation_between r2 r1 V2 V1) as (o2 & E2 & _).
  destruct o1 as [p1|].
  - rewrite E1, E2. f_equal. symmetry. apply (K r1 r2); auto.
  - destruct o2 as [p2|]; [|congruence]. rewrite E2. rewrite E1. f_equal. apply (K r2 r1); auto.
Qed.

Lemma pf_C120_every_row_is_reached :
  forall r1 r2, valid_row r1 -> valid_row r2 -> length r1 = length r2 ->
    exists pns v rs, pns <> [] /\ Forall (fun pn => legal pn /\ pn_stage pn = length r1) pns /\
      pn_block_to_rows pns r1 = Ret (Ok v) /\ holds v (length r1) (r1 :: rs) /\ length rs = length pns /\ last (r1 :: rs) [] = r2.
Proof.
  intros r1 r2 V1 V2 L. set (s := length r1).
  assert (Hs : 0 < s) by (subst s; destruct V1 as (V & _); destruct r1; [congruence|cbn; lia]).
  destruct (perm_steps r1 r2) as (js & J); [apply (vrow_perm s); split; auto|].
  destruct (steps_rung s r1 js r2 J eq_refl) as (rs & F & R).
  set (stay := PlaceNot (seq 0 s) s).
  assert (Ls : legal stay).
  { split; auto. cbn [pn_stage pn_places stay]. rewrite <- (app_nil_r (seq _ _)). apply legal_seq; [lia|]. cbn [Nat.add]. constructor. }
  destruct (pf_C45_to_rows (stay :: map (one_swap s) js) r1 s) as (v & rs' & x & ts & E1 & E2 & E3 & E4 & E5 & _); auto; [discriminate|].
  exists (stay :: map (one_swap s) js), v, rs'. splits; auto; [discriminate|]. rewrite E5.
  inversion E4 as [|? ? ? r1' rs'' ? R1 R2]; subst.
  assert (r1' = r1).
  { eapply rings_fun; [exact R1|]. apply rings_made. cbn. intros p P. apply in_seq. subst s. lia. }
  subst r1'. apply (rung_fun _ _ _ _ _ _ R2 R).
Qed.
