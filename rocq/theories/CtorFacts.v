(** Facts about the constructors of methods. *)
From Verif Require Import Base Spec ListFacts Bell Stage Row RowFacts MulFacts GroupFacts
  Utils SameStageVec SpecVec SsvFacts Block SpecBlock BlockFacts PlaceNot SpecPn PnFacts PnFacts2 PnFacts3 PropsBell PropsPn
  Class SpecClass ClassFacts ClassFacts2 ClassFacts3 Method SpecMethod MethodFacts PropsMethod PropsClass.
Local Open Scope list_scope.

Lemma rung_no_jump s : forall pns r rs lo, Forall (fun pn => legal pn /\ pn_stage pn = s) pns ->
  valid_row r -> length r = s -> rung r pns rs lo ->
  forall i r1 r2, nth_error (r :: rs) i = Some r1 -> nth_error (r :: rs) (i + 1) = Some r2 -> no_jump r1 r2.
Proof.
  intros pns r rs lo F V L R. revert F V L. induction R as [r|r pn pns r1 rs lo Hr R IH]; intros F V L i a b H1 H2.
  - replace (i + 1) with (S i) in H2 by lia. destruct i; discriminate.
  - inversion F as [|? ? [Lg Sn] F']; subst.
    destruct (C38_permute pn r Lg V ltac:(congruence)) as (r1' & _ & _ & E & V1 & L1).
    assert (r1' = r1) as -> by (eapply rings_fun; eauto).
    destruct i as [|i].
    + injection H1 as <-. injection H2 as <-. eapply C62_legal_changes_do_not_jump; eauto.
    + change (nth_error (r1 :: rs) i = Some a) in H1. change (nth_error (r1 :: rs) (i + 1) = Some b) in H2.
      eapply IH; eauto; congruence.
Qed.

Lemma legal_classify hash_order (b : block (option str)) s pns rs lo ars : pns <> [] ->
  Forall (fun pn => legal pn /\ pn_stage pn = s) pns -> rung (seq 0 s) pns rs lo ->
  block_holds b s ars lo -> map fst ars = removelast (seq 0 s :: rs) ->
  (forall l, collected_set l (hash_order l)) ->
  exists fc, classify hash_order b = Ret fc /\ is_jump fc = false.
Proof.
  intros N F R H M HO. assert (exists r1 rs', rs = r1 :: rs') as (r1 & rs' & ->).
  { destruct R; [congruence|eauto]. }
  assert (Hs : 0 < s) by apply H.
  assert (V : vrow s (seq 0 s)) by (rewrite <- rounds_seq; apply valid_rounds; auto).
  destruct (C62_classification _ b s ars lo hash_order H) as (fc & E & J & _); eauto.
  - intros ->. discriminate M.
  - rewrite M. cbn [removelast hd]. rewrite <- rounds_seq. apply rounds_identity.
  - intros i a c [H1 H2]. rewrite M in H1, H2.
    assert (El : removelast (seq 0 s :: r1 :: rs') ++ [lo] = seq 0 s :: r1 :: rs').
    { rewrite <- (rung_last _ _ _ _ R). symmetry. apply app_removelast_last. discriminate. }
    rewrite El in H1, H2.
    exact (rung_no_jump s _ _ _ _ F (proj1 V) (proj2 V) R i a c H1 H2).
Qed.
