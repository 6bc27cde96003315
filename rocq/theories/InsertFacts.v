(** Lemmas for C158: where round blocks are started, and blocks inserted in others. *)
From Verif Require Import Base Spec SpecBlock SpecVec SpecPn ListFacts Row RowFacts MulFacts SameStageVec SsvFacts PlaceNot PnFacts PnFacts2 LawFacts.
Local Open Scope list_scope.

Lemma rung_split r a b rs x : rung r (a ++ b) rs x -> exists rs1 rs2 y, rs = rs1 ++ rs2 /\ length rs1 = length a /\ rung r a rs1 y /\ rung y b rs2 x.
Proof.
  revert r rs. induction a as [|pn a IH]; intros r rs H; cbn [app] in H.
  - exists [], rs, r. repeat split; auto. constructor.
  - inversion H as [|? ? ? r1 rs1 ? R H']; subst. destruct (IH _ _ H') as (l1 & l2 & y & -> & L & H1 & H2).
    exists (r1 :: l1), l2, y. repeat split; cbn [length]; auto. econstructor; eauto.
Qed.

Lemma snoc_of (A : Type) (a : A) l : exists l' x, a :: l = l' ++ [x] /\ length l' = length l.
Proof.
  destruct (exists_last (l := a :: l)) as (l' & x & E); [discriminate|]. exists l', x. split; auto.
  apply (f_equal (@length A)) in E. rewrite app_length in E. cbn in E. lia.
Qed.

(** The rows of a block in two parts. *)
Lemma two_parts n a b start v rows r : Forall (fun pn => legal pn /\ pn_stage pn = n) (a ++ b) -> vrow n start ->
  pn_block_to_rows (a ++ b) start = Ret (Ok v) -> ssv_rows v = Ret (rows ++ [start]) -> nth_error rows (length a) = Some r ->
  exists rs1 rs2, vrow n r /\ rung start a rs1 r /\ rung r b (rs2 ++ [start]) start /\ start :: rs1 = firstn (length a) rows ++ [r] /\ skipn (length a) rows = r :: rs2.
Proof.
  intros F V E Er N. destruct (to_rows_ok (a ++ b) start n) as (v' & rs & x & E' & Rv & Ru); auto.
  { intros Z. rewrite Z in E. unfold pn_block_to_rows, pn_block_stage in E. destruct (row_stage start); cbn in E; discriminate. }
  rewrite E in E'. injection E' as <-. rewrite (rep_rows _ _ _ Rv) in Er. injection Er as Er.
  destruct (rung_split _ _ _ _ _ Ru) as (rs1 & rs2 & y & -> & L & H1 & H2).
  pose proof (rung_last _ _ _ _ H1) as Ly. destruct (snoc_of _ start rs1) as (l1 & y' & E1 & L1). rewrite E1, last_last in Ly. subst y'.
  change (start :: rs1 ++ rs2) with ((start :: rs1) ++ rs2) in Er. rewrite E1 in Er.
  destruct rs2 as [|z rs2].
  { exfalso. rewrite app_nil_r in Er. apply app_inj_tail in Er as [-> _]. assert (length a < length rows) by (apply nth_error_Some; congruence). lia. }
  destruct (snoc_of _ z rs2) as (l2 & x' & E2 & L2). rewrite E2 in *. pose proof (rung_last _ _ _ _ H2) as Lx.
  change (y :: l2 ++ [x']) with ((y :: l2) ++ [x']) in Lx. rewrite last_last in Lx. subst x'.
  rewrite app_assoc in Er. apply app_inj_tail in Er as [<- ->]. rewrite <- app_assoc in N. cbn [app] in N.
  rewrite nth_error_app2 in N by lia. replace (length a - length l1) with 0 in N by lia. injection N as <-.
  exists rs1, l2. split; [eapply rung_vrow; eauto|]. split; auto. split; auto. rewrite <- app_assoc. cbn [app].
  replace (length a) with (length l1 + 0) by lia. rewrite firstn_app_2, skipn_app. cbn [firstn]. rewrite app_nil_r, E1. split; auto.
  rewrite skipn_all2 by lia. replace (length l1 + 0 - length l1) with 0 by lia. auto.
Qed.

Lemma rung_rows n pns start rs x : pns <> [] -> Forall (fun pn => legal pn /\ pn_stage pn = n) pns -> vrow n start -> rung start pns rs x ->
  exists v, pn_block_to_rows pns start = Ret (Ok v) /\ ssv_rows v = Ret (start :: rs).
Proof.
  intros N F V H. destruct (to_rows_ok pns start n N F V) as (v & rs' & x' & E & Rv & H'). exists v. split; auto.
  rewrite (rep_rows _ _ _ Rv). destruct (rung_fun _ _ _ _ _ _ H H') as [<- _]. auto.
Qed.
