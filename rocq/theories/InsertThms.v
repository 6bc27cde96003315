(** Property theorems C158: where round blocks are started, and blocks inserted in others. *)

(* Generated from tools/props/Insert.src: the proofs behind PropsInsert.v. *)
From Verif Require Import Base Spec ListFacts Bell Stage Row RowFacts MulFacts SameStageVec SpecVec SsvFacts
  PlaceNot SpecPn PnFacts PnFacts2 LawFacts InsertFacts.
Local Open Scope list_scope.

Lemma pf_C158_round_blocks_can_be_started_anywhere :
  forall n pns1 pns2 start v rows r, Forall (fun pn => legal pn /\ pn_stage pn = n) (pns1 ++ pns2) -> valid_row start -> length start = n ->
    pn_block_to_rows (pns1 ++ pns2) start = Ret (Ok v) -> ssv_rows v = Ret (rows ++ [start]) -> nth_error rows (length pns1) = Some r ->
    exists v', pn_block_to_rows (pns2 ++ pns1) r = Ret (Ok v') /\
      ssv_rows v' = Ret ((skipn (length pns1) rows ++ firstn (length pns1) rows) ++ [r]).
Proof.
  intros n a b start v rows r F Vs Ls E Er N. assert (V : vrow n start) by (split; auto).
  destruct (two_parts n a b start v rows r F V E Er N) as (rs1 & rs2 & Vr & H1 & H2 & E1 & E2).
  destruct (rung_rows n (b ++ a) r ((rs2 ++ [start]) ++ rs1) r) as (v' & Ev & Es); auto.
  - intros Z. apply app_eq_nil in Z as [-> ->]. inversion H2; destruct rs2; discriminate.
  - apply Forall_app in F as [? ?]. apply Forall_app. auto.
  - eapply rung_app; eauto.
  - exists v'. split; auto. rewrite Es, E2, <- !app_assoc. cbn [app]. rewrite <- E1. auto.
Qed.

Lemma pf_C158_round_blocks_can_be_inserted :
  forall n pns1 pns2 pns start v rows r w rows', Forall (fun pn => legal pn /\ pn_stage pn = n) (pns1 ++ pns ++ pns2) -> valid_row start -> length start = n ->
    pn_block_to_rows (pns1 ++ pns2) start = Ret (Ok v) -> ssv_rows v = Ret (rows ++ [start]) -> nth_error rows (length pns1) = Some r ->
    pn_block_to_rows pns r = Ret (Ok w) -> ssv_rows w = Ret (rows' ++ [r]) ->
    exists v', pn_block_to_rows (pns1 ++ pns ++ pns2) start = Ret (Ok v') /\
      ssv_rows v' = Ret ((firstn (length pns1) rows ++ rows' ++ skipn (length pns1) rows) ++ [start]).
Proof.
  intros n a b c start v rows r w rows' F Vs Ls E Er N Ew Es. assert (V : vrow n start) by (split; auto).
  apply Forall_app in F as [Fa F]. apply Forall_app in F as [Fc Fb].
  assert (Fab : Forall (fun pn => legal pn /\ pn_stage pn = n) (a ++ b)) by (apply Forall_app; auto).
  destruct (two_parts n a b start v rows r Fab V E Er N) as (rs1 & rs2 & Vr & H1 & H2 & E1 & E2).
  destruct (to_rows_ok c r n) as (w' & rs & x & E' & Rw & Ru); auto.
  { intros ->. unfold pn_block_to_rows, pn_block_stage in Ew. destruct (row_stage r); cbn in Ew; discriminate. }
  rewrite Ew in E'. injection E' as <-. rewrite (rep_rows _ _ _ Rw) in Es. injection Es as Es.
  pose proof (rung_last _ _ _ _ Ru) as Lx. rewrite Es, last_last in Lx. subst x.
  destruct (rung_rows n (a ++ c ++ b) start (rs1 ++ rs ++ rs2 ++ [start]) start) as (v' & Ev & Ex); auto.
  - intros Z. apply app_eq_nil in Z as [-> Z]. apply app_eq_nil in Z as [-> ->]. inversion H2; destruct rs2; discriminate.
  - apply Forall_app. split; auto. apply Forall_app. auto.
  - eapply rung_app; eauto. eapply rung_app; eauto.
  - exists v'. split; auto. rewrite Ex, E2. f_equal. change (start :: rs1 ++ rs ++ rs2 ++ [start]) with ((start :: rs1) ++ rs ++ rs2 ++ [start]).
    rewrite E1. rewrite <- !app_assoc. cbn [app]. f_equal. change (r :: rs ++ rs2 ++ [start]) with ((r :: rs) ++ rs2 ++ [start]). rewrite Es, <- app_assoc. auto.
Qed.
