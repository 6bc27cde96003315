(** Property theorems C158: where round blocks are started, and blocks inserted in others. *)
(*IMPORTS*)
From Verif Require Import Base Spec ListFacts Bell Stage Row RowFacts MulFacts SameStageVec SpecVec SsvFacts
  PlaceNot SpecPn PnFacts PnFacts2 LawFacts InsertFacts.
Local Open Scope list_scope.
(*BODY*)

(** C158: a block of changes which comes back to the row it is rung from can be started at any of its rows: the changes from there on and then those before, rung
    from that row, come back to it, and ring the same rows, in the order from there on. *)
Theorem C158_round_blocks_can_be_started_anywhere :
  forall n pns1 pns2 start v rows r, Forall (fun pn => legal pn /\ pn_stage pn = n) (pns1 ++ pns2) -> valid_row start -> length start = n ->
    pn_block_to_rows (pns1 ++ pns2) start = Ret (Ok v) -> ssv_rows v = Ret (rows ++ [start]) -> nth_error rows (length pns1) = Some r ->
    exists v', pn_block_to_rows (pns2 ++ pns1) r = Ret (Ok v') /\
      ssv_rows v' = Ret ((skipn (length pns1) rows ++ firstn (length pns1) rows) ++ [r]).
Proof.
  intros n a b start v rows r F Vs Ls E Er N. assert (V : vrow n start) by (split; auto).
  destruct (two_parts n a b start v rows r F V E Er N) as (rs1 & rs2 & Vr & H1 & H2 & E1 & E2).
  destruct (rung_rows n (b ++ a) r ((rs2 ++ [start]) ++ rs1) r) as (v' & Ev & Es); auto.
  - intros Z. apply app_eq_nil in Z as [-> ->]. inversion H2; destruct rs2; discriminate.
  - apply Forall_app in F as [? ?]. apply Forall_app. auto.
  - eapply rung_app; eauto.
  - exists v'. split; auto. rewrite Es, E2, <- !app_assoc. cbn [app]. rewrite <- E1. auto.
Qed.

(** C158: and another block which comes back to one of its rows can be inserted there: the longer block comes back to where it is rung from, and rings the rows of both. *)
Theorem C158_round_blocks_can_be_inserted :
  forall n pns1 pns2 pns start v rows r w rows', Forall (fun pn => legal pn /\ pn_stage pn = n) (pns1 ++ pns ++ pns2) -> valid_row start -> length start = n ->
    pn_block_to_rows (pns1 ++ pns2) start = Ret (Ok v) -> ssv_rows v = Ret (rows ++ [start]) -> nth_error rows (length pns1) = Some r ->
    pn_block_to_rows pns r = Ret (Ok w) -> ssv_rows w = Ret (rows' ++ [r]) ->
    exists v', pn_block_to_rows (pns1 ++ pns ++ pns2) start = Ret (Ok v') /\
      ssv_rows v' = Ret ((firstn (length pns1) rows ++ rows' ++ skipn (length pns1) rows) ++ [start]).
Proof.
  intros n a b c start v rows r w rows' F Vs Ls E Er N Ew Es. assert (V : vrow n start) by (split; auto).
  apply Forall_app in F as [Fa F]. apply Forall_app in F as [Fc Fb].
  assert (Fab : Forall (fun pn => legal pn /\ pn_stage pn = n) (a ++ b)) by (apply Forall_app; auto).
  destruct (two_parts n a b start v rows r Fab V E Er N) as (rs1 & rs2 & Vr & H1 & H2 & E1 & E2).
  destruct (to_rows_ok c r n) as (w' & rs & x & E' & Rw & Ru); auto.
  { intros ->. unfold pn_block_to_rows, pn_block_stage in Ew. destruct (row_stage r); cbn in Ew; discriminate. }
  rewrite Ew in E'. injection E' as <-. rewrite (rep_rows _ _ _ Rw) in Es. injection Es as Es.
  pose proof (rung_last _ _ _ _ Ru) as Lx. rewrite Es, last_last in Lx. subst x.
  destruct (rung_rows n (a ++ c ++ b) start (rs1 ++ rs ++ rs2 ++ [start]) start) as (v' & Ev & Ex); auto.
  - intros Z. apply app_eq_nil in Z as [-> Z]. apply app_eq_nil in Z as [-> ->]. inversion H2; destruct rs2; discriminate.
  - apply Forall_app. split; auto. apply Forall_app. auto.
  - eapply rung_app; eauto. eapply rung_app; eauto.
  - exists v'. split; auto. rewrite Ex, E2. f_equal. change (start :: rs1 ++ rs ++ rs2 ++ [start]) with ((start :: rs1) ++ rs ++ rs2 ++ [start]).
    rewrite E1. rewrite <- !app_assoc. cbn [app]. f_equal. change (r :: rs ++ rs2 ++ [start]) with ((r :: rs) ++ rs2 ++ [start]). rewrite Es, <- app_assoc. auto.
Qed.

(** Plain hunting on three bells (six rows) from its third row, and with "1.1" inserted there. *)
Example C158_example :
  exists pns1 pns2 pns v w v1 v2, pn_block_parse (s2l "3.1") 3 = Ret (Ok pns1) /\ pn_block_parse (s2l "3.1.3.1") 3 = Ret (Ok pns2) /\
    pn_block_parse (s2l "1.1") 3 = Ret (Ok pns) /\
    pn_block_to_rows (pns1 ++ pns2) [0; 1; 2] = Ret (Ok v) /\
    ssv_rows v = Ret ([[0; 1; 2]; [1; 0; 2]; [1; 2; 0]; [2; 1; 0]; [2; 0; 1]; [0; 2; 1]] ++ [[0; 1; 2]]) /\
    pn_block_to_rows pns [1; 2; 0] = Ret (Ok w) /\ ssv_rows w = Ret ([[1; 2; 0]; [1; 0; 2]] ++ [[1; 2; 0]]) /\
    pn_block_to_rows (pns2 ++ pns1) [1; 2; 0] = Ret (Ok v1) /\
    ssv_rows v1 = Ret ([[1; 2; 0]; [2; 1; 0]; [2; 0; 1]; [0; 2; 1]; [0; 1; 2]; [1; 0; 2]] ++ [[1; 2; 0]]) /\
    pn_block_to_rows (pns1 ++ pns ++ pns2) [0; 1; 2] = Ret (Ok v2) /\
    ssv_rows v2 = Ret ([[0; 1; 2]; [1; 0; 2]; [1; 2; 0]; [1; 0; 2]; [1; 2; 0]; [2; 1; 0]; [2; 0; 1]; [0; 2; 1]] ++ [[0; 1; 2]]).
Proof. do 7 eexists. splits; vm_compute; reflexivity. Qed.
