(** Property theorems C158: where round blocks are started, and blocks inserted in others. *)

(* Generated from tools/props/Insert.src; the proofs are in InsertThms.v. *)
From Verif Require Import Base Spec ListFacts Bell Stage Row RowFacts MulFacts SameStageVec SpecVec SsvFacts
  PlaceNot SpecPn PnFacts PnFacts2 LawFacts InsertFacts.
Local Open Scope list_scope.
From Verif Require Import InsertThms.

(** C158: a block of changes which comes back to the row it is rung from can be started at any of its rows: the changes from there on and then those before, rung
    from that row, come back to it, and ring the same rows, in the order from there on. *)
Theorem C158_round_blocks_can_be_started_anywhere :
  forall n pns1 pns2 start v rows r, Forall (fun pn => legal pn /\ pn_stage pn = n) (pns1 ++ pns2) -> valid_row start -> length start = n ->
    pn_block_to_rows (pns1 ++ pns2) start = Ret (Ok v) -> ssv_rows v = Ret (rows ++ [start]) -> nth_error rows (length pns1) = Some r ->
    exists v', pn_block_to_rows (pns2 ++ pns1) r = Ret (Ok v') /\
      ssv_rows v' = Ret ((skipn (length pns1) rows ++ firstn (length pns1) rows) ++ [r]).
Proof. exact pf_C158_round_blocks_can_be_started_anywhere. Qed.
Print Assumptions C158_round_blocks_can_be_started_anywhere.

(** C158: and another block which comes back to one of its rows can be inserted there: the longer block comes back to where it is rung from, and rings the rows of both. *)
Theorem C158_round_blocks_can_be_inserted :
  forall n pns1 pns2 pns start v rows r w rows', Forall (fun pn => legal pn /\ pn_stage pn = n) (pns1 ++ pns ++ pns2) -> valid_row start -> length start = n ->
    pn_block_to_rows (pns1 ++ pns2) start = Ret (Ok v) -> ssv_rows v = Ret (rows ++ [start]) -> nth_error rows (length pns1) = Some r ->
    pn_block_to_rows pns r = Ret (Ok w) -> ssv_rows w = Ret (rows' ++ [r]) ->
    exists v', pn_block_to_rows (pns1 ++ pns ++ pns2) start = Ret (Ok v') /\
      ssv_rows v' = Ret ((firstn (length pns1) rows ++ rows' ++ skipn (length pns1) rows) ++ [start]).
Proof. exact pf_C158_round_blocks_can_be_inserted. Qed.
Print Assumptions C158_round_blocks_can_be_inserted.

(** Plain hunting on three bells (six rows) from its third row, and with "1.1" inserted there. *)
Example C158_example :
  exists pns1 pns2 pns v w v1 v2, pn_block_parse (s2l "3.1") 3 = Ret (Ok pns1) /\ pn_block_parse (s2l "3.1.3.1") 3 = Ret (Ok pns2) /\
    pn_block_parse (s2l "1.1") 3 = Ret (Ok pns) /\
    pn_block_to_rows (pns1 ++ pns2) [0; 1; 2] = Ret (Ok v) /\
    ssv_rows v = Ret ([[0; 1; 2]; [1; 0; 2]; [1; 2; 0]; [2; 1; 0]; [2; 0; 1]; [0; 2; 1]] ++ [[0; 1; 2]]) /\
    pn_block_to_rows pns [1; 2; 0] = Ret (Ok w) /\ ssv_rows w = Ret ([[1; 2; 0]; [1; 0; 2]] ++ [[1; 2; 0]]) /\
    pn_block_to_rows (pns2 ++ pns1) [1; 2; 0] = Ret (Ok v1) /\
    ssv_rows v1 = Ret ([[1; 2; 0]; [2; 1; 0]; [2; 0; 1]; [0; 2; 1]; [0; 1; 2]; [1; 0; 2]] ++ [[1; 2; 0]]) /\
    pn_block_to_rows (pns1 ++ pns ++ pns2) [0; 1; 2] = Ret (Ok v2) /\
    ssv_rows v2 = Ret ([[0; 1; 2]; [1; 0; 2]; [1; 2; 0]; [1; 0; 2]; [1; 2; 0]; [2; 1; 0]; [2; 0; 1]; [0; 2; 1]] ++ [[0; 1; 2]]).
Proof. do 7 eexists. splits; vm_compute; reflexivity. Qed.
