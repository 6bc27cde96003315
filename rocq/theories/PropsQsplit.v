(** Property theorems C159: a touch with a set of calls left out falls into round blocks. *)

(* Generated from tools/props/Qsplit.src; the proofs are in QsplitThms.v. *)
From Verif Require Import Base Spec ListFacts Bell Stage Parity Row RowFacts MulFacts ParityFacts GroupFacts
  Utils SameStageVec SpecVec SsvFacts Block SpecBlock BlockFacts PlaceNot SpecPn PnFacts PnFacts2 LawFacts LawFacts2 QjoinFacts InsertFacts QsplitFacts.
Local Open Scope list_scope.
From Verif Require Import QsplitThms.

(** C159: take a block which comes back to the row it is rung from, cut into parts ending with the same call [pc], and another change [pp].  Let [q] be
    the row from the transposition of [pp] to that of [pc], and suppose there are as many parts as the order of [q], and that the last row of each part
    before the call times [q] is the last row of the next before the call.  Then each part with [pp] for the call, rung from its first row, comes back to it and rings the
    same rows. *)
Theorem C159_without_a_set_of_calls :
  forall n pp pc tp tc tp' q fuel l bodies rowss start v,
    legal pp -> pn_stage pp = n -> legal pc -> pn_stage pc = n -> Forall (Forall (fun pn => legal pn /\ pn_stage pn = n)) bodies ->
    pn_transposition pp = Ret tp -> pn_transposition pc = Ret tc -> row_inv tp = Ret tp' -> row_mul tc tp' = Ret q -> closure fuel q = Ret l ->
    length bodies = length l -> valid_row start -> length start = n ->
    pn_block_to_rows (concat (map (fun body => body ++ [pc]) bodies)) start = Ret (Ok v) -> ssv_rows v = Ret (concat rowss ++ [start]) ->
    Forall2 (fun body rows => length rows = length (body ++ [pc])) bodies rowss ->
    (forall k a b, nth_error rowss k = Some a -> nth_error rowss (S k) = Some b -> row_mul (last a []) q = Ret (last b [])) ->
    Forall2 (fun body rows => exists s rest v', rows = s :: rest /\ pn_block_to_rows (body ++ [pp]) s = Ret (Ok v') /\
      ssv_rows v' = Ret (rows ++ [s])) bodies rowss.
Proof. exact pf_C159_without_a_set_of_calls. Qed.
Print Assumptions C159_without_a_set_of_calls.

(** The extent of Plain Bob Doubles with three bobs: without them it falls into three plain courses. *)
Example C159_example :
  exists plain pp pc tp tc tp' q l v0 v1 v2 rows0 rows1 rows2 v,
    let body := plain ++ plain ++ plain ++ removelast plain in
    pn_block_parse (s2l "5.1.5.1.5,125") 5 = Ret (Ok plain) /\ pn_parse (s2l "125") 5 = Ret (Ok pp) /\ pn_parse (s2l "145") 5 = Ret (Ok pc) /\
    pn_transposition pp = Ret tp /\ pn_transposition pc = Ret tc /\ row_inv tp = Ret tp' /\ row_mul tc tp' = Ret q /\
    closure 100 q = Ret l /\ length l = 3 /\
    pn_block_to_rows ((body ++ [pc]) ++ (body ++ [pc]) ++ (body ++ [pc])) [0; 1; 2; 3; 4] = Ret (Ok v) /\
    ssv_rows v = Ret ((rows0 ++ rows1 ++ rows2) ++ [[0; 1; 2; 3; 4]]) /\ map (@length row) [rows0; rows1; rows2] = [40; 40; 40] /\
    length (body ++ [pc]) = 40 /\ length (nodup (list_eq_dec Nat.eq_dec) (rows0 ++ rows1 ++ rows2)) = 120 /\
    row_mul (last rows0 []) q = Ret (last rows1 []) /\ row_mul (last rows1 []) q = Ret (last rows2 []) /\
    pn_block_to_rows (body ++ [pp]) [0; 1; 2; 3; 4] = Ret (Ok v0) /\ ssv_rows v0 = Ret (rows0 ++ [[0; 1; 2; 3; 4]]) /\
    pn_block_to_rows (body ++ [pp]) [0; 3; 1; 2; 4] = Ret (Ok v1) /\ ssv_rows v1 = Ret (rows1 ++ [[0; 3; 1; 2; 4]]) /\
    pn_block_to_rows (body ++ [pp]) [0; 2; 3; 1; 4] = Ret (Ok v2) /\ ssv_rows v2 = Ret (rows2 ++ [[0; 2; 3; 1; 4]]).
Proof.
  destruct (pn_block_parse (s2l "5.1.5.1.5,125") 5) as [[plain|]| | |] eqn:E; try discriminate E. exists plain.
  vm_compute in E. injection E as <-.
  do 10 eexists.
  set (rows := fun s => match pn_block_parse (s2l "5.1.5.1.5,125") 5 with
    | Ret (Ok p) => match pn_block_to_rows (p ++ p ++ p ++ p) s with Ret (Ok v) => match ssv_rows v with Ret l => firstn 40 l | _ => [] end | _ => [] end
    | _ => [] end).
  exists (rows [0; 1; 2; 3; 4]), (rows [0; 3; 1; 2; 4]), (rows [0; 2; 3; 1; 4]). eexists. cbv zeta. splits; vm_compute; reflexivity.
Qed.
