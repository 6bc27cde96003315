(** Property theorems C147: an extent of Plain Bob on an even number of bells has a single. *)

(* Generated from tools/props/BobRound.src; the proofs are in BobRoundThms.v. *)
From Coq Require Import Factorial.
From Verif Require Import Base Spec ListFacts Bell Stage Parity Row RowFacts MulFacts ParityFacts GroupFacts
  Utils SameStageVec SpecVec SsvFacts Block SpecBlock BlockFacts PlaceNot SpecPn PnFacts PnFacts2 PnFacts3 LawFacts LawFacts2
  SymFacts3 ShapeFacts SpecHunt HuntFacts BobFacts CalledBobFacts EvenFacts EvenBobFacts ConjFacts RoundFacts SpecRound RoundFacts2 RoundFacts3.
Local Open Scope list_scope.
From Verif Require Import BobRoundThms.

(** C147: take a touch of Plain Bob on an even number of bells, six or more, in which each lead ends with a plain lead end, a bob or a single.
    If it comes round, and has each row of the stage exactly once, then some lead ends with a single. *)
Theorem C147_extents_need_singles :
  forall A (d : A) n plain bob single calls b ars, Nat.Even n -> 6 <= n ->
    pn_parse (s2l "12") n = Ret (Ok plain) -> pn_parse (s2l "14") n = Ret (Ok bob) -> pn_parse (s2l "1234") n = Ret (Ok single) ->
    calls <> [] -> Forall (fun c => In c [plain; bob; single]) calls ->
    pn_block_to_block_from_rounds d (concat (map (fun c => removelast (plain_bob n) ++ [c]) calls)) = Ret b ->
    block_holds b n ars (seq 0 n) -> NoDup (map fst ars) -> length ars = fact n -> In single calls.
Proof. exact pf_C147_extents_need_singles. Qed.
Print Assumptions C147_extents_need_singles.

(** An extent of Plain Bob Minor, with two singles: it comes round after the 720 rows of the stage. *)
Example C147_example :
  exists plain bob single b rows, pn_parse (s2l "12") 6 = Ret (Ok plain) /\ pn_parse (s2l "14") 6 = Ret (Ok bob) /\ pn_parse (s2l "1234") 6 = Ret (Ok single) /\
    let part := [plain; plain; plain; plain; bob; plain; plain; plain; bob; bob] in
    let half := part ++ part ++ removelast part ++ [single] in
    pn_block_to_block_from_rounds tt (concat (map (fun c => removelast (plain_bob 6) ++ [c]) (half ++ half))) = Ret b /\
    block_leftover_row b = Ret [0; 1; 2; 3; 4; 5] /\ block_rows b = Ret rows /\ block_len b = fact 6 /\
    length (nodup (list_eq_dec Nat.eq_dec) (firstn 720 rows)) = 720.
Proof. do 5 eexists. do 3 (split; [vm_compute; reflexivity|]). cbv zeta. splits; vm_compute; reflexivity. Qed.
