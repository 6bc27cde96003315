(** Property theorems C142: touches of Plain Bob without odd calls. *)

(* Generated from tools/props/EvenBob.src; the proofs are in EvenBobThms.v. *)
From Coq Require Import Factorial.
From Verif Require Import Base Spec ListFacts Bell Stage Parity Row RowFacts MulFacts ParityFacts GroupFacts
  Utils SameStageVec SpecVec SsvFacts Block SpecBlock BlockFacts PlaceNot SpecPn PnFacts PnFacts2 PnFacts3 LawFacts LawFacts2
  Class SpecClass Method SpecMethod MethodFacts SymFacts3 ShapeFacts BellPathFacts SpecHunt HuntFacts BobFacts AffectFacts CalledBobFacts EvenFacts EvenBobFacts.
From Verif Require Import PnThms.
Local Open Scope list_scope.
From Verif Require Import EvenBobThms.

(** C142: on 5, 6, 9, 10, 13, 14, ... bells, a touch of Plain Bob in which every change at a lead end keeps the treble in front and swaps an even number of
    pairs repeats a row if it has more than half of the rows of the stage. *)
Theorem C142_even_calls :
  forall A (d : A) n calls b ars lo, 3 <= n -> n mod 4 = 1 \/ n mod 4 = 2 -> calls <> [] ->
    Forall (fun c => legal c /\ pn_stage c = n /\ In 0 (pn_places c) /\ Nat.Even ((n - length (pn_places c)) / 2)) calls ->
    pn_block_to_block_from_rounds d (concat (map (fun c => removelast (plain_bob n) ++ [c]) calls)) = Ret b -> block_holds b n ars lo ->
    NoDup (map fst ars) -> 2 * length ars <= fact n.
Proof. exact pf_C142_even_calls. Qed.
Print Assumptions C142_even_calls.

(** C142: so on 6, 10, 14, ... bells there is no extent of Plain Bob with plain leads and bobs only: a touch of more than half of the rows which does not repeat a row has a single. *)
Theorem C142_extents_need_singles :
  forall A (d : A) n plain bob single calls b ars lo, n mod 4 = 2 -> 4 <= n ->
    pn_parse (s2l "12") n = Ret (Ok plain) -> pn_parse (s2l "14") n = Ret (Ok bob) -> pn_parse (s2l "1234") n = Ret (Ok single) ->
    calls <> [] -> Forall (fun c => In c [plain; bob; single]) calls ->
    pn_block_to_block_from_rounds d (concat (map (fun c => removelast (plain_bob n) ++ [c]) calls)) = Ret b -> block_holds b n ars lo ->
    NoDup (map fst ars) -> fact n < 2 * length ars -> In single calls.
Proof. exact pf_C142_extents_need_singles. Qed.
Print Assumptions C142_extents_need_singles.

(** A touch of Plain Bob Minor with half of the rows of the stage, from plain leads and bobs only. *)
Example C142_example :
  exists plain bob b rows, pn_parse (s2l "12") 6 = Ret (Ok plain) /\ pn_parse (s2l "14") 6 = Ret (Ok bob) /\
    pn_block_to_block_from_rounds tt (concat (map (fun c => removelast (plain_bob 6) ++ [c])
      (concat (repeat [plain; plain; plain; plain; bob; plain; plain; plain; bob; bob] 3)))) = Ret b /\
    block_leftover_row b = Ret [0; 1; 2; 3; 4; 5] /\ block_rows b = Ret rows /\ 2 * block_len b = fact 6 /\
    length (nodup (list_eq_dec Nat.eq_dec) (firstn 360 rows)) = 360.
Proof. do 4 eexists. splits; vm_compute; reflexivity. Qed.
