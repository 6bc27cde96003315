(** Property theorems C154: in a round touch the calls come in sets. *)

(* Generated from tools/props/Qset.src; the proofs are in QsetThms.v. *)
From Coq Require Import Factorial.
From Verif Require Import Base Spec ListFacts Bell Stage Parity Row RowFacts MulFacts ParityFacts GroupFacts
  Utils SameStageVec SpecVec SsvFacts Block SpecBlock BlockFacts PlaceNot SpecPn PnFacts PnFacts2 PnFacts3 LawFacts LawFacts2
  SymFacts3 ShapeFacts SpecHunt HuntFacts BobFacts SpecGrandsire GrandsireFacts EvenFacts EvenBobFacts ConjFacts RoundFacts SpecRound RoundFacts2 QsetFacts.
Local Open Scope list_scope.
From Verif Require Import QsetThms.

(** C154: take a touch of plain leads and called leads which comes round without repeating a row, and suppose that a plain lead from any of its lead heads leads to
    one of its lead heads.  Let [q] be the row from the lead head of the plain lead to that of the called lead.  Then with each lead the lead whose
    head is the product of its head with [q] is called too, and the number of calls is a multiple of the order of [q]. *)
Theorem C154_calls_come_in_sets :
  forall A (d : A) n plain called calls pb cb p c p' q g l' b ars, 0 < n -> plain <> [] -> length called = length plain -> calls <> [] ->
    Forall (fun pn => legal pn /\ pn_stage pn = n) plain -> Forall (fun pn => legal pn /\ pn_stage pn = n) called ->
    pn_block_to_block_from_rounds tt plain = Ret pb -> block_leftover_row pb = Ret p ->
    pn_block_to_block_from_rounds tt called = Ret cb -> block_leftover_row cb = Ret c ->
    row_inv p = Ret p' -> row_mul c p' = Ret q -> closure g q = Ret l' ->
    pn_block_to_block_from_rounds d (touch_of plain called calls) = Ret b -> block_holds b n ars (seq 0 n) -> NoDup (map fst ars) ->
    (forall i r, i < length calls -> nth_error (map fst ars) (i * length plain) = Some r ->
      exists j r', j < length calls /\ composition r p r' /\ nth_error (map fst ars) (j * length plain) = Some r') ->
    (forall i r, nth_error calls i = Some true -> nth_error (map fst ars) (i * length plain) = Some r ->
      exists j r', nth_error calls j = Some true /\ row_mul r q = Ret r' /\ nth_error (map fst ars) (j * length plain) = Some r') /\
    Nat.divide (length l') (length (filter (fun called => called) calls)).
Proof. exact pf_C154_calls_come_in_sets. Qed.
Print Assumptions C154_calls_come_in_sets.

(** The extent of Plain Bob Doubles: twelve leads with three bobs; the bobs are a set of three. *)
Example C154_example :
  exists plain bob pb cb p c p' q l' b rows, pn_block_parse (s2l "5.1.5.1.5,125") 5 = Ret (Ok plain) /\ pn_parse (s2l "145") 5 = Ret (Ok bob) /\
    pn_block_to_block_from_rounds tt plain = Ret pb /\ block_leftover_row pb = Ret p /\
    pn_block_to_block_from_rounds tt (removelast plain ++ [bob]) = Ret cb /\ block_leftover_row cb = Ret c /\
    row_inv p = Ret p' /\ row_mul c p' = Ret q /\ closure 100 q = Ret l' /\ length l' = 3 /\
    pn_block_to_block_from_rounds tt (touch_of plain (removelast plain ++ [bob]) (concat (repeat [false; false; false; true] 3))) = Ret b /\
    block_leftover_row b = Ret [0; 1; 2; 3; 4] /\ block_rows b = Ret rows /\ block_len b = 120 /\
    length (nodup (list_eq_dec Nat.eq_dec) (firstn 120 rows)) = 120 /\
    length (filter (fun called => called) (concat (repeat [false; false; false; true] 3))) = 3 /\
    row_mul (nth 30 rows []) q = Ret (nth 70 rows []) /\ row_mul (nth 70 rows []) q = Ret (nth 110 rows []) /\
    forallb (fun i => match row_mul (nth (i * 10) rows []) p with
      | Ret r => existsb (fun j => if list_eq_dec Nat.eq_dec (nth (j * 10) rows []) r then true else false) (seq 0 12)
      | _ => false end) (seq 0 12) = true.
Proof. do 11 eexists. splits; vm_compute; reflexivity. Qed.
