(** Property theorems C146: round touches of plain and called leads. *)

(* Generated from tools/props/Round.src; the proofs are in RoundThms.v. *)
From Coq Require Import Factorial.
From Verif Require Import Base Spec ListFacts Bell Stage Parity Row RowFacts MulFacts ParityFacts GroupFacts
  Utils SameStageVec SpecVec SsvFacts Block SpecBlock BlockFacts PlaceNot SpecPn PnFacts PnFacts2 PnFacts3 LawFacts LawFacts2
  SymFacts3 ShapeFacts SpecHunt HuntFacts BobFacts SpecGrandsire GrandsireFacts EvenFacts EvenBobFacts ConjFacts RoundFacts SpecRound RoundFacts2.
Local Open Scope list_scope.
From Verif Require Import RoundThms.

(** C146: take a touch of plain leads and called leads which comes round without repeating a row.  Suppose that a plain lead from any of its lead heads
    leads to one of its lead heads, and that the row from the lead head of the plain lead to that of the called lead has odd order.  Then
    the number of leads is an odd number of times the number of leads in the plain course. *)
Theorem C146_round_touches :
  forall A (d : A) n plain called calls pb cb p c p' q f l g l' b ars, 0 < n -> plain <> [] -> length called = length plain -> calls <> [] ->
    Forall (fun pn => legal pn /\ pn_stage pn = n) plain -> Forall (fun pn => legal pn /\ pn_stage pn = n) called ->
    pn_block_to_block_from_rounds tt plain = Ret pb -> block_leftover_row pb = Ret p ->
    pn_block_to_block_from_rounds tt called = Ret cb -> block_leftover_row cb = Ret c ->
    row_inv p = Ret p' -> row_mul c p' = Ret q -> closure f p = Ret l -> closure g q = Ret l' -> Nat.Odd (length l') ->
    pn_block_to_block_from_rounds d (touch_of plain called calls) = Ret b -> block_holds b n ars (seq 0 n) -> NoDup (map fst ars) ->
    (forall i r, i < length calls -> nth_error (map fst ars) (i * length plain) = Some r ->
      exists j r', j < length calls /\ composition r p r' /\ nth_error (map fst ars) (j * length plain) = Some r') ->
    exists courses, Nat.Odd courses /\ length calls = courses * length l.
Proof. exact pf_C146_round_touches. Qed.
Print Assumptions C146_round_touches.

(** C146: so there is no extent of Grandsire on an odd number of bells (from five on) with plain leads and bobs only. *)
Theorem C146_no_extent_of_grandsire_with_bobs_only :
  forall A (d : A) n calls b ars, 5 <= n -> Nat.Odd n -> calls <> [] ->
    pn_block_to_block_from_rounds d (touch_of (grandsire n) (grandsire_bob n) calls) = Ret b -> block_holds b n ars (seq 0 n) ->
    NoDup (map fst ars) -> length ars < fact n.
Proof. exact pf_C146_no_extent_of_grandsire_with_bobs_only. Qed.
Print Assumptions C146_no_extent_of_grandsire_with_bobs_only.

(** The extent of Plain Bob Doubles: three times three plain leads and a bob, twelve leads in all, which is three times the four leads of the plain course. *)
Example C146_example :
  exists plain bob pb cb p c p' q l l' b rows, pn_block_parse (s2l "5.1.5.1.5,125") 5 = Ret (Ok plain) /\ pn_parse (s2l "145") 5 = Ret (Ok bob) /\
    pn_block_to_block_from_rounds tt plain = Ret pb /\ block_leftover_row pb = Ret p /\
    pn_block_to_block_from_rounds tt (removelast plain ++ [bob]) = Ret cb /\ block_leftover_row cb = Ret c /\
    row_inv p = Ret p' /\ row_mul c p' = Ret q /\ closure 100 p = Ret l /\ length l = 4 /\ closure 100 q = Ret l' /\ length l' = 3 /\
    pn_block_to_block_from_rounds tt (touch_of plain (removelast plain ++ [bob]) (concat (repeat [false; false; false; true] 3))) = Ret b /\
    block_leftover_row b = Ret [0; 1; 2; 3; 4] /\ block_rows b = Ret rows /\ block_len b = 120 /\
    length (nodup (list_eq_dec Nat.eq_dec) (firstn 120 rows)) = 120 /\
    forallb (fun i => match row_mul (nth (i * 10) rows []) p with
      | Ret r => existsb (fun j => if list_eq_dec Nat.eq_dec (nth (j * 10) rows []) r then true else false) (seq 0 12)
      | _ => false end) (seq 0 12) = true.
Proof. do 12 eexists. splits; vm_compute; reflexivity. Qed.

(** A touch of Grandsire Triples with plain leads and bobs, which comes round without repeating a row. *)
Example C146_grandsire_example :
  exists bob b rows, pn_block_parse (s2l "3.1") 7 = Ret (Ok bob) /\ grandsire_bob 7 = firstn 12 (grandsire 7) ++ bob /\
    pn_block_to_block_from_rounds tt (touch_of (grandsire 7) (grandsire_bob 7) (concat (repeat [true; true; false] 5))) = Ret b /\
    block_leftover_row b = Ret [0; 1; 2; 3; 4; 5; 6] /\ block_rows b = Ret rows /\ block_len b = 210 /\
    length (nodup (list_eq_dec Nat.eq_dec) (firstn 210 rows)) = 210.
Proof. do 3 eexists. splits; vm_compute; reflexivity. Qed.
