(** Property theorems C155: how many leads a touch without repeated rows can have. *)

(* Generated from tools/props/Bound.src; the proofs are in BoundThms.v. *)
From Coq Require Import Factorial.
From Verif Require Import Base Spec ListFacts Bell Stage Parity Row RowFacts MulFacts ParityFacts GroupFacts
  Utils SameStageVec SpecVec SsvFacts Block SpecBlock BlockFacts PlaceNot SpecPn PnFacts PnFacts2 PnFacts3 LawFacts LawFacts2
  SymFacts3 ShapeFacts SpecHunt HuntFacts BobFacts Mask SpecMask MaskFacts MaskFacts2 RoundFacts2.
From Verif Require Import ExtentThms.
Local Open Scope list_scope.
From Verif Require Import BoundThms.

(** C155: put together leads of one length, of as many kinds as you like, in any order.  If rounds and the lead head of each lead match a mask, so does every lead
    head of the touch; and if no row is repeated, there are at most as many leads as orders of the bells which the mask leaves open. *)
Theorem C155_leads_which_keep_to_a_mask :
  forall A (d : A) n len leads m b ars lo, 0 < n -> 0 < len -> leads <> [] ->
    Forall (fun lead => length lead = len) leads -> Forall (Forall (fun pn => legal pn /\ pn_stage pn = n)) leads ->
    mask_matches m (row_rounds n) = Ret true ->
    Forall (fun lead => exists lb h, pn_block_to_block_from_rounds tt lead = Ret lb /\ block_leftover_row lb = Ret h /\ mask_matches m h = Ret true) leads ->
    pn_block_to_block_from_rounds d (concat leads) = Ret b -> block_holds b n ars lo ->
    (forall k, k < length leads -> exists r, nth_error (map fst ars) (k * len) = Some r /\ mask_matches m r = Ret true) /\
    mask_matches m lo = Ret true /\
    (NoDup (map fst ars) -> length leads <= fact (length (mask_unspecified_places m))).
Proof. exact pf_C155_leads_which_keep_to_a_mask. Qed.
Print Assumptions C155_leads_which_keep_to_a_mask.

(** Plain and singled leads of Plain Bob Minimus keep to the mask 1xxx.  Three plain leads ring 24 different rows; the mask allows at most six leads. *)
Example C155_example :
  exists plain single pb sb p c b rows, pn_block_parse (s2l "-14-14,12") 4 = Ret (Ok plain) /\ pn_parse (s2l "1234") 4 = Ret (Ok single) /\
    pn_block_to_block_from_rounds tt plain = Ret pb /\ block_leftover_row pb = Ret p /\ mask_matches (mask_parse (s2l "1xxx")) p = Ret true /\
    pn_block_to_block_from_rounds tt (removelast plain ++ [single]) = Ret sb /\ block_leftover_row sb = Ret c /\
    mask_matches (mask_parse (s2l "1xxx")) c = Ret true /\ mask_matches (mask_parse (s2l "1xxx")) [0; 1; 2; 3] = Ret true /\
    pn_block_to_block_from_rounds tt (concat [plain; plain; plain]) = Ret b /\
    block_rows b = Ret rows /\ block_len b = 24 /\ length (nodup (list_eq_dec Nat.eq_dec) (firstn 24 rows)) = 24 /\
    fact (length (mask_unspecified_places (mask_parse (s2l "1xxx")))) = 6.
Proof. do 8 eexists. splits; vm_compute; reflexivity. Qed.
