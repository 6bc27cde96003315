(** Property theorems C141: touches of Plain Bob. *)

(* Generated from tools/props/CalledBob.src; the proofs are in CalledBobThms.v. *)
From Verif Require Import Base Spec ListFacts Bell Stage Row RowFacts MulFacts GroupFacts
  Utils SameStageVec SpecVec SsvFacts Block SpecBlock BlockFacts PlaceNot SpecPn PnFacts PnFacts2 PnFacts3 LawFacts
  Class SpecClass Method SpecMethod MethodFacts SymFacts3 ShapeFacts BellPathFacts SpecHunt HuntFacts BobFacts AffectFacts CalledBobFacts.
From Verif Require Import PnThms.
Local Open Scope list_scope.
From Verif Require Import CalledBobThms.

(** C141: a touch of Plain Bob, with any changes made at the lead ends which leave the treble in front, has a repeated row only if it has one with
    the treble in front; these are the first and the last row of every lead. *)
Theorem C141_true_touches :
  forall A (d : A) n calls b ars lo, 3 <= n -> calls <> [] ->
    Forall (fun c => legal c /\ pn_stage c = n /\ In 0 (pn_places c)) calls ->
    pn_block_to_block_from_rounds d (concat (map (fun c => removelast (plain_bob n) ++ [c]) calls)) = Ret b -> block_holds b n ars lo ->
    length ars = length calls * (2 * n) /\
    (forall i r, nth_error (map fst ars) i = Some r -> (nth_error r 0 = Some 0 <-> i mod (2 * n) = 0 \/ i mod (2 * n) = 2 * n - 1)) /\
    (NoDup (map fst ars) <->
     forall i j r, nth_error (map fst ars) i = Some r -> nth_error (map fst ars) j = Some r -> nth_error r 0 = Some 0 -> i = j).
Proof. exact pf_C141_true_touches. Qed.
Print Assumptions C141_true_touches.

(** C141: with a bob (14) at every lead end, Plain Bob comes round after [n - 3] leads; no row is repeated, and the three bells in front are back in
    their places at every lead head (and no other bell is, but on four bells). *)
Theorem C141_bobs :
  forall n m bob, 4 <= n -> pn_parse (s2l "14") n = Ret (Ok bob) ->
    pn_block_to_block_from_rounds None (removelast (plain_bob n) ++ [bob]) = Ret (first_lead m) ->
    exists head pc pars, lead_head m = Ret head /\ (forall b, b < n -> (hunt_bell head b <-> b < 3 \/ n = 4)) /\
      (forall fuel, n - 3 <= fuel -> plain_course fuel m = Ret pc) /\ block_holds pc n pars (seq 0 n) /\
      length pars = (n - 3) * (2 * n) /\ NoDup (map fst pars).
Proof. exact pf_C141_bobs. Qed.
Print Assumptions C141_bobs.

(** C141: with a single (1234) at every lead end it comes round after the least number of leads which is divisible by two and by [n - 3]; no row is
    repeated exactly when there are at least six bells. *)
Theorem C141_singles :
  forall n m single, 4 <= n -> pn_parse (s2l "1234") n = Ret (Ok single) ->
    pn_block_to_block_from_rounds None (removelast (plain_bob n) ++ [single]) = Ret (first_lead m) ->
    exists pc pars, (forall fuel, Nat.lcm 2 (n - 3) <= fuel -> plain_course fuel m = Ret pc) /\ block_holds pc n pars (seq 0 n) /\
      length pars = Nat.lcm 2 (n - 3) * (2 * n) /\ (NoDup (map fst pars) <-> 6 <= n).
Proof. exact pf_C141_singles. Qed.
Print Assumptions C141_singles.

(** Three bobs of Plain Bob Minor; six singles of it; a touch with three bobs and a plain lead, which repeats its first row after the bobs. *)
Example C141_example :
  exists bob single plain mb ms pb ps b rows, pn_parse (s2l "14") 6 = Ret (Ok bob) /\ pn_parse (s2l "1234") 6 = Ret (Ok single) /\ pn_parse (s2l "12") 6 = Ret (Ok plain) /\
    pn_block_to_block_from_rounds None (removelast (plain_bob 6) ++ [bob]) = Ret (first_lead mb) /\
    pn_block_to_block_from_rounds None (removelast (plain_bob 6) ++ [single]) = Ret (first_lead ms) /\
    lead_head mb = Ret [0; 1; 2; 4; 5; 3] /\ lead_head ms = Ret [0; 2; 1; 4; 5; 3] /\
    plain_course 9 mb = Ret pb /\ block_len pb = 36 /\ plain_course 9 ms = Ret ps /\ block_len ps = 72 /\
    pn_block_to_block_from_rounds tt (concat (map (fun c => removelast (plain_bob 6) ++ [c]) [bob; bob; bob; plain])) = Ret b /\ block_rows b = Ret rows /\
    nth_error rows 0 = Some [0; 1; 2; 3; 4; 5] /\ nth_error rows 36 = Some [0; 1; 2; 3; 4; 5].
Proof.
  do 3 eexists. eexists (Method [] [] (FullClass false false false Bob) _), (Method [] [] (FullClass false false false Bob) _). do 4 eexists.
  splits; vm_compute; reflexivity.
Qed.
