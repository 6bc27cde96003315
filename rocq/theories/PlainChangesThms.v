(** Property theorems C151: there is an extent on every stage. *)

(* Generated from tools/props/PlainChanges.src: the proofs behind PropsPlainChanges.v. *)
From Coq Require Import Permutation.
From Verif Require Import Base Bell Stage Row Utils SameStageVec Block PlaceNot Spec SpecVec SpecBlock SpecPn SpecClass ListFacts
  BellFacts RowFacts MulFacts GroupFacts SsvFacts BlockFacts PnFacts PnFacts2 PnFacts3 LawFacts BetweenFacts PlainChangesFacts.
From Verif Require Import PnThms LawsThms BetweenThms.
Local Open Scope list_scope.

Lemma pf_C151_extents_on_every_stage :
  forall start, valid_row start -> 2 <= length start ->
    exists pns v rows, length pns = fact (length start) /\ pn_block_from_vec pns = Ok pns /\
      pn_block_to_rows pns start = Ret (Ok v) /\ ssv_rows v = Ret (start :: rows) /\ last rows [] = start /\
      NoDup rows /\ (forall r, valid_row r -> length r = length start -> In r rows) /\
      forall i r r', nth_error (start :: rows) i = Some r -> nth_error (start :: rows) (i + 1) = Some r' ->
        exists p, row_swap r p (p + 1) = Ret r'.
Proof.
  intros a Va La. destruct (extent_from (length a) a La) as (rows & Lr & F & E & N & I & J); [split; auto|].
  assert (P : 0 < length rows) by (rewrite Lr; apply Nat.neq_0_lt_0, fact_neq_0).
  destruct (pf_C128_rows_without_jumps_are_rung (length a) a rows P F) as (pns & v & L1 & E1 & E2 & E3 & _).
  - intros i x y Ex Ey bell p q. apply (adj_no_jump x y); [|apply (J i); auto]. rewrite Forall_forall in F. apply (F x (nth_error_In _ _ Ex)).
  - exists pns, v, rows. splits; auto; [congruence| |].
    + intros r Vr L. apply I. split; auto.
    + intros i r r' Er Er'. apply adj_swap. apply (J i); auto.
Qed.
