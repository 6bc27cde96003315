(** Property theorems C94: the safety conditions of the unsafe functions. *)

(* Generated from tools/props/Unsafe.src: the proofs behind PropsUnsafe.v. *)
From Coq Require Import Sorting.Sorted.
From Verif Require Import Base Bell Stage Row Utils SameStageVec Block PlaceNot Mask Music Class Method Program Unsafe
  Spec SpecVec SpecPn SpecMask SpecProg SpecUnsafe ListFacts BellFacts RowFacts MulFacts GroupFacts SsvFacts BlockFacts PnFacts MusicThms SafeFacts SafeFacts2 UnsafeFacts.
Local Open Scope list_scope.

Lemma pf_C94_contracts_suffice :
  forall ho prog, keeps_contracts ho [] prog ->
    urun ho prog <> Ub /\ forall st r, urun ho prog = Ret st -> In (VRow r) st -> valid_row r.
Proof.
  intros ho prog C. pose proof (urun_safe ho prog [] (Forall_nil _) C) as X. unfold urun.
  destruct (urun_from ho [] prog) as [st| | |]; cbn in X; split; try congruence; try contradiction.
  intros st' r E H. injection E as <-. rewrite Forall_forall in X. exact (X _ H).
Qed.

Lemma pf_C94_same_as_checked :
  forall ho prog, keeps_contracts ho [] prog -> urun ho prog = urun ho (map checked prog).
Proof. intros ho prog C. apply urun_checked; auto. Qed.

Lemma pf_C94_get_bell :
  forall r place,
    (forall b, get_bell_unchecked r place = Ret b <-> nth_error r place = Some b) /\
    (get_bell_unchecked r place = Ub <-> length r <= place).
Proof.
  intros r place. unfold get_bell_unchecked, idx_unchecked. rewrite <- nth_error_None.
  destruct (nth_error r place); split; try split; congruence.
Qed.

Lemma pf_C94_rows_of_bells :
  forall rows n, 0 < n -> Forall (fun r => valid_row r /\ length r = n) rows ->
    holds (from_bell_vec_unchecked (concat rows) n) n rows.
Proof. intros rows n Hn F. apply holds_rep. split; auto. Qed.

Lemma pf_C94_sorted_slice :
  forall w s, 0 < s -> (forall i j p q, i < j -> nth_error w i = Some p -> nth_error w j = Some q -> p <= q) ->
    exists res, from_sorted_slice w s = Ret res /\
      (unambiguous s w <-> exists pn, res = Ok pn) /\
      forall pn, res = Ok pn -> pn_stage pn = s /\ legal pn /\ forall p, In p (pn_places pn) <-> place_made s w p.
Proof.
  intros w s Hs H. apply sorted_slice in H. destruct (fss_slice w s Hs H) as [(pn & E & S1 & L & P & U)|(e & E & X)].
  - exists (Ok pn). split; auto. split; [split; eauto|]. intros pn' Ep. injection Ep as <-. split; auto. split; auto.
    split; [lia|]. rewrite S1. exact L.
  - exists (Err e). split; auto. split; [|discriminate]. split; [|intros [? ?]; discriminate].
    intros U. exfalso. eapply slice_err_unambiguous; eauto.
Qed.

Lemma pf_C94_regexes :
  forall es, normal_form es -> regex_from_vec es = Ret (regex_from_vec_unchecked es).
Proof. intros es N. apply pf_C52_idempotent. exact N. Qed.
