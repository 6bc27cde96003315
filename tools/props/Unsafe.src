(** Property theorems C94: the safety conditions of the unsafe functions. *)
(*IMPORTS*)
From Coq Require Import Sorting.Sorted.
From Verif Require Import Base Bell Stage Row Utils SameStageVec Block PlaceNot Mask Music Class Method Program Unsafe
  Spec SpecVec SpecPn SpecMask SpecProg SpecUnsafe ListFacts BellFacts RowFacts MulFacts GroupFacts SsvFacts BlockFacts PnFacts MusicThms SafeFacts SafeFacts2 UnsafeFacts.
Local Open Scope list_scope.
(*BODY*)
(** C94: a program may also call the unsafe functions, in any order with the safe ones.  If each call
    keeps the safety condition in its documentation, then the program makes no out-of-bounds
    unchecked access, and every row it has is valid. *)
Theorem C94_contracts_suffice :
  forall ho prog, keeps_contracts ho [] prog ->
    urun ho prog <> Ub /\ forall st r, urun ho prog = Ret st -> In (VRow r) st -> valid_row r.
Proof.
  intros ho prog C. pose proof (urun_safe ho prog [] (Forall_nil _) C) as X. unfold urun.
  destruct (urun_from ho [] prog) as [st| | |]; cbn in X; split; try congruence; try contradiction.
  intros st' r E H. injection E as <-. rewrite Forall_forall in X. exact (X _ H).
Qed.

(** C94: such a program does exactly what it does with the checked functions in place of the unchecked ones:
    same values, same panics. *)
Theorem C94_same_as_checked :
  forall ho prog, keeps_contracts ho [] prog -> urun ho prog = urun ho (map checked prog).
Proof. intros ho prog C. apply urun_checked; auto. Qed.

(** C94, for the functions without a checked version.  [get_bell_unchecked] gives the bell at the place, and is
    undefined exactly beyond the stage. *)
Theorem C94_get_bell :
  forall r place,
    (forall b, get_bell_unchecked r place = Ret b <-> nth_error r place = Some b) /\
    (get_bell_unchecked r place = Ub <-> length r <= place).
Proof.
  intros r place. unfold get_bell_unchecked, idx_unchecked. rewrite <- nth_error_None.
  destruct (nth_error r place); split; try split; congruence.
Qed.

(** C94: [from_bell_vec_unchecked] of the bells of some rows, one after the other, holds those rows. *)
Theorem C94_rows_of_bells :
  forall rows n, 0 < n -> Forall (fun r => valid_row r /\ length r = n) rows ->
    holds (from_bell_vec_unchecked (concat rows) n) n rows.
Proof. intros rows n Hn F. apply holds_rep. split; auto. Qed.

(** C94: [from_sorted_slice] of sorted places never panics; it accepts exactly the places which can be read
    without ambiguity, and then the notation is legal and makes the written and the implied places. *)
Theorem C94_sorted_slice :
  forall w s, 0 < s -> (forall i j p q, i < j -> nth_error w i = Some p -> nth_error w j = Some q -> p <= q) ->
    exists res, from_sorted_slice w s = Ret res /\
      (unambiguous s w <-> exists pn, res = Ok pn) /\
      forall pn, res = Ok pn -> pn_stage pn = s /\ legal pn /\ forall p, In p (pn_places pn) <-> place_made s w p.
Proof.
  intros w s Hs H. apply sorted_slice in H. destruct (fss_slice w s Hs H) as [(pn & E & S1 & L & P & U)|(e & E & X)].
  - exists (Ok pn). split; auto. split; [split; eauto|]. intros pn' Ep. injection Ep as <-. split; auto. split; auto.
    split; [lia|]. rewrite S1. exact L.
  - exists (Err e). split; auto. split; [|discriminate]. split; [|intros [? ?]; discriminate].
    intros U. exfalso. eapply slice_err_unambiguous; eauto.
Qed.

(** C94: [from_vec_unchecked] and [from_elems_unchecked] of elements in normal form give the regex which
    [from_vec] gives. *)
Theorem C94_regexes :
  forall es, normal_form es -> regex_from_vec es = Ret (regex_from_vec_unchecked es).
Proof. intros es N. apply pf_C52_idempotent. exact N. Qed.

(** A program which uses each unsafe function within its contract, and what it makes. *)
Definition trusting_program : list ucall :=
  [FromVecUnchecked [1; 0; 3; 2]; Safe (Parse (s2l "1342")); MulUnchecked 0 1; GetBellUnchecked 0 3;
   TranpositionToUnchecked 0 1; MulIntoUnchecked 0 1 3; VecFromBellsUnchecked [0; 1; 2; 3; 1; 0; 3; 2] 4;
   MulIntoRowUnchecked 0 0 (InVec 4 1); PnFromSortedSlice [0; 3] 4; PermuteUnchecked 5 (InVecLast 4); PermuteNewUnchecked 5 0;
   PnBlockFromVecUnchecked [5; 5]; Safe (MaskEmpty 4); MaskFixUnchecked 8 2; MaskSetUnchecked 8 2 2].
Example C94_program_example :
  keeps_contracts (fun l => l) [] trusting_program /\
  urun (fun l => l) trusting_program =
    Ret [VRow [1; 0; 3; 2]; VRow [0; 2; 3; 1]; VRow [1; 3; 2; 0]; VRow [1; 3; 2; 0];
         VVec (Ssv [0; 1; 2; 3; 0; 2; 1; 3] 4); VPn (PlaceNot [0; 3] 4); VRow [1; 3; 0; 2];
         VPnBlock [PlaceNot [0; 3] 4; PlaceNot [0; 3] 4]; VMask [None; None; Some 2; None]].
Proof.
  split; [|vm_compute; reflexivity].
  repeat (split; [|let E := fresh in intros ? E; vm_compute in E; injection E as <-]); try exact I; unfold contract, row_at, stage_at.
  all: try (intros; repeat match goal with
    | H : exists _, _ |- _ => destruct H
    | H : _ /\ _ |- _ => destruct H
    | H : nth_error _ (S _) = Some _ |- _ => cbn [nth_error] in H
    | H : nth_error (_ :: _) 0 = Some _ |- _ => cbn [nth_error] in H
    | H : Some (_ _) = Some (_ _) |- _ => injection H as <-
    end; subst; cbn; lia).
  - vr.
  - exists [[0; 1; 2; 3]; [1; 0; 3; 2]]. split; [|reflexivity]. repeat (apply Forall_cons; [split; [vr|reflexivity]|]). constructor.
  - intros [|[|i]] [|[|j]] p q L; cbn; intros; try lia; try congruence;
      repeat match goal with H : nth_error [] ?n = _ |- _ => destruct n; discriminate end;
      injection H as <-; injection H0 as <-; lia.
  - split; [discriminate|]. intros p q. vm_compute. intuition (subst; reflexivity).
  - intros x p E. injection E as <-. destruct p as [|[|[|[|p]]]]; cbn; try discriminate. destruct p; discriminate.
  - intros x p E. injection E as <-. destruct p as [|[|[|[|p]]]]; cbn; try discriminate; [reflexivity|]. destruct p; discriminate.
Qed.

(** The contracts are needed.  Bells which are no row make a later call of a safe function read out
    of bounds; the product of rows of different stages is no row (the example in borrowed.rs 300-309); places which are
    not sorted make the call panic in a build with overflow checks.  The words "each Bell is
    unique, and has index smaller than the number of items" (owned.rs 276-278) also admit no bells at all, of which
    [from_vec] says that they are no row, and whose stage panics. *)
Example C94_contracts_are_needed :
  urun (fun l => l) [FromVecUnchecked [1; 8]; Safe (VecFromRow 0); Safe (Parse (s2l "21")); Safe (VecPreMultiply 1 2)] = Ub /\
  (urun (fun l => l) [Safe (Parse (s2l "13475628")); Safe (Parse (s2l "4321")); MulUnchecked 0 1] =
     Ret [VRow [0; 2; 3; 6; 4; 5; 1; 7]; VRow [3; 2; 1; 0]; VRow [6; 3; 2; 0]] /\ ~ valid_row [6; 3; 2; 0]) /\
  from_sorted_slice [8; 0] 4 = Panic /\
  (from_vec [] = Err NoBells /\ row_stage [] = Panic).
Proof.
  splits; try reflexivity.
  intros (_ & _ & H). pose proof (proj1 (H 6) (or_introl eq_refl)) as X. cbn in X. lia.
Qed.
