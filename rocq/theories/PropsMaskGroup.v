(** Property theorems C129: when the rows which a mask matches are a group, and what they are otherwise. *)

(* Generated from tools/props/MaskGroup.src; the proofs are in MaskGroupThms.v. *)
From Verif Require Import Base Bell Stage Row Music Mask Spec SpecMask ListFacts BellFacts RowFacts MulFacts GroupFacts GroupFacts2 MaskFacts
  MaskFacts2 MusicFacts MusicFacts2 MusicFacts3 SsvFacts.
From Verif Require Import GroupThms MaskThms.
Local Open Scope list_scope.
From Verif Require Import MaskGroupThms.

(** C129: the rows which a mask matches are a group exactly when it asks for bells at home only, as one made by [fix_bells]. *)
Theorem C129_when_they_are_a_group :
  forall m rows set, m <> [] -> (forall r, In r rows <-> valid_row r /\ mask_matches m r = Ret true) -> rows <> [] ->
    collected_set rows set ->
    exists ok, is_group_set set = Ret (Ok ok) /\ (ok = true <-> forall p b, specifies m p b -> p = b).
Proof. exact pf_C129_when_they_are_a_group. Qed.
Print Assumptions C129_when_they_are_a_group.

(** C129: in general they are what the rows of such a group give when multiplied with any one of them: on the left by the group
    of the rows which fix the bells asked for, on the right by that of the rows which fix the places. *)
Theorem C129_otherwise_a_coset :
  forall m r0 places bells, m <> [] -> valid_row r0 -> mask_matches m r0 = Ret true ->
    (forall p, In p places <-> exists b, specifies m p b) -> (forall b, In b bells <-> exists p, specifies m p b) ->
    exists fp fb, mask_fix_bells (length m) places = Ret fp /\ mask_fix_bells (length m) bells = Ret fb /\
      (forall r, valid_row r -> length r = length m ->
         (mask_matches m r = Ret true <-> exists h, valid_row h /\ mask_matches fp h = Ret true /\ row_mul r0 h = Ret r) /\
         (mask_matches m r = Ret true <-> exists h, valid_row h /\ mask_matches fb h = Ret true /\ row_mul h r0 = Ret r)).
Proof. exact pf_C129_otherwise_a_coset. Qed.
Print Assumptions C129_otherwise_a_coset.

(** The mask [1xx] matches two rows, which are a group; [x1x] matches two which are not; [11x] matches none. *)
Example C129_example :
  well_formed_mask [Some 0; None; None] /\ mask_unspecified_places [Some 0; None; None] = [1; 2] /\
  mask_matches [Some 0; None; None] [0; 2; 1] = Ret true /\ collected_set [[0; 1; 2]; [0; 2; 1]] [[0; 1; 2]; [0; 2; 1]] /\
  is_group_set [[0; 1; 2]; [0; 2; 1]] = Ret (Ok true) /\ is_group_set [[1; 0; 2]; [2; 0; 1]] = Ret (Ok false) /\
  mask_matches [None; Some 0; None] [1; 0; 2] = Ret true /\ mask_matches [Some 0; Some 0; None] [0; 1; 2] = Ret false /\
  mask_fix_bells 3 [1] = Ret [None; Some 1; None] /\ mask_matches [None; Some 1; None] [2; 1; 0] = Ret true /\
  row_mul [1; 0; 2] [2; 1; 0] = Ret [2; 0; 1] /\ mask_matches [None; Some 0; None] [2; 0; 1] = Ret true /\
  ~ well_formed_mask [Some 0; Some 0; None].
Proof.
  splits; try (vm_compute; reflexivity).
  - unfold well_formed_mask. splits; [discriminate| |].
    + apply NoDup_once. cbn. constructor; [cbn; tauto|constructor].
    + intros [|[|[|[|p]]]] b; unfold specifies; cbn; intros A; try discriminate. injection A as <-; lia.
  - split; [|tauto]. constructor; [cbn; intuition discriminate|]. constructor; [cbn; tauto|constructor].
  - intros (_ & H & _). specialize (H 0 1 0 eq_refl eq_refl). discriminate.
Qed.
