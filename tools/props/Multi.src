(** Property theorems C156: what is counted in extents and in blocks which ring every row equally often. *)
(*IMPORTS*)
From Coq Require Import Permutation Factorial.
From Verif Require Import Base Bell Stage Row Utils SameStageVec Block PlaceNot Mask Spec SpecVec SpecBlock SpecClass SpecMask ListFacts
  BellFacts RowFacts MulFacts GroupFacts SsvFacts BlockFacts MaskFacts MaskFacts2 ClassFacts CourseExtentFacts MultiFacts.
From Verif Require Import BlockThms ExtentThms.
Local Open Scope list_scope.
(*BODY*)

(** C156: if a block rings every row of its stage [k] times, every bell is in each place [k] times as often as there are orders of the other bells. *)
Theorem C156_bells_in_places :
  forall A (b : block A) s ars lo k bell path e p, block_holds b s ars lo ->
    (forall r, valid_row r -> length r = s -> count_occ (list_eq_dec Nat.eq_dec) (map fst ars) r = k) ->
    block_path_of b bell = Ret (Some (path, e)) -> p < s ->
    block_len b = k * fact s /\ visits path p = k * fact (s - 1).
Proof.
  intros A b s ars lo k bell path e p H K E Hp. pose proof (holds_brep _ _ _ _ H) as B. pose proof (brep_vrows _ _ _ _ B) as [Va _].
  assert (Hb : bell < s).
  { destruct (Nat.lt_ge_cases bell s) as [|G]; auto. destruct (proj2 (pf_C26_block_paths _ _ s ars lo bell H) G) as [X _]. congruence. }
  destruct (proj1 (pf_C26_block_paths _ _ s ars lo bell H) Hb) as (p' & l & E1 & _ & F & _). rewrite E in E1. injection E1 as <- <-. split.
  - rewrite (brep_len _ _ _ _ B), <- (map_length fst).
    assert (S0 : 0 < s) by lia. rewrite <- (often s k (map fst ars) (fun _ => true) (fact s) Va K S0).
    + f_equal. symmetry. clear. induction (map fst ars); cbn; auto. f_equal. auto.
    + destruct (there_are_rows s ltac:(lia)) as (l0 & L1 & L2 & L3). exists l0. split; auto. split; auto. intros r. rewrite L3. tauto.
  - assert (path = map (fun r => place_in r bell) (map fst ars)) as ->.
    { clear - F Va. induction F as [|r i rows path R F IH]; auto. inversion Va as [|? ? [Vr _] Va']; subst. cbn [map]. f_equal; auto.
      symmetry. apply place_in_unique; auto. apply R. auto. }
    rewrite visits_filter. assert (S0 : 0 < s) by lia. apply (often s k _ _ _ Va K S0). destruct (there_are_rows_with s bell p Hb Hp) as (l0 & L1 & L2 & L3). exists l0. split; auto. split; auto.
    intros r. rewrite L3, Nat.eqb_eq. tauto.
Qed.

(** C156: and as many of its rows match a mask of the stage, which specifies bells of the stage, each at most once, as [k] times the number of orders of the bells left open. *)
Theorem C156_rows_which_match_a_mask :
  forall A (b : block A) s ars lo k m, block_holds b s ars lo ->
    (forall r, valid_row r -> length r = s -> count_occ (list_eq_dec Nat.eq_dec) (map fst ars) r = k) ->
    length m = s -> each_bell_once m -> (forall p x, specifies m p x -> x < s) ->
    length (filter (fun r => match mask_matches m r with Ret v => v | _ => false end) (map fst ars)) = k * fact (length (mask_unspecified_places m)).
Proof.
  intros A b s ars lo k m H K Lm On Sp. pose proof (holds_brep _ _ _ _ H) as B. pose proof (brep_vrows _ _ _ _ B) as [Va Vl].
  assert (Nm : m <> []) by (intros ->; cbn in Lm; pose proof (valid_row_pos _ (proj1 Vl)); rewrite (proj2 Vl) in *; lia).
  assert (S0 : 0 < s) by (rewrite <- (proj2 Vl); apply valid_row_pos, Vl). apply (often s k _ _ _ Va K S0). destruct (proj1 (pf_C104_rows_which_a_mask_matches m Nm) On) as (l0 & L1 & L2 & L3); [rewrite Lm; auto|].
  exists l0. split; auto. split; auto. intros r. rewrite L3. split.
  - intros [V M]. rewrite M. split; auto. destruct (mask_matches_ok m r Nm V) as (v & E & X). rewrite E in M. injection M as ->.
    destruct (proj1 X eq_refl) as [Y _]. split; [congruence|auto].
  - intros (V & _ & M). split; auto. destruct (mask_matches m r) as [[]| | |]; try discriminate. auto.
Qed.

(** The extent on three bells rung twice. *)
Example C156_example :
  exists pns b path e rows, pn_block_parse (s2l "3.1.3.1.3.1.3.1.3.1.3.1") 3 = Ret (Ok pns) /\ pn_block_to_block_from_rounds tt pns = Ret b /\
    block_path_of b 1 = Ret (Some (path, e)) /\ map (visits path) [0; 1; 2] = [4; 4; 4] /\ 2 * fact (3 - 1) = 4 /\ block_len b = 12 /\
    block_rows b = Ret rows /\
    map (count_occ (list_eq_dec Nat.eq_dec) (firstn 12 rows)) [[0; 1; 2]; [0; 2; 1]; [1; 0; 2]; [1; 2; 0]; [2; 0; 1]; [2; 1; 0]] = repeat 2 6 /\
    length (filter (fun r => match mask_matches (mask_parse (s2l "x2x")) r with Ret v => v | _ => false end) (firstn 12 rows)) = 4.
Proof. do 5 eexists. splits; vm_compute; reflexivity. Qed.
