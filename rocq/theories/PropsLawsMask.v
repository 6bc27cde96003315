(** Property theorem C97: laws of masks, which relate several functions of the API. *)

(* Generated from tools/props/LawsMask.src; the proofs are in LawsMaskThms.v. *)
From Verif Require Import Base Bell Stage Row Block Music Mask Spec SpecMask ListFacts BellFacts RowFacts MulFacts BlockFacts
  SsvFacts MaskFacts MaskFacts2 MaskLawFacts.
From Verif Require Import MaskThms.
Local Open Scope list_scope.
From Verif Require Import LawsMaskThms.

(** C97: [is_subset_of] is a partial order on the masks with places. *)
Theorem C97_subset_is_an_order :
  forall a b c, a <> [] -> b <> [] -> c <> [] ->
    mask_is_subset_of a a = Ret true /\
    (mask_is_subset_of a b = Ret true -> mask_is_subset_of b c = Ret true -> mask_is_subset_of a c = Ret true) /\
    (mask_is_subset_of a b = Ret true -> mask_is_subset_of b a = Ret true -> a = b) /\
    mask_is_subset_of a (mask_empty (length a)) = Ret true.
Proof. exact pf_C97_subset_is_an_order. Qed.
Print Assumptions C97_subset_is_an_order.

(** C97: it does not matter in which order masks are combined, nor how often, and the empty mask adds
    nothing. *)
Theorem C97_combine_is_a_meet_semilattice :
  forall a b c, a <> [] -> b <> [] -> c <> [] -> each_bell_once a -> each_bell_once b -> each_bell_once c ->
    mask_is_compatible_with a b = mask_is_compatible_with b a /\
    mask_combine a b = mask_combine b a /\
    mask_combine a a = Ret (Some a) /\
    mask_combine a (mask_empty (length a)) = Ret (Some a) /\
    (o <- mask_combine a b;; match o with Some ab => mask_combine ab c | None => Ret None end) =
    (o <- mask_combine b c;; match o with Some bc => mask_combine a bc | None => Ret None end).
Proof. exact pf_C97_combine_is_a_meet_semilattice. Qed.
Print Assumptions C97_combine_is_a_meet_semilattice.

(** C97: the combined mask is the largest mask which is a subset of both, and there is one as soon as
    some mask is a subset of both; in particular combining with a larger mask changes nothing. *)
Theorem C97_combine_and_subset :
  forall a b, a <> [] -> b <> [] -> each_bell_once a -> each_bell_once b ->
    (forall c d, mask_combine a b = Ret (Some c) -> d <> [] ->
       mask_is_subset_of c a = Ret true /\ mask_is_subset_of c b = Ret true /\
       (mask_is_subset_of d c = Ret true <-> mask_is_subset_of d a = Ret true /\ mask_is_subset_of d b = Ret true)) /\
    (forall d, d <> [] -> each_bell_once d -> mask_is_subset_of d a = Ret true -> mask_is_subset_of d b = Ret true ->
       exists c, mask_combine a b = Ret (Some c)) /\
    (mask_combine a b = Ret (Some a) <-> mask_is_subset_of a b = Ret true).
Proof. exact pf_C97_combine_and_subset. Qed.
Print Assumptions C97_combine_and_subset.

(** C97: a mask matches a row exactly when the full mask of the row is a subset of it, when the two masks
    are compatible, and when combining them gives the full mask. *)
Theorem C97_matches_and_full_rows :
  forall m r, valid_row r -> m <> [] ->
    mask_matches m r = mask_is_subset_of (mask_full_row r) m /\
    mask_matches m r = mask_is_compatible_with (mask_full_row r) m /\
    (mask_matches m r = Ret true -> mask_combine (mask_full_row r) m = Ret (Some (mask_full_row r))) /\
    (mask_matches m r = Ret false -> mask_combine (mask_full_row r) m = Ret None).
Proof. exact pf_C97_matches_and_full_rows. Qed.
Print Assumptions C97_matches_and_full_rows.

(** C97: rows act on masks from both sides: multiplying by one row and then by another is multiplying by
    their product, and what is done on one side does not disturb the other.  This includes the masks which
    make the product panic. *)
Theorem C97_products_are_actions :
  forall m r s t, valid_row r -> valid_row s -> length m = length r -> length s = length r -> composition r s t ->
    (m1 <- mask_mul_row m r;; mask_mul_row m1 s) = mask_mul_row m t /\
    (m1 <- row_mul_mask s m;; row_mul_mask r m1) = row_mul_mask t m /\
    (m1 <- row_mul_mask r m;; mask_mul_row m1 s) = (m1 <- mask_mul_row m s;; row_mul_mask r m1).
Proof. exact pf_C97_products_are_actions. Qed.
Print Assumptions C97_products_are_actions.

(** C97: rounds acts trivially, a product is undone by the inverse row (every row has one, C09), and the
    product of full masks and rows is the full mask of the product. *)
Theorem C97_products_with_rows :
  forall m r s t, valid_row r -> valid_row s -> length m = length r -> length s = length r -> composition r s t ->
    mask_mul_row m (seq 0 (length m)) = Ret m /\
    ((forall p b, specifies m p b -> b < length m) -> row_mul_mask (seq 0 (length m)) m = Ret m) /\
    (t = seq 0 (length r) -> (m1 <- mask_mul_row m r;; mask_mul_row m1 s) = Ret m) /\
    (t = seq 0 (length r) -> (forall p b, specifies m p b -> b < length m) -> (m1 <- row_mul_mask s m;; row_mul_mask r m1) = Ret m) /\
    mask_mul_row (mask_full_row r) s = Ret (mask_full_row t) /\
    row_mul_mask r (mask_full_row s) = Ret (mask_full_row t) /\
    mask_as_row (mask_full_row t) = Ret (Some t).
Proof. exact pf_C97_products_with_rows. Qed.
Print Assumptions C97_products_with_rows.

(** C97: multiplying two masks by the same row changes nothing about how they relate, and combining
    commutes with the products. *)
Theorem C97_products_keep_the_order :
  forall a b r, valid_row r -> well_formed_mask a -> well_formed_mask b -> length a = length r -> length b = length r ->
    exists a1 b1 a2 b2,
      mask_mul_row a r = Ret a1 /\ mask_mul_row b r = Ret b1 /\ row_mul_mask r a = Ret a2 /\ row_mul_mask r b = Ret b2 /\
      mask_is_subset_of a1 b1 = mask_is_subset_of a b /\ mask_is_subset_of a2 b2 = mask_is_subset_of a b /\
      mask_is_compatible_with a1 b1 = mask_is_compatible_with a b /\ mask_is_compatible_with a2 b2 = mask_is_compatible_with a b /\
      mask_combine a1 b1 = (o <- mask_combine a b;; match o with Some c => c1 <- mask_mul_row c r;; Ret (Some c1) | None => Ret None end) /\
      mask_combine a2 b2 = (o <- mask_combine a b;; match o with Some c => c2 <- row_mul_mask r c;; Ret (Some c2) | None => Ret None end).
Proof. exact pf_C97_products_keep_the_order. Qed.
Print Assumptions C97_products_keep_the_order.

(** C97: fixing some bells and then others is combining the two masks; the order and repetitions of the
    bells do not matter; fixing no bells gives the empty mask, and fixing all gives the full mask of rounds. *)
Theorem C97_fix_bells :
  forall s bs cs, 0 < s -> Forall (fun b => b < s) bs -> Forall (fun b => b < s) cs ->
    (exists b c d, mask_fix_bells s bs = Ret b /\ mask_fix_bells s cs = Ret c /\ mask_fix_bells s (bs ++ cs) = Ret d /\
       mask_combine b c = Ret (Some d)) /\
    ((forall x, In x bs <-> In x cs) -> mask_fix_bells s bs = mask_fix_bells s cs) /\
    mask_fix_bells s [] = Ret (mask_empty s) /\
    ((forall x, x < s -> In x bs) -> mask_fix_bells s bs = Ret (mask_full_row (seq 0 s))).
Proof. exact pf_C97_fix_bells. Qed.
Print Assumptions C97_fix_bells.

Example C97_witness :
  well_formed_mask (mask_parse (s2l "1xxx56")) /\ well_formed_mask (mask_parse (s2l "1x3xxx")) /\
  valid_row [5; 0; 4; 1; 3; 2] /\ composition [1; 3; 5; 4; 2; 0] [5; 0; 4; 1; 3; 2] [0; 1; 2; 3; 4; 5] /\
  mask_combine (mask_parse (s2l "1xxx56")) (mask_parse (s2l "1x3xxx")) = Ret (Some (mask_parse (s2l "1x3x56"))) /\
  mask_mul_row (mask_parse (s2l "1x3x56")) [5; 0; 4; 1; 3; 2] = Ret (mask_parse (s2l "615xx3")) /\
  row_mul_mask [5; 0; 4; 1; 3; 2] (mask_parse (s2l "1x3x56")) = Ret (mask_parse (s2l "6x5x43")) /\
  mask_fix_bells 6 [2; 0] = Ret (mask_parse (s2l "1x3xxx")).
Proof.
  assert (G : forall m r, m = mask_parse (s2l "1xxx56") \/ m = mask_parse (s2l "1x3xxx") -> r = [0; 1; 2; 3; 4; 5] -> well_formed_mask m).
  { intros m r H ->. apply (fits_wf _ [0; 1; 2; 3; 4; 5]); [vr|]. destruct H as [-> | ->]; (split; [reflexivity|]);
      intros p b; do 6 (destruct p as [|p]; [cbn; unfold specifies; cbn; congruence|]); destruct p; discriminate. }
  splits; try (vm_compute; reflexivity); [eapply G; eauto|eapply G; eauto|vr|].
  split; [reflexivity|]. intros i x. do 6 (destruct i as [|i]; [cbn; intros [= <-]; cbn; eauto|]). destruct i; discriminate.
Qed.
