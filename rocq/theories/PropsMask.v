(** Property theorems C46 to C51 (masks). *)

(* Generated from tools/props/Mask.src; the proofs are in MaskThms.v. *)
From Verif Require Import Base Bell Stage Row Block Music Mask Spec SpecMask ListFacts BellFacts RowFacts MulFacts BlockFacts
  SsvFacts MaskFacts MaskFacts2 MaskFacts3 MusicFacts MusicFacts2.
Local Open Scope list_scope.
From Verif Require Import MaskThms.

(** C46: a mask matches a row exactly when the stages agree and every specified place holds the
    specified bell. *)
Theorem C46_matches :
  forall m r, m <> [] -> valid_row r -> exists v, mask_matches m r = Ret v /\ (v = true <-> fits m r).
Proof. exact pf_C46_matches. Qed.
Print Assumptions C46_matches.

(** C46: mask * row: place [p] of the product asks for what the mask asked for at the place numbered
    by the row's [p]-th bell. *)
Theorem C46_mask_times_row_places :
  forall m r, valid_row r -> length m = length r ->
    exists m', mask_mul_row m r = Ret m' /\ length m' = length m /\
      forall p b, specifies m' p b <-> exists q, nth_error r p = Some q /\ specifies m q b.
Proof. exact pf_C46_mask_times_row_places. Qed.
Print Assumptions C46_mask_times_row_places.

(** C46: [s] matches [m] exactly when [s * r] matches [m * r]. *)
Theorem C46_mask_times_row :
  forall m r s t, valid_row r -> valid_row s -> length m = length r -> length s = length r -> composition s r t ->
    exists m', mask_mul_row m r = Ret m' /\ (fits m' t <-> fits m s).
Proof. exact pf_C46_mask_times_row. Qed.
Print Assumptions C46_mask_times_row.

(** C46: [s] matches [m] exactly when [r * s] matches [r * m] (for masks of bells of the stage). *)
Theorem C46_row_times_mask :
  forall m r s t, valid_row r -> valid_row s -> length m = length r -> length s = length r ->
    (forall p b, specifies m p b -> b < length r) -> composition r s t ->
    exists m', row_mul_mask r m = Ret m' /\ (fits m' t <-> fits m s).
Proof. exact pf_C46_row_times_mask. Qed.
Print Assumptions C46_row_times_mask.

(** C46: the products are well-formed masks when the mask is. *)
Theorem C46_products_well_formed :
  forall m r, valid_row r -> well_formed_mask m -> length m = length r ->
    (exists m', mask_mul_row m r = Ret m' /\ well_formed_mask m' /\ length m' = length m) /\
    (exists m', row_mul_mask r m = Ret m' /\ well_formed_mask m' /\ length m' = length m).
Proof. exact pf_C46_products_well_formed. Qed.
Print Assumptions C46_products_well_formed.

(** C46: multiplying a mask and a row of different stages panics, and so does row * mask when the mask
    asks for a bell outside the stage. *)
Theorem C46_products_panic :
  forall m r, valid_row r -> m <> [] ->
    (length m <> length r -> mask_mul_row m r = Panic /\ row_mul_mask r m = Panic) /\
    (forall p b, length m = length r -> specifies m p b -> length r <= b -> row_mul_mask r m = Panic).
Proof. exact pf_C46_products_panic. Qed.
Print Assumptions C46_products_panic.

Example C46_witness :
  mask_matches (mask_parse (s2l "x1xx56")) [2; 0; 1; 3; 4; 5] = Ret true /\
  mask_matches (mask_parse (s2l "x1xx56")) [0; 1; 2; 3; 4; 5] = Ret false /\
  row_mul_mask [5; 6; 7; 0; 1; 2; 3; 4] (mask_parse (s2l "xxxx6578")) = Ret (mask_parse (s2l "xxxx3245")) /\
  mask_mul_row (mask_parse (s2l "xxxx6578")) [5; 6; 7; 0; 1; 2; 3; 4] = Ret (mask_parse (s2l "578xxxx6")) /\
  valid_row [5; 6; 7; 0; 1; 2; 3; 4] /\ well_formed_mask (mask_parse (s2l "xxxx6578")).
Proof.
  splits; try (vm_compute; reflexivity); [vr|].
  apply (fits_wf _ [0; 1; 2; 3; 5; 4; 6; 7]); [vr|]. split; [reflexivity|].
  intros p b. do 8 (destruct p as [|p]; [cbn; unfold specifies; cbn; congruence|]). destruct p; discriminate.
Qed.

(** C47: [is_compatible_with] holds exactly when some row matches both masks. *)
Theorem C47_compatible :
  forall a b, well_formed_mask a -> well_formed_mask b ->
    exists v, mask_is_compatible_with a b = Ret v /\ (v = true <-> exists r, valid_row r /\ fits a r /\ fits b r).
Proof. exact pf_C47_compatible. Qed.
Print Assumptions C47_compatible.

(** C47: [combine] succeeds exactly then, and the combined mask is well formed and matches exactly the
    rows matching both. *)
Theorem C47_combine :
  forall a b, well_formed_mask a -> well_formed_mask b ->
    exists o, mask_combine a b = Ret o /\
      ((exists c, o = Some c) <-> exists r, valid_row r /\ fits a r /\ fits b r) /\
      forall c, o = Some c -> well_formed_mask c /\ forall r, fits c r <-> fits a r /\ fits b r.
Proof. exact pf_C47_combine. Qed.
Print Assumptions C47_combine.

(** C47: on any masks with places, even if they ask for a bell several times, neither call panics and, as documented,
    [combine] succeeds exactly when [is_compatible_with] says yes.  The answer is yes exactly when the stages agree and,
    wherever [b] asks for a bell, [a] asks for no other one there and nowhere earlier for that one, nor later without
    asking for it there.  A combined mask asks for a bell exactly where one of the two does. *)
Theorem C47_combine_places :
  forall a b, a <> [] -> b <> [] ->
    exists v o, mask_is_compatible_with a b = Ret v /\ mask_combine a b = Ret o /\
      (v = true <-> exists c, o = Some c) /\
      (v = true <-> length a = length b /\ forall p x, specifies b p x ->
         (forall y, specifies a p y -> y = x) /\ (forall q, specifies a q x -> specifies a p x /\ p <= q)) /\
      forall c, o = Some c -> length c = length a /\ forall p x, specifies c p x <-> specifies a p x \/ specifies b p x.
Proof. exact pf_C47_combine_places. Qed.
Print Assumptions C47_combine_places.

Example C47_witness :
  mask_combine (mask_parse (s2l "1xxx56")) (mask_parse (s2l "1x3xxx")) = Ret (Some (mask_parse (s2l "1x3x56"))) /\
  mask_is_compatible_with (mask_parse (s2l "1xxx")) (mask_parse (s2l "x1xx")) = Ret false /\
  mask_is_compatible_with (mask_parse (s2l "1xxx")) (mask_parse (s2l "2xxx")) = Ret false /\
  mask_combine (mask_parse (s2l "1xxx")) (mask_parse (s2l "xx1x")) = Ret None /\
  mask_combine (mask_parse (s2l "x11")) (mask_parse (s2l "x1x")) = Ret (Some (mask_parse (s2l "x11"))) /\
  mask_is_compatible_with (mask_parse (s2l "11")) (mask_parse (s2l "11")) = Ret false /\
  well_formed_mask (mask_parse (s2l "1xxx56")) /\ well_formed_mask (mask_parse (s2l "1x3xxx")).
Proof.
  assert (F : fits (mask_parse (s2l "1x3x56")) [0; 1; 2; 3; 4; 5]).
  { split; [reflexivity|]. intros p b. do 6 (destruct p as [|p]; [cbn; unfold specifies; cbn; congruence|]). destruct p; discriminate. }
  splits; try (vm_compute; reflexivity); apply (fits_wf _ [0; 1; 2; 3; 4; 5]); try vr;
    (split; [reflexivity|]; intros p b; do 6 (destruct p as [|p]; [cbn; unfold specifies; cbn; congruence|]); destruct p; discriminate).
Qed.

(** C48 (missing: the converse when exactly one place of [a] is open and [b] specifies it; it is false
    there, see [C48_subset_refuted]). *)
Theorem C48_subset_partial :
  forall a b, well_formed_mask a -> b <> [] ->
    exists v, mask_is_subset_of a b = Ret v /\
      (v = true -> forall r, fits a r -> fits b r) /\
      ((forall p q, leaves_open a p -> (forall q', leaves_open a q' -> q' = p) -> specifies b p q -> False) ->
       (forall r, valid_row r -> fits a r -> fits b r) -> v = true).
Proof. exact pf_C48_subset_partial. Qed.
Print Assumptions C48_subset_partial.

(** C48 is false: for every mask with exactly one open place there is a mask which matches all the rows
    it matches, and yet [is_subset_of] says no. *)
Theorem C48_subset_refuted :
  forall a, well_formed_mask a -> length (mask_unspecified_places a) = 1 ->
    exists b, well_formed_mask b /\ (forall r, valid_row r -> fits a r -> fits b r) /\ mask_is_subset_of a b = Ret false.
Proof. exact pf_C48_subset_refuted. Qed.
Print Assumptions C48_subset_refuted.

(** C48: what is answered for any two masks with places, whatever they specify: [true] exactly when the
    stages agree and [a] specifies every bell which [b] specifies, in the same place. *)
Theorem C48_what_is_answered :
  forall a b, a <> [] -> b <> [] -> exists v, mask_is_subset_of a b = Ret v /\
    (v = true <-> length a = length b /\ forall p x, specifies b p x -> specifies a p x).
Proof. exact pf_C48_what_is_answered. Qed.
Print Assumptions C48_what_is_answered.

Example C48_witness :
  mask_is_subset_of (mask_parse (s2l "1234xx")) (mask_parse (s2l "1xx4xx")) = Ret true /\
  mask_is_subset_of (mask_parse (s2l "1xx4xx")) (mask_parse (s2l "1234xx")) = Ret false /\
  mask_is_subset_of (mask_parse (s2l "1xx4")) (mask_parse (s2l "1xxx4")) = Ret false /\
  mask_is_subset_of (mask_parse (s2l "12x")) (mask_parse (s2l "123")) = Ret false /\
  well_formed_mask (mask_parse (s2l "12x")) /\ length (mask_unspecified_places (mask_parse (s2l "12x"))) = 1.
Proof.
  splits; try (vm_compute; reflexivity). apply (fits_wf _ [0; 1; 2]); [vr|].
  split; [reflexivity|]. intros p b. do 3 (destruct p as [|p]; [cbn; unfold specifies; cbn; congruence|]). destruct p; discriminate.
Qed.

(** C49 (missing: well-formed masks with exactly one open place match exactly one row, and [as_row] says
    [None], see [C49_as_row_one_open_refuted]; ill-formed masks, see [C49_as_row_invalid_refuted]). *)
Theorem C49_as_row_partial :
  forall m, well_formed_mask m ->
    exists o, mask_as_row m = Ret o /\
      (forall r, o = Some r -> valid_row r /\ forall s, fits m s <-> s = r) /\
      (length (mask_unspecified_places m) <> 1 ->
       forall r, (forall s, valid_row s /\ fits m s <-> s = r) -> o = Some r).
Proof. exact pf_C49_as_row_partial. Qed.
Print Assumptions C49_as_row_partial.

(** C49 is false for every well-formed mask with exactly one open place: exactly one row matches it and
    [as_row] returns [None]. *)
Theorem C49_as_row_one_open_refuted :
  forall m, well_formed_mask m -> length (mask_unspecified_places m) = 1 ->
    mask_as_row m = Ret None /\ there_are 1 (fun r => valid_row r /\ fits m r).
Proof. exact pf_C49_as_row_one_open_refuted. Qed.
Print Assumptions C49_as_row_one_open_refuted.

(** C49 is false of parsed masks: [as_row] (safe code) may return a row which is not a permutation. *)
Theorem C49_as_row_invalid_refuted :
  mask_as_row (mask_parse (s2l "11")) = Ret (Some [0; 0]) /\ ~ valid_row [0; 0] /\
  mask_as_row (mask_parse (s2l "19")) = Ret (Some [0; 8]) /\ ~ valid_row [0; 8] /\
  mask_as_row (mask_parse []) = Ret (Some []) /\ ~ valid_row [].
Proof. exact pf_C49_as_row_invalid_refuted. Qed.
Print Assumptions C49_as_row_invalid_refuted.

(** C49: what is answered for any mask, also an ill-formed one: its bells, exactly when no place is open. *)
Theorem C49_what_is_answered :
  forall m, exists o, mask_as_row m = Ret o /\
    (o = None <-> exists p, leaves_open m p) /\
    (forall r, o = Some r <-> length r = length m /\ forall p b, specifies m p b <-> nth_error r p = Some b).
Proof. exact pf_C49_what_is_answered. Qed.
Print Assumptions C49_what_is_answered.

Example C49_witness :
  mask_as_row (mask_full_row [2; 0; 1]) = Ret (Some [2; 0; 1]) /\ well_formed_mask (mask_full_row [2; 0; 1]) /\
  mask_as_row (mask_parse (s2l "1xx")) = Ret None.
Proof.
  splits; try reflexivity. apply (fits_wf _ [2; 0; 1]); [vr|]. split; [reflexivity|]. intros p b. apply specifies_full.
Qed.

(** C50: [set_bell]: success exactly when the bell is not specified elsewhere; then exactly that bell is
    specified at that place and nothing else changes; a failure changes nothing. *)
Theorem C50_set_bell :
  forall m b p, each_bell_once m -> p < length m ->
    exists m' res, mask_set_bell m b p = Ret (m', res) /\ length m' = length m /\ each_bell_once m' /\
      (res = Ok tt <-> forall q, specifies m q b -> q = p) /\
      (res = Ok tt -> forall q c, specifies m' q c <-> (q = p /\ c = b) \/ (q <> p /\ specifies m q c)) /\
      (res <> Ok tt -> m' = m).
Proof. exact pf_C50_set_bell. Qed.
Print Assumptions C50_set_bell.

(** C50: beyond the end, [set_bell] fails if the bell is specified and panics otherwise. *)
Theorem C50_set_bell_beyond_the_end :
  forall m b p, length m <= p ->
    ((exists q, specifies m q b) -> mask_set_bell m b p = Ret (m, Err tt)) /\
    ((forall q, ~ specifies m q b) -> mask_set_bell m b p = Panic).
Proof. exact pf_C50_set_bell_beyond_the_end. Qed.
Print Assumptions C50_set_bell_beyond_the_end.

(** C50: [fix] sets the bell at home. *)
Theorem C50_fix :
  forall m b, each_bell_once m -> b < length m ->
    exists m' res, mask_fix m b = Ret (m', res) /\ length m' = length m /\ each_bell_once m' /\
      (res = Ok tt <-> forall q, specifies m q b -> q = b) /\
      (res = Ok tt -> forall q c, specifies m' q c <-> (q = b /\ c = b) \/ (q <> b /\ specifies m q c)) /\
      (res <> Ok tt -> m' = m).
Proof. exact pf_C50_fix. Qed.
Print Assumptions C50_fix.

(** C50: [fix_bells] fixes exactly the given bells at home; a bell outside the stage makes it panic. *)
Theorem C50_fix_bells :
  forall s bs, 0 < s ->
    (Forall (fun b => b < s) bs -> exists m, mask_fix_bells s bs = Ret m /\ length m = s /\ well_formed_mask m /\
       forall p b, specifies m p b <-> p = b /\ In b bs) /\
    (~ Forall (fun b => b < s) bs -> mask_fix_bells s bs = Panic).
Proof. exact pf_C50_fix_bells. Qed.
Print Assumptions C50_fix_bells.

(** C50: the empty mask specifies nothing, the full mask of a row specifies the row. *)
Theorem C50_empty_and_full :
  forall s r, 0 < s -> valid_row r ->
    (length (mask_empty s) = s /\ well_formed_mask (mask_empty s) /\ (forall t, fits (mask_empty s) t <-> length t = s)) /\
    (well_formed_mask (mask_full_row r) /\ forall t, fits (mask_full_row r) t <-> t = r).
Proof. exact pf_C50_empty_and_full. Qed.
Print Assumptions C50_empty_and_full.

(** C50: the queries. *)
Theorem C50_queries :
  forall m,
    (forall b p, mask_place_of m b = Some p <-> specifies m p b /\ forall q, specifies m q b -> p <= q) /\
    (forall b, mask_place_of m b = None <-> forall p, ~ specifies m p b) /\
    ascending (mask_unspecified_places m) /\ (forall p, In p (mask_unspecified_places m) <-> leaves_open m p) /\
    (mask_is_empty m = true <-> forall p b, ~ specifies m p b) /\
    (m <> [] -> mask_stage m = Ret (length m)) /\ mask_stage [] = Panic.
Proof. exact pf_C50_queries. Qed.
Print Assumptions C50_queries.

Example C50_witness :
  mask_set_bell (mask_parse (s2l "1xxx56")) 2 1 = Ret (mask_parse (s2l "13xx56"), Ok tt) /\
  mask_set_bell (mask_parse (s2l "1xxx56")) 0 1 = Ret (mask_parse (s2l "1xxx56"), Err tt) /\
  mask_fix (mask_parse (s2l "1xxx56")) 2 = Ret (mask_parse (s2l "1x3x56"), Ok tt) /\
  mask_fix_bells 6 [0; 4; 5; 4] = Ret (mask_parse (s2l "1xxx56")) /\ mask_fix_bells 6 [6] = Panic /\
  mask_unspecified_places (mask_parse (s2l "1xxx56")) = [1; 2; 3] /\
  each_bell_once (mask_parse (s2l "1xxx56")) /\ valid_row [1; 0].
Proof.
  splits; try (vm_compute; reflexivity); [|vr]. apply NoDup_once. vm_compute. repeat constructor; cbn; intuition discriminate.
Qed.

(** C51: the regex made from a mask matches exactly the rows which the mask matches. *)
Theorem C51_mask_to_regex :
  forall m r, valid_row r ->
    exists es v, mask_to_regex m = Ret es /\ regex_matches es r = Ret v /\ (v = true <-> fits m r).
Proof. exact pf_C51_mask_to_regex. Qed.
Print Assumptions C51_mask_to_regex.

Example C51_witness :
  exists es, mask_to_regex (mask_parse (s2l "x1xx56")) = Ret es /\ regex_matches es [2; 0; 1; 3; 4; 5] = Ret true /\
    regex_matches es [0; 2; 1; 3; 4; 5] = Ret false.
Proof. eexists. splits; vm_compute; reflexivity. Qed.

(** C69: [parse] reads the places written in a text, ignoring other chars. *)
Theorem C69_parse :
  forall t m, mask_parse t = m <-> mask_text t m.
Proof. exact pf_C69_parse. Qed.
Print Assumptions C69_parse.

(** C69: parsing a displayed mask gives the mask (for bells with a one-char name). *)
Theorem C69_parse_of_display :
  forall m, (forall p b, specifies m p b -> b < 33) -> mask_parse (mask_display m) = m.
Proof. exact pf_C69_parse_of_display. Qed.
Print Assumptions C69_parse_of_display.

Example C69_witness :
  mask_parse (s2l "1x.X 5-T") = [Some 0; None; None; None; Some 4; Some 11] /\
  mask_display [Some 0; None; Some 4; Some 11] = s2l "1x5T" /\ mask_text (s2l "x1") [None; Some 0].
Proof. splits; try (vm_compute; reflexivity). apply mask_text_ok. vm_compute. reflexivity. Qed.
