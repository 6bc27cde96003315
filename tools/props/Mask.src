(** Property theorems C46 to C51 (masks). *)
(*IMPORTS*)
From Verif Require Import Base Bell Stage Row Block Music Mask Spec SpecMask ListFacts BellFacts RowFacts MulFacts BlockFacts
  SsvFacts MaskFacts MaskFacts2 MaskFacts3 MusicFacts MusicFacts2.
Local Open Scope list_scope.
(*BODY*)
(** C46: a mask matches a row exactly when the stages agree and every specified place holds the
    specified bell. *)
Theorem C46_matches :
  forall m r, m <> [] -> valid_row r -> exists v, mask_matches m r = Ret v /\ (v = true <-> fits m r).
Proof. exact mask_matches_ok. Qed.

(** C46: mask * row: place [p] of the product asks for what the mask asked for at the place numbered
    by the row's [p]-th bell. *)
Theorem C46_mask_times_row_places :
  forall m r, valid_row r -> length m = length r ->
    exists m', mask_mul_row m r = Ret m' /\ length m' = length m /\
      forall p b, specifies m' p b <-> exists q, nth_error r p = Some q /\ specifies m q b.
Proof.
  intros m r V L. destruct (mask_mul_row_ok m r V L) as (m' & E & Lm & H). exists m'. splits; auto; [congruence|].
  intros p b. unfold specifies. rewrite H. destruct (nth_error r p) as [q|].
  - split; [eauto|intros (q' & [= ->] & K); auto].
  - split; [discriminate|intros (q' & K & _); discriminate].
Qed.

(** C46: [s] matches [m] exactly when [s * r] matches [m * r]. *)
Theorem C46_mask_times_row :
  forall m r s t, valid_row r -> valid_row s -> length m = length r -> length s = length r -> composition s r t ->
    exists m', mask_mul_row m r = Ret m' /\ (fits m' t <-> fits m s).
Proof.
  intros m r s t V Vs L Ls C. destruct (mask_mul_row_ok m r V L) as (m' & E & Lm & H). exists m'. split; auto.
  destruct C as [Lt C]. unfold fits. split.
  - intros [_ F]. split; [congruence|]. intros p b Hp.
    assert (Hpl : p < length r) by (rewrite <- L; apply nth_error_Some; unfold specifies in Hp; congruence).
    destruct (valid_row_surj r p V Hpl) as [q Hq]. destruct (C q p Hq) as (y & Hy & Ht).
    rewrite Hy, <- Ht. apply F. unfold specifies. rewrite H, Hq. exact Hp.
  - intros [_ F]. split; [congruence|]. intros p b Hp. unfold specifies in Hp. rewrite H in Hp.
    destruct (nth_error r p) as [q|] eqn:Hq; [|discriminate]. apply F in Hp.
    destruct (C p q Hq) as (y & Hy & Ht). congruence.
Qed.

(** C46: [s] matches [m] exactly when [r * s] matches [r * m] (for masks of bells of the stage). *)
Theorem C46_row_times_mask :
  forall m r s t, valid_row r -> valid_row s -> length m = length r -> length s = length r ->
    (forall p b, specifies m p b -> b < length r) -> composition r s t ->
    exists m', row_mul_mask r m = Ret m' /\ (fits m' t <-> fits m s).
Proof.
  intros m r s t V Vs L Ls R C. destruct (row_mul_mask_ok r m V L R) as (m' & E & Lm & H). exists m'. split; auto.
  destruct C as [Lt C]. unfold fits. split.
  - intros [_ F]. split; [congruence|]. intros p b Hp.
    assert (Hpl : p < length s) by (rewrite Ls, <- L; apply nth_error_Some; unfold specifies in Hp; congruence).
    destruct (nth_error s p) as [x|] eqn:Hx; [|apply nth_error_None in Hx; lia].
    destruct (C p x Hx) as (y & Hy & Ht). specialize (H p). rewrite Hp in H.
    destruct (nth_error r b) as [z|] eqn:Hz; [|apply nth_error_None in Hz; specialize (R p b Hp); lia].
    cbn in H. apply F in H. assert (y = z) by congruence. subst.
    f_equal. eapply NoDup_nth_error_inj; eauto. apply valid_row_NoDup; auto.
  - intros [_ F]. split; [congruence|]. intros p z Hp. unfold specifies in Hp. rewrite H in Hp.
    destruct (nth_error m p) as [[b|]|] eqn:Hm; try discriminate.
    destruct (nth_error r b) as [z'|] eqn:Hz; [|discriminate]. cbn in Hp. injection Hp as ->.
    pose proof (F p b Hm) as Hs. destruct (C p b Hs) as (y & Hy & Ht). congruence.
Qed.

(** C46: the products are well-formed masks when the mask is. *)
Theorem C46_products_well_formed :
  forall m r, valid_row r -> well_formed_mask m -> length m = length r ->
    (exists m', mask_mul_row m r = Ret m' /\ well_formed_mask m' /\ length m' = length m) /\
    (exists m', row_mul_mask r m = Ret m' /\ well_formed_mask m' /\ length m' = length m).
Proof.
  intros m r V W L. destruct (completion m W) as (s & Vs & F). pose proof (proj1 F) as Ls.
  assert (VR : vrow (length r) r) by (apply vrow_intro; auto). assert (VS : vrow (length r) s) by (split; auto; congruence).
  split.
  - destruct (pf_C46_mask_times_row m r s (rmul s r) V Vs L ltac:(congruence) (composition_vrow _ _ _ VS VR)) as (m' & E & K).
    exists m'. splits; auto. { eapply fits_wf; [apply (valid_rmul _ _ _ VS VR)|apply K; auto]. }
    destruct (mask_mul_row_ok m r V L) as (m2 & E2 & L2 & _). rewrite E in E2. injection E2 as <-. congruence.
  - destruct W as (W1 & W2 & W3). rewrite L in W3.
    destruct (pf_C46_row_times_mask m r s (rmul r s) V Vs L ltac:(congruence) W3 (composition_vrow _ _ _ VR VS)) as (m' & E & K).
    exists m'. splits; auto. { eapply fits_wf; [apply (valid_rmul _ _ _ VR VS)|apply K; auto]. }
    destruct (row_mul_mask_ok r m V L W3) as (m2 & E2 & L2 & _). rewrite E in E2. injection E2 as <-. congruence.
Qed.

(** C46: multiplying a mask and a row of different stages panics, and so does row * mask when the mask
    asks for a bell outside the stage. *)
Theorem C46_products_panic :
  forall m r, valid_row r -> m <> [] ->
    (length m <> length r -> mask_mul_row m r = Panic /\ row_mul_mask r m = Panic) /\
    (forall p b, length m = length r -> specifies m p b -> length r <= b -> row_mul_mask r m = Panic).
Proof.
  intros m r V Hm. split; [intros L; split; [apply mask_mul_row_panic|apply row_mul_mask_panic]; auto|].
  intros p b L Hp Hb. eapply row_mul_mask_range_panic; eauto.
Qed.

Example C46_witness :
  mask_matches (mask_parse (s2l "x1xx56")) [2; 0; 1; 3; 4; 5] = Ret true /\
  mask_matches (mask_parse (s2l "x1xx56")) [0; 1; 2; 3; 4; 5] = Ret false /\
  row_mul_mask [5; 6; 7; 0; 1; 2; 3; 4] (mask_parse (s2l "xxxx6578")) = Ret (mask_parse (s2l "xxxx3245")) /\
  mask_mul_row (mask_parse (s2l "xxxx6578")) [5; 6; 7; 0; 1; 2; 3; 4] = Ret (mask_parse (s2l "578xxxx6")) /\
  valid_row [5; 6; 7; 0; 1; 2; 3; 4] /\ well_formed_mask (mask_parse (s2l "xxxx6578")).
Proof.
  splits; try (vm_compute; reflexivity); [vr|].
  apply (fits_wf _ [0; 1; 2; 3; 5; 4; 6; 7]); [vr|]. split; [reflexivity|].
  intros p b. do 8 (destruct p as [|p]; [cbn; unfold specifies; cbn; congruence|]). destruct p; discriminate.
Qed.

(** C47: [is_compatible_with] holds exactly when some row matches both masks. *)
Theorem C47_compatible :
  forall a b, well_formed_mask a -> well_formed_mask b ->
    exists v, mask_is_compatible_with a b = Ret v /\ (v = true <-> exists r, valid_row r /\ fits a r /\ fits b r).
Proof.
  intros a b Wa Wb. destruct (mask_compat_ok a b (proj1 Wa) (proj1 Wb) (proj1 (proj2 Wa))) as (v & E & H).
  exists v. split; auto. rewrite H. apply compat_iff; auto.
Qed.

(** C47: [combine] succeeds exactly then, and the combined mask is well formed and matches exactly the
    rows matching both. *)
Theorem C47_combine :
  forall a b, well_formed_mask a -> well_formed_mask b ->
    exists o, mask_combine a b = Ret o /\
      ((exists c, o = Some c) <-> exists r, valid_row r /\ fits a r /\ fits b r) /\
      forall c, o = Some c -> well_formed_mask c /\ forall r, fits c r <-> fits a r /\ fits b r.
Proof.
  intros a b Wa Wb. destruct (mask_compat_ok a b (proj1 Wa) (proj1 Wb) (proj1 (proj2 Wa))) as (v & E & H).
  destruct (mask_combine_ok a b (proj1 Wa) (proj1 Wb) (proj1 (proj2 Wa))) as [C1 C2]. pose proof (compat_iff a b Wa Wb) as CI. destruct v.
  - pose proof (proj1 H eq_refl) as C. exists (Some (merge a b)). splits; auto.
    + split; [intros _; apply CI; auto|eauto].
    + intros c [= <-]. split; [apply compat_wf; auto|intros r; apply compat_fits; auto].
  - assert (C : ~ compat a b) by (intros K; apply H in K; discriminate). exists None. splits; auto.
    + split; [intros (c & K); discriminate|]. intros K; apply CI in K; tauto.
    + discriminate.
Qed.

(** C47: on any masks with places, even if they ask for a bell several times, neither call panics and, as documented,
    [combine] succeeds exactly when [is_compatible_with] says yes.  The answer is yes exactly when the stages agree and,
    wherever [b] asks for a bell, [a] asks for no other one there and nowhere earlier for that one, nor later without
    asking for it there.  A combined mask asks for a bell exactly where one of the two does. *)
Theorem C47_combine_places :
  forall a b, a <> [] -> b <> [] ->
    exists v o, mask_is_compatible_with a b = Ret v /\ mask_combine a b = Ret o /\
      (v = true <-> exists c, o = Some c) /\
      (v = true <-> length a = length b /\ forall p x, specifies b p x ->
         (forall y, specifies a p y -> y = x) /\ (forall q, specifies a q x -> specifies a p x /\ p <= q)) /\
      forall c, o = Some c -> length c = length a /\ forall p x, specifies c p x <-> specifies a p x \/ specifies b p x.
Proof.
  intros a b Ha Hb. destruct (mask_compat_any a b Ha Hb) as (v & E & H).
  destruct (mask_combine_any a b Ha Hb) as [C1 C2]. destruct v.
  - pose proof (proj1 H eq_refl) as C. exists true, (Some (merge a b)). splits; auto; [split; eauto|]. intros c [= <-].
    destruct C as [L C]. split; [apply length_merge; auto|]. intros p x. rewrite merge_specifies by auto. split; [tauto|].
    intros [K|K]; auto. destruct (specifies_dec a p) as [(y & Hy)|[Ho|Hl]]; auto.
    + left. assert (y = x) by (apply (C p x K); auto). subst; auto.
    + exfalso. unfold specifies in K. assert (p < length b) by (apply nth_error_Some; congruence). lia.
  - assert (C : ~ compat_any a b) by (intros K; apply H in K; discriminate). exists false, None. splits; auto; try discriminate.
    split; [discriminate|]. intros (c & K). discriminate.
Qed.

Example C47_witness :
  mask_combine (mask_parse (s2l "1xxx56")) (mask_parse (s2l "1x3xxx")) = Ret (Some (mask_parse (s2l "1x3x56"))) /\
  mask_is_compatible_with (mask_parse (s2l "1xxx")) (mask_parse (s2l "x1xx")) = Ret false /\
  mask_is_compatible_with (mask_parse (s2l "1xxx")) (mask_parse (s2l "2xxx")) = Ret false /\
  mask_combine (mask_parse (s2l "1xxx")) (mask_parse (s2l "xx1x")) = Ret None /\
  mask_combine (mask_parse (s2l "x11")) (mask_parse (s2l "x1x")) = Ret (Some (mask_parse (s2l "x11"))) /\
  mask_is_compatible_with (mask_parse (s2l "11")) (mask_parse (s2l "11")) = Ret false /\
  well_formed_mask (mask_parse (s2l "1xxx56")) /\ well_formed_mask (mask_parse (s2l "1x3xxx")).
Proof.
  assert (F : fits (mask_parse (s2l "1x3x56")) [0; 1; 2; 3; 4; 5]).
  { split; [reflexivity|]. intros p b. do 6 (destruct p as [|p]; [cbn; unfold specifies; cbn; congruence|]). destruct p; discriminate. }
  splits; try (vm_compute; reflexivity); apply (fits_wf _ [0; 1; 2; 3; 4; 5]); try vr;
    (split; [reflexivity|]; intros p b; do 6 (destruct p as [|p]; [cbn; unfold specifies; cbn; congruence|]); destruct p; discriminate).
Qed.

(** C48 (missing: the converse when exactly one place of [a] is open and [b] specifies it; it is false
    there, see [C48_subset_refuted]). *)
Theorem C48_subset_partial :
  forall a b, well_formed_mask a -> b <> [] ->
    exists v, mask_is_subset_of a b = Ret v /\
      (v = true -> forall r, fits a r -> fits b r) /\
      ((forall p q, leaves_open a p -> (forall q', leaves_open a q' -> q' = p) -> specifies b p q -> False) ->
       (forall r, valid_row r -> fits a r -> fits b r) -> v = true).
Proof.
  intros a b Wa Hb. destruct (mask_subset_ok a b (proj1 Wa) Hb) as (v & E & H). exists v. splits; auto.
  - intros Hv r [Lr F]. apply H in Hv as [L S]. split; [congruence|]. intros p y Hp. apply F, S, Hp.
  - intros K A. apply H. destruct (Nat.eq_dec (nopen a) 1) as [N|N]; [|apply subset_complete; auto].
    destruct (completion a Wa) as (r0 & V0 & F0). pose proof (A r0 V0 F0) as Fb0.
    apply subset_complete; auto. right. intros p Hp.
    destruct (specifies_dec b p) as [(x & Hx)|[Ho|Hl]]; auto.
    + exfalso. apply (K p x); auto. intros q' Hq. rewrite <- length_unspecified in N.
      apply In_unspecified in Hp, Hq. destruct (mask_unspecified_places a) as [|z [|? ?]]; try discriminate.
      destruct Hp as [<-|[]], Hq as [<-|[]]; auto.
    + apply open_lt in Hp. destruct F0 as [L1 _], Fb0 as [L2 _]. lia.
Qed.

(** C48 is false: for every mask with exactly one open place there is a mask which matches all the rows
    it matches, and yet [is_subset_of] says no. *)
Theorem C48_subset_refuted :
  forall a, well_formed_mask a -> length (mask_unspecified_places a) = 1 ->
    exists b, well_formed_mask b /\ (forall r, valid_row r -> fits a r -> fits b r) /\ mask_is_subset_of a b = Ret false.
Proof.
  intros a W N. rewrite length_unspecified in N. destruct (count_fits a W) as (l & Ll & _ & Hl). rewrite N in Ll. cbn in Ll.
  destruct l as [|r0 [|? ?]]; try discriminate. destruct (proj1 (Hl r0) ltac:(left; auto)) as [V F].
  assert (Fb : fits (mask_full_row r0) r0).
  { split; [symmetry; apply map_length|]. intros p b. apply specifies_full. }
  exists (mask_full_row r0). splits.
  - eapply fits_wf; eauto.
  - intros r Vr Fr. assert (In r [r0]) as [<-|[]] by (apply Hl; auto). auto.
  - destruct (mask_subset_ok a (mask_full_row r0) (proj1 W)) as (v & E & H).
    + intros K. apply map_eq_nil in K. apply valid_row_pos in V. subst; cbn in V; lia.
    + destruct v; [|exact E]. exfalso. destruct (proj1 H eq_refl) as [_ S].
      assert (N0 : nopen a <> 0) by lia. assert (exists p, leaves_open a p) as [p Hp].
      { rewrite <- length_unspecified in N. destruct (mask_unspecified_places a) as [|p l] eqn:E2; [discriminate|].
        exists p. apply In_unspecified. rewrite E2; left; auto. }
      pose proof (open_lt _ _ Hp) as Lp. rewrite <- (proj1 F) in Lp.
      assert (nth_error r0 p = Some (nth p r0 0)) as Hr by (apply nth_error_nth'; auto).
      apply specifies_full in Hr. apply S in Hr. unfold specifies, leaves_open in *. congruence.
Qed.

(** C48: what is answered for any two masks with places, whatever they specify: [true] exactly when the
    stages agree and [a] specifies every bell which [b] specifies, in the same place. *)
Theorem C48_what_is_answered :
  forall a b, a <> [] -> b <> [] -> exists v, mask_is_subset_of a b = Ret v /\
    (v = true <-> length a = length b /\ forall p x, specifies b p x -> specifies a p x).
Proof. apply mask_subset_ok. Qed.

Example C48_witness :
  mask_is_subset_of (mask_parse (s2l "1234xx")) (mask_parse (s2l "1xx4xx")) = Ret true /\
  mask_is_subset_of (mask_parse (s2l "1xx4xx")) (mask_parse (s2l "1234xx")) = Ret false /\
  mask_is_subset_of (mask_parse (s2l "1xx4")) (mask_parse (s2l "1xxx4")) = Ret false /\
  mask_is_subset_of (mask_parse (s2l "12x")) (mask_parse (s2l "123")) = Ret false /\
  well_formed_mask (mask_parse (s2l "12x")) /\ length (mask_unspecified_places (mask_parse (s2l "12x"))) = 1.
Proof.
  splits; try (vm_compute; reflexivity). apply (fits_wf _ [0; 1; 2]); [vr|].
  split; [reflexivity|]. intros p b. do 3 (destruct p as [|p]; [cbn; unfold specifies; cbn; congruence|]). destruct p; discriminate.
Qed.

(** C49 (missing: well-formed masks with exactly one open place match exactly one row, and [as_row] says
    [None], see [C49_as_row_one_open_refuted]; ill-formed masks, see [C49_as_row_invalid_refuted]). *)
Theorem C49_as_row_partial :
  forall m, well_formed_mask m ->
    exists o, mask_as_row m = Ret o /\
      (forall r, o = Some r -> valid_row r /\ forall s, fits m s <-> s = r) /\
      (length (mask_unspecified_places m) <> 1 ->
       forall r, (forall s, valid_row s /\ fits m s <-> s = r) -> o = Some r).
Proof.
  intros m W. destruct (mask_as_row_ok m) as [A1 A2]. rewrite length_unspecified.
  destruct (Nat.eq_dec (nopen m) 0) as [Z|Z].
  - exists (Some (mbells m)). splits; auto.
    + intros r [= <-]. split; [|intros s; apply full_fits; auto].
      destruct (completion m W) as (r & V & F). apply full_fits in F; subst; auto.
    + intros _ r H. destruct (completion m W) as (s & V & F). assert (s = r) by (apply H; auto). subst s.
      f_equal. symmetry. apply full_fits; auto.
  - exists None. splits; auto; [discriminate|]. intros N r H. exfalso.
    destruct (proj2 (H r) eq_refl) as [V F].
    assert (exists p, leaves_open m p) as [p Hp].
    { rewrite <- length_unspecified in Z. destruct (mask_unspecified_places m) as [|p l] eqn:E2; [cbn in Z; lia|].
      exists p. apply In_unspecified. rewrite E2; left; auto. }
    destruct (two_open m ltac:(lia) p Hp) as (q & Hq & D).
    destruct (other_row m r p q V F Hp Hq ltac:(auto)) as (r' & V' & F' & K).
    apply K. f_equal. apply H; auto.
Qed.

(** C49 is false for every well-formed mask with exactly one open place: exactly one row matches it and
    [as_row] returns [None]. *)
Theorem C49_as_row_one_open_refuted :
  forall m, well_formed_mask m -> length (mask_unspecified_places m) = 1 ->
    mask_as_row m = Ret None /\ there_are 1 (fun r => valid_row r /\ fits m r).
Proof.
  intros m W N. rewrite length_unspecified in N. split; [apply mask_as_row_ok; lia|].
  pose proof (count_fits m W) as C. rewrite N in C. exact C.
Qed.

(** C49 is false of parsed masks: [as_row] (safe code) may return a row which is not a permutation. *)
Theorem C49_as_row_invalid_refuted :
  mask_as_row (mask_parse (s2l "11")) = Ret (Some [0; 0]) /\ ~ valid_row [0; 0] /\
  mask_as_row (mask_parse (s2l "19")) = Ret (Some [0; 8]) /\ ~ valid_row [0; 8] /\
  mask_as_row (mask_parse []) = Ret (Some []) /\ ~ valid_row [].
Proof.
  splits; try reflexivity.
  - intros (_ & N & _). inversion N as [|? ? K _]. apply K; left; auto.
  - intros (_ & _ & K). specialize (K 8). cbn in K. destruct K as [K _]. specialize (K ltac:(auto)). lia.
  - intros (K & _). congruence.
Qed.

(** C49: what is answered for any mask, also an ill-formed one: its bells, exactly when no place is open. *)
Theorem C49_what_is_answered :
  forall m, exists o, mask_as_row m = Ret o /\
    (o = None <-> exists p, leaves_open m p) /\
    (forall r, o = Some r <-> length r = length m /\ forall p b, specifies m p b <-> nth_error r p = Some b).
Proof.
  intros m. assert (D : m = map Some (mbells m) /\ nopen m = 0 \/ exists p, leaves_open m p).
  { destruct (Nat.eq_dec (nopen m) 0) as [E|E].
    - left. split; auto. unfold nopen, mbells in *. induction m as [|[b|] m IH]; cbn in *; auto; [|discriminate]. f_equal. auto.
    - right. unfold nopen in E. induction m as [|[b|] m IH]; cbn in *; try lia.
      + destruct (IH E) as (p & P). exists (S p). exact P.
      + exists 0. reflexivity. }
  destruct D as [[D N]|(p & P)].
  - exists (Some (mbells m)). split; [apply mask_as_row_ok; auto|]. split.
    + split; [discriminate|]. intros (p & P). apply (proj1 (nopen_0 m) N p) in P. destruct P.
    + intros r. split.
      * intros [= <-]. split; [rewrite D at 2; rewrite map_length; auto|]. intros p b. unfold specifies. rewrite D at 1.
        rewrite nth_error_map. destruct (nth_error (mbells m) p); cbn; split; congruence.
      * intros [L H]. f_equal. apply nth_error_ext. intros p. specialize (H p). unfold specifies in H. rewrite D, nth_error_map in H.
        destruct (nth_error (mbells m) p) as [b|] eqn:E; cbn in H.
        -- symmetry. apply H. auto.
        -- destruct (nth_error r p) as [b|] eqn:E'; auto. specialize (proj2 (H b) eq_refl). discriminate.
  - exists None. split; [apply mask_as_row_ok|].
    + intros N. exact (proj1 (nopen_0 m) N p P).
    + split; [split; eauto|]. intros r. split; [discriminate|]. intros [L H]. exfalso.
      assert (X : p < length r). { rewrite L. apply nth_error_Some. unfold leaves_open in P. congruence. }
      apply nth_error_Some in X. destruct (nth_error r p) as [b|] eqn:E; [|congruence].
      apply H in E. unfold specifies, leaves_open in *. congruence.
Qed.

Example C49_witness :
  mask_as_row (mask_full_row [2; 0; 1]) = Ret (Some [2; 0; 1]) /\ well_formed_mask (mask_full_row [2; 0; 1]) /\
  mask_as_row (mask_parse (s2l "1xx")) = Ret None.
Proof.
  splits; try reflexivity. apply (fits_wf _ [2; 0; 1]); [vr|]. split; [reflexivity|]. intros p b. apply specifies_full.
Qed.

(** C50: [set_bell]: success exactly when the bell is not specified elsewhere; then exactly that bell is
    specified at that place and nothing else changes; a failure changes nothing. *)
Theorem C50_set_bell :
  forall m b p, each_bell_once m -> p < length m ->
    exists m' res, mask_set_bell m b p = Ret (m', res) /\ length m' = length m /\ each_bell_once m' /\
      (res = Ok tt <-> forall q, specifies m q b -> q = p) /\
      (res = Ok tt -> forall q c, specifies m' q c <-> (q = p /\ c = b) \/ (q <> p /\ specifies m q c)) /\
      (res <> Ok tt -> m' = m).
Proof.
  intros m b p O L. destruct (set_bell_ok m b p) as (S1 & S2 & _). destruct (mask_place_of m b) as [q|] eqn:E.
  - pose proof (mask_position_Some _ _ _ E) as Hq. exists m. eexists. split; [apply (S1 q eq_refl)|].
    destruct (Nat.eqb_spec q p) as [->|D]; splits; auto.
    + split; auto. intros _ q Hq'. eapply O; eauto.
    + intros _ q c. split.
      * intros Hc. destruct (Nat.eq_dec q p) as [->|N]; auto. left; split; auto. unfold specifies in *; congruence.
      * intros [[-> ->]|[_ H]]; auto.
    + split; [discriminate|]. intros K. exfalso. apply D, K, Hq.
    + discriminate.
  - pose proof (proj1 (mask_position_None m b) E) as N. exists (upd m p (Some b)), (Ok tt). splits; auto.
    + apply length_upd.
    + apply upd_once; auto. intros q Hq. exfalso; eapply N; eauto.
    + split; auto. intros _ q Hq. exfalso; eapply N; eauto.
    + intros _ q c. apply upd_specifies; auto.
    + congruence.
Qed.

(** C50: beyond the end, [set_bell] fails if the bell is specified and panics otherwise. *)
Theorem C50_set_bell_beyond_the_end :
  forall m b p, length m <= p ->
    ((exists q, specifies m q b) -> mask_set_bell m b p = Ret (m, Err tt)) /\
    ((forall q, ~ specifies m q b) -> mask_set_bell m b p = Panic).
Proof.
  intros m b p L. destruct (set_bell_ok m b p) as (S1 & _ & S3). destruct (mask_place_of m b) as [q|] eqn:E.
  - pose proof (mask_position_Some _ _ _ E) as Hq. split.
    + intros _. rewrite (S1 q eq_refl). destruct (Nat.eqb_spec q p) as [->|]; auto.
      exfalso. assert (p < length m) by (apply nth_error_Some; unfold specifies in Hq; congruence). lia.
    + intros K. exfalso; eapply K; eauto.
  - pose proof (proj1 (mask_position_None m b) E) as N. split; auto. intros (q & Hq). exfalso; eapply N; eauto.
Qed.

(** C50: [fix] sets the bell at home. *)
Theorem C50_fix :
  forall m b, each_bell_once m -> b < length m ->
    exists m' res, mask_fix m b = Ret (m', res) /\ length m' = length m /\ each_bell_once m' /\
      (res = Ok tt <-> forall q, specifies m q b -> q = b) /\
      (res = Ok tt -> forall q c, specifies m' q c <-> (q = b /\ c = b) \/ (q <> b /\ specifies m q c)) /\
      (res <> Ok tt -> m' = m).
Proof. intros m b. apply pf_C50_set_bell. Qed.

(** C50: [fix_bells] fixes exactly the given bells at home; a bell outside the stage makes it panic. *)
Theorem C50_fix_bells :
  forall s bs, 0 < s ->
    (Forall (fun b => b < s) bs -> exists m, mask_fix_bells s bs = Ret m /\ length m = s /\ well_formed_mask m /\
       forall p b, specifies m p b <-> p = b /\ In b bs) /\
    (~ Forall (fun b => b < s) bs -> mask_fix_bells s bs = Panic).
Proof.
  intros s bs Hs. destruct (fix_bells_gen bs (mask_empty s)) as [F1 F2]. rewrite length_empty in F1, F2.
  split; [|exact F2]. intros F. destruct (F1 F) as (m & E & L & H). exists m.
  assert (K : forall p b, specifies m p b <-> p = b /\ In b bs).
  { intros p b. rewrite H. split; [intros [K|[_ K]]; auto; exfalso; eapply specifies_empty; eauto|auto]. }
  splits; auto. unfold well_formed_mask. splits.
  - intros ->. cbn in L. lia.
  - intros p q b Hp Hq. apply K in Hp, Hq. destruct Hp, Hq; congruence.
  - intros p b Hp. apply K in Hp as [-> Hin]. rewrite Forall_forall in F. rewrite L. auto.
Qed.

(** C50: the empty mask specifies nothing, the full mask of a row specifies the row. *)
Theorem C50_empty_and_full :
  forall s r, 0 < s -> valid_row r ->
    (length (mask_empty s) = s /\ well_formed_mask (mask_empty s) /\ (forall t, fits (mask_empty s) t <-> length t = s)) /\
    (well_formed_mask (mask_full_row r) /\ forall t, fits (mask_full_row r) t <-> t = r).
Proof.
  intros s r Hs V. splits.
  - apply length_empty.
  - unfold well_formed_mask. splits; [destruct s; [lia|discriminate]| |]; intros p; intros; exfalso; eapply specifies_empty; eauto.
  - intros t. apply fits_repeat.
  - apply (fits_wf _ r V). split; [symmetry; apply map_length|]. intros p b. apply specifies_full.
  - intros t. split.
    + intros [L F]. unfold mask_full_row in L. rewrite map_length in L. apply nth_error_ext. intros i.
      destruct (nth_error r i) as [b|] eqn:E; [apply F, specifies_full, E|]. apply nth_error_None in E. apply nth_error_None. lia.
    + intros ->. split; [symmetry; apply map_length|]. intros p b. apply specifies_full.
Qed.

(** C50: the queries. *)
Theorem C50_queries :
  forall m,
    (forall b p, mask_place_of m b = Some p <-> specifies m p b /\ forall q, specifies m q b -> p <= q) /\
    (forall b, mask_place_of m b = None <-> forall p, ~ specifies m p b) /\
    ascending (mask_unspecified_places m) /\ (forall p, In p (mask_unspecified_places m) <-> leaves_open m p) /\
    (mask_is_empty m = true <-> forall p b, ~ specifies m p b) /\
    (m <> [] -> mask_stage m = Ret (length m)) /\ mask_stage [] = Panic.
Proof.
  intros m. splits; auto.
  - intros; apply mask_place_first.
  - intros; apply mask_position_None.
  - apply unspecified_ascending.
  - intros; apply In_unspecified.
  - apply mask_is_empty_ok.
  - apply mask_stage_ok.
Qed.

Example C50_witness :
  mask_set_bell (mask_parse (s2l "1xxx56")) 2 1 = Ret (mask_parse (s2l "13xx56"), Ok tt) /\
  mask_set_bell (mask_parse (s2l "1xxx56")) 0 1 = Ret (mask_parse (s2l "1xxx56"), Err tt) /\
  mask_fix (mask_parse (s2l "1xxx56")) 2 = Ret (mask_parse (s2l "1x3x56"), Ok tt) /\
  mask_fix_bells 6 [0; 4; 5; 4] = Ret (mask_parse (s2l "1xxx56")) /\ mask_fix_bells 6 [6] = Panic /\
  mask_unspecified_places (mask_parse (s2l "1xxx56")) = [1; 2; 3] /\
  each_bell_once (mask_parse (s2l "1xxx56")) /\ valid_row [1; 0].
Proof.
  splits; try (vm_compute; reflexivity); [|vr]. apply NoDup_once. vm_compute. repeat constructor; cbn; intuition discriminate.
Qed.

(** C51: the regex made from a mask matches exactly the rows which the mask matches. *)
Theorem C51_mask_to_regex :
  forall m r, valid_row r ->
    exists es v, mask_to_regex m = Ret es /\ regex_matches es r = Ret v /\ (v = true <-> fits m r).
Proof.
  intros m r V. unfold mask_to_regex, regex_from_vec. rewrite normalise_ok.
  set (es := map (fun b => match b with None => RAny | Some b => RBell b end) m).
  destruct (regex_matches_ok (norm es 0 false) r (nf_norm _ _ _) (valid_row_NoDup _ V)) as (v & E & H).
  exists (norm es 0 false), v. splits; auto. rewrite H, norm_described. cbn.
  assert (G : count_glob es = 0) by (unfold es; clear; induction m as [|[b|] m IH]; cbn; auto).
  rewrite described_mask by auto. replace (map tomask es) with m; [reflexivity|].
  unfold es. rewrite map_map. rewrite <- (map_id m) at 1. apply map_ext. intros [b|]; reflexivity.
Qed.

Example C51_witness :
  exists es, mask_to_regex (mask_parse (s2l "x1xx56")) = Ret es /\ regex_matches es [2; 0; 1; 3; 4; 5] = Ret true /\
    regex_matches es [0; 2; 1; 3; 4; 5] = Ret false.
Proof. eexists. splits; vm_compute; reflexivity. Qed.

(** C69: [parse] reads the places written in a text, ignoring other chars. *)
Theorem C69_parse :
  forall t m, mask_parse t = m <-> mask_text t m.
Proof. intros t m. symmetry. apply mask_text_ok. Qed.

(** C69: parsing a displayed mask gives the mask (for bells with a one-char name). *)
Theorem C69_parse_of_display :
  forall m, (forall p b, specifies m p b -> b < 33) -> mask_parse (mask_display m) = m.
Proof. exact mask_display_parse. Qed.

Example C69_witness :
  mask_parse (s2l "1x.X 5-T") = [Some 0; None; None; None; Some 4; Some 11] /\
  mask_display [Some 0; None; Some 4; Some 11] = s2l "1x5T" /\ mask_text (s2l "x1") [None; Some 0].
Proof. splits; try (vm_compute; reflexivity). apply mask_text_ok. vm_compute. reflexivity. Qed.
