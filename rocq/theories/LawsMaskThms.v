(** Property theorem C97: laws of masks, which relate several functions of the API. *)

(* Generated from tools/props/LawsMask.src: the proofs behind PropsLawsMask.v. *)
From Verif Require Import Base Bell Stage Row Block Music Mask Spec SpecMask ListFacts BellFacts RowFacts MulFacts BlockFacts
  SsvFacts MaskFacts MaskFacts2 MaskLawFacts.
From Verif Require Import MaskThms.
Local Open Scope list_scope.

Lemma pf_C97_subset_is_an_order :
  forall a b c, a <> [] -> b <> [] -> c <> [] ->
    mask_is_subset_of a a = Ret true /\
    (mask_is_subset_of a b = Ret true -> mask_is_subset_of b c = Ret true -> mask_is_subset_of a c = Ret true) /\
    (mask_is_subset_of a b = Ret true -> mask_is_subset_of b a = Ret true -> a = b) /\
    mask_is_subset_of a (mask_empty (length a)) = Ret true.
Proof.
  intros a b c Ha Hb Hc.
  assert (He : mask_empty (length a) <> []) by (destruct a; [congruence|discriminate]).
  rewrite !subset_true by auto. splits; auto.
  - intros [L1 H1] [L2 H2]. split; [congruence|auto].
  - intros [L1 H1] [L2 H2]. apply mask_ext; auto. split; auto.
  - rewrite length_empty. auto.
  - intros p x H. apply specifies_empty in H. destruct H.
Qed.

Lemma pf_C97_combine_is_a_meet_semilattice :
  forall a b c, a <> [] -> b <> [] -> c <> [] -> each_bell_once a -> each_bell_once b -> each_bell_once c ->
    mask_is_compatible_with a b = mask_is_compatible_with b a /\
    mask_combine a b = mask_combine b a /\
    mask_combine a a = Ret (Some a) /\
    mask_combine a (mask_empty (length a)) = Ret (Some a) /\
    (o <- mask_combine a b;; match o with Some ab => mask_combine ab c | None => Ret None end) =
    (o <- mask_combine b c;; match o with Some bc => mask_combine a bc | None => Ret None end).
Proof.
  intros a b c Ha Hb Hc Oa Ob Oc.
  assert (He : mask_empty (length a) <> []) by (destruct a; [congruence|discriminate]).
  split; [apply compat_comm; auto|]. split; [apply combine_comm; auto|]. split; [|split].
  - apply combine_joined; auto using compat_refl. split; auto. tauto.
  - apply combine_joined; auto.
    + split; [rewrite length_empty; auto|]. intros i y H. apply specifies_empty in H. destruct H.
    + split; auto. intros p x. split; [auto|]. intros [H|H]; auto. apply specifies_empty in H. destruct H.
  - apply combine_assoc; auto.
Qed.

Lemma pf_C97_combine_and_subset :
  forall a b, a <> [] -> b <> [] -> each_bell_once a -> each_bell_once b ->
    (forall c d, mask_combine a b = Ret (Some c) -> d <> [] ->
       mask_is_subset_of c a = Ret true /\ mask_is_subset_of c b = Ret true /\
       (mask_is_subset_of d c = Ret true <-> mask_is_subset_of d a = Ret true /\ mask_is_subset_of d b = Ret true)) /\
    (forall d, d <> [] -> each_bell_once d -> mask_is_subset_of d a = Ret true -> mask_is_subset_of d b = Ret true ->
       exists c, mask_combine a b = Ret (Some c)) /\
    (mask_combine a b = Ret (Some a) <-> mask_is_subset_of a b = Ret true).
Proof.
  intros a b Ha Hb Oa Ob. splits.
  - intros c d E Hd. destruct (combine_gives a b Ha Hb Oa) as [(C & c' & E' & J)|[_ E']]; rewrite E in E'; [|discriminate].
    injection E' as <-. pose proof (joined_nonempty _ _ _ Ha J) as Hc. rewrite !subset_true by auto.
    destruct J as [Lc J]. destruct C as [L C]. splits; try congruence.
    + intros p x Hp. apply J; auto.
    + intros p x Hp. apply J; auto.
    + split.
      * intros [Ld H]. splits; try congruence; intros p x Hp; apply H, J; auto.
      * intros [[Ld H1] [_ H2]]. split; [congruence|]. intros p x Hp. apply J in Hp as [Hp|Hp]; auto.
  - intros d Hd Od S1 S2. apply subset_true in S1 as [L1 H1]; auto. apply subset_true in S2 as [L2 H2]; auto.
    exists (merge a b). apply (mask_combine_ok a b Ha Hb Oa). split; [congruence|]. intros i y Hy. split.
    + intros x Hx. apply H1 in Hx. apply H2 in Hy. unfold specifies in *. congruence.
    + intros q Hq. apply H1 in Hq. apply H2 in Hy. eapply Od; eauto.
  - split.
  { intros E. apply subset_true; auto. destruct (combine_gives a b Ha Hb Oa) as [(C & c' & E' & J)|[_ E']]; rewrite E in E'; [|discriminate].
    injection E' as <-. split; [apply C|]. intros p x Hp. apply J; auto. }
  { intros S. apply subset_true in S as [L H]; auto. apply combine_joined; auto.
    + split; auto. intros i y Hy. apply H in Hy. split; [|intros q Hq; eapply Oa; eauto].
      intros x Hx. unfold specifies in *. congruence.
    + split; auto. intros p x. split; auto. intros [G|G]; auto. }
Qed.

Lemma pf_C97_matches_and_full_rows :
  forall m r, valid_row r -> m <> [] ->
    mask_matches m r = mask_is_subset_of (mask_full_row r) m /\
    mask_matches m r = mask_is_compatible_with (mask_full_row r) m /\
    (mask_matches m r = Ret true -> mask_combine (mask_full_row r) m = Ret (Some (mask_full_row r))) /\
    (mask_matches m r = Ret false -> mask_combine (mask_full_row r) m = Ret None).
Proof.
  intros m r V Hm. destruct (mask_matches_ok m r Hm V) as (v & E & Hv).
  assert (Hr : mask_full_row r <> []) by (destruct V as [V _]; destruct r; [congruence|discriminate]).
  assert (Or : each_bell_once (mask_full_row r)).
  { intros p q b Hp Hq. rewrite specifies_full in Hp, Hq. eapply NoDup_nth_error_inj; eauto. apply V. }
  assert (Lr : length (mask_full_row r) = length r) by apply map_length.
  destruct (mask_subset_ok (mask_full_row r) m Hr Hm) as (w & Ew & Hw).
  destruct (mask_compat_ok (mask_full_row r) m Hr Hm Or) as (u & Eu & Hu).
  assert (Fc : fits m r <-> compat (mask_full_row r) m).
  { split.
    - intros [L F]. split; [congruence|]. intros i y Hy. apply F in Hy. split.
      + intros x Hx. rewrite specifies_full in Hx. congruence.
      + intros q Hq. rewrite specifies_full in Hq. eapply NoDup_nth_error_inj; eauto. apply V.
    - intros [L C]. split; [congruence|]. intros p b Hp. destruct (C p b Hp) as [C1 _].
      destruct (nth_error r p) as [x|] eqn:Ex.
      + f_equal. apply C1. apply specifies_full; auto.
      + apply nth_error_None in Ex. apply specifies_lt in Hp. lia. }
  assert (Fs : fits m r <-> length (mask_full_row r) = length m /\ (forall p y, specifies m p y -> specifies (mask_full_row r) p y)).
  { unfold fits. rewrite Lr. split; intros [L F]; (split; [auto|]); intros p b Hp; apply F in Hp; rewrite ?specifies_full in *; auto. }
  split; [|split].
  - rewrite E, Ew. f_equal. apply Bool.eq_iff_eq_true. tauto.
  - rewrite E, Eu. f_equal. apply Bool.eq_iff_eq_true. tauto.
  - rewrite E. split; intros [= ->].
    + apply combine_joined; auto; [tauto|]. split; auto. intros p x. split; auto. intros [G|G]; auto. apply Fs; tauto.
    + apply combine_none; auto. intros C. apply Fc, Hv in C. discriminate.
Qed.

Lemma pf_C97_products_are_actions :
  forall m r s t, valid_row r -> valid_row s -> length m = length r -> length s = length r -> composition r s t ->
    (m1 <- mask_mul_row m r;; mask_mul_row m1 s) = mask_mul_row m t /\
    (m1 <- row_mul_mask s m;; row_mul_mask r m1) = row_mul_mask t m /\
    (m1 <- row_mul_mask r m;; mask_mul_row m1 s) = (m1 <- mask_mul_row m s;; row_mul_mask r m1).
Proof.
  intros m r s t Vr Vs Lm Ls Ct.
  assert (Vt : valid_row t).
  { rewrite (composition_fun _ _ _ Ct). apply (valid_rmul (length r)); split; auto. }
  assert (Lt : length t = length r) by (destruct Ct; congruence).
  splits.
  - destruct (mul_row_places m r Vr Lm) as (m1 & E1 & L1 & H1). rewrite E1. cbn [bind].
    destruct (mul_row_places m1 s Vs ltac:(congruence)) as (m2 & E2 & L2 & H2). rewrite E2.
    destruct (mul_row_places m t Vt ltac:(congruence)) as (m3 & E3 & L3 & H3). rewrite E3. f_equal.
    apply nth_error_ext. intros p. rewrite H2, H3. destruct (nth_error s p) as [q|] eqn:Eq.
    + destruct Ct as [_ Ct]. destruct (Ct p q Eq) as (y & Hy & Hp). rewrite H1, Hy, Hp. reflexivity.
    + apply nth_error_None in Eq. destruct (nth_error t p) eqn:Et; auto.
      assert (p < length t) by (apply nth_error_Some; congruence). lia.
  - destruct (mask_range_dec m (length r)) as [R|(p & b & Hp & G)].
    + destruct (row_mul_mask_ok s m Vs ltac:(congruence) ltac:(rewrite Ls; auto)) as (m1 & E1 & L1 & H1). rewrite E1. cbn [bind].
      assert (R1 : forall p b, specifies m1 p b -> b < length r).
      { intros p b Hp. apply (lmul_specifies s m m1 H1) in Hp as (x & _ & Hx). rewrite <- Ls. eapply valid_row_nth_error_lt; eauto. }
      destruct (row_mul_mask_ok r m1 Vr ltac:(congruence) R1) as (m2 & E2 & L2 & H2). rewrite E2.
      destruct (row_mul_mask_ok t m Vt ltac:(congruence) ltac:(rewrite Lt; auto)) as (m3 & E3 & L3 & H3). rewrite E3. f_equal.
      apply nth_error_ext. intros p. rewrite H2, H3, H1. destruct (nth_error m p) as [[b|]|] eqn:Em; auto.
      destruct (nth_error s b) as [x|] eqn:Ex; cbn.
      * destruct Ct as [_ Ct]. destruct (Ct b x Ex) as (y & Hy & Ht). rewrite Hy, Ht. reflexivity.
      * apply nth_error_None in Ex. specialize (R p b Em). lia.
    + rewrite (row_mul_mask_range_panic s m p b) by (auto; try congruence; lia). cbn [bind].
      symmetry. apply (row_mul_mask_range_panic t m p b); auto; try congruence; lia.
  - destruct (mul_row_places m s Vs ltac:(congruence)) as (m1 & E1 & L1 & H1). rewrite E1. cbn [bind].
    destruct (mask_range_dec m (length r)) as [R|(p & b & Hp & G)].
    + destruct (row_mul_mask_ok r m Vr Lm R) as (m2 & E2 & L2 & H2). rewrite E2. cbn [bind].
      destruct (mul_row_places m2 s Vs ltac:(congruence)) as (m3 & E3 & L3 & H3). rewrite E3.
      assert (R1 : forall p b, specifies m1 p b -> b < length r).
      { intros p b Hp. apply (mul_specifies m s m1 Vs ltac:(congruence) H1) in Hp as (q & _ & Hq). eauto. }
      destruct (row_mul_mask_ok r m1 Vr ltac:(congruence) R1) as (m4 & E4 & L4 & H4). rewrite E4. f_equal.
      apply nth_error_ext. intros p. rewrite H3, H4, H1. destruct (nth_error s p) as [q|]; auto.
    + rewrite (row_mul_mask_range_panic r m p b); auto. cbn [bind].
      destruct (valid_onto s Vs p) as (q & Hq); [apply specifies_lt in Hp; congruence|].
      symmetry. apply (row_mul_mask_range_panic r m1 q b); auto; try congruence.
      unfold specifies. rewrite H1, Hq. exact Hp.
Qed.

Lemma pf_C97_products_with_rows :
  forall m r s t, valid_row r -> valid_row s -> length m = length r -> length s = length r -> composition r s t ->
    mask_mul_row m (seq 0 (length m)) = Ret m /\
    ((forall p b, specifies m p b -> b < length m) -> row_mul_mask (seq 0 (length m)) m = Ret m) /\
    (t = seq 0 (length r) -> (m1 <- mask_mul_row m r;; mask_mul_row m1 s) = Ret m) /\
    (t = seq 0 (length r) -> (forall p b, specifies m p b -> b < length m) -> (m1 <- row_mul_mask s m;; row_mul_mask r m1) = Ret m) /\
    mask_mul_row (mask_full_row r) s = Ret (mask_full_row t) /\
    row_mul_mask r (mask_full_row s) = Ret (mask_full_row t) /\
    mask_as_row (mask_full_row t) = Ret (Some t).
Proof.
  intros m r s t Vr Vs Lm Ls Ct.
  assert (Vt : valid_row t).
  { rewrite (composition_fun _ _ _ Ct). apply (valid_rmul (length r)); split; auto. }
  assert (Lt : length t = length r) by (destruct Ct; congruence).
  assert (Pos : 0 < length m) by (rewrite Lm; apply valid_row_pos; auto).
  assert (V0 : valid_row (seq 0 (length m))).
  { apply valid_row_perm. split; [destruct (length m); [lia|discriminate]|]. rewrite seq_length. auto. }
  assert (Ns : forall n k, k < n -> nth_error (seq 0 n) k = Some k).
  { intros n k K. rewrite (nth_error_nth' _ 0) by (rewrite seq_length; lia). rewrite seq_nth; auto. }
  assert (I1 : mask_mul_row m (seq 0 (length m)) = Ret m).
  { destruct (mul_row_places m _ V0 ltac:(rewrite seq_length; auto)) as (m' & E & L & H). rewrite E. f_equal.
    apply nth_error_ext. intros p. rewrite H. destruct (Nat.ltb_spec p (length m)) as [K|K]; [rewrite Ns; auto|].
    rewrite (proj2 (nth_error_None (seq 0 (length m)) p)) by (rewrite seq_length; auto). symmetry. apply nth_error_None. auto. }
  assert (I2 : (forall p b, specifies m p b -> b < length m) -> row_mul_mask (seq 0 (length m)) m = Ret m).
  { intros R. destruct (row_mul_mask_ok (seq 0 (length m)) m V0 ltac:(rewrite seq_length; auto) ltac:(rewrite seq_length; auto))
      as (m' & E & L & H). rewrite E. f_equal.
    apply nth_error_ext. intros p. rewrite H. destruct (nth_error m p) as [[b|]|] eqn:Em; auto. rewrite Ns; eauto. }
  destruct (pf_C97_products_are_actions m r s t Vr Vs Lm Ls Ct) as (A1 & A2 & _).
  splits; auto.
  - intros ->. rewrite A1, <- Lm. auto.
  - intros -> R. rewrite A2, <- Lm. auto.
  - assert (Lf : length (mask_full_row r) = length s) by (unfold mask_full_row; rewrite map_length; congruence).
    destruct (mul_row_places (mask_full_row r) s Vs Lf) as (m' & E & L & H). rewrite E. f_equal.
    apply nth_error_ext. intros p. rewrite H. unfold mask_full_row. rewrite nth_error_map.
    destruct (nth_error s p) as [q|] eqn:Eq.
    + destruct Ct as [_ Ct]. destruct (Ct p q Eq) as (y & Hy & Hp). rewrite nth_error_map, Hy, Hp. reflexivity.
    + apply nth_error_None in Eq. rewrite (proj2 (nth_error_None t p)) by lia. reflexivity.
  - assert (R : forall p b, specifies (mask_full_row s) p b -> b < length r).
    { intros p b Hp. rewrite specifies_full in Hp. rewrite <- Ls. eapply valid_row_nth_error_lt; eauto. }
    destruct (row_mul_mask_ok r (mask_full_row s) Vr ltac:(unfold mask_full_row; rewrite map_length; congruence) R) as (m' & E & L & H).
    rewrite E. f_equal. apply nth_error_ext. intros p. rewrite H. unfold mask_full_row. rewrite !nth_error_map.
    destruct (nth_error s p) as [q|] eqn:Eq; cbn.
    + destruct Ct as [_ Ct]. destruct (Ct p q Eq) as (y & Hy & Hp). rewrite Hy, Hp. reflexivity.
    + apply nth_error_None in Eq. rewrite (proj2 (nth_error_None t p)) by lia. reflexivity.
  - unfold mask_as_row, mask_full_row.
    replace (forallb _ (map Some t)) with true; [|symmetry; apply forallb_forall; intros x Hx; apply in_map_iff in Hx as (y & <- & _); auto].
    enough (E : mapM unwrap (map Some t) = Ret t) by (rewrite E; reflexivity).
    clear. induction t as [|x t IH]; auto. cbn. rewrite IH. reflexivity.
Qed.

Lemma pf_C97_products_keep_the_order :
  forall a b r, valid_row r -> well_formed_mask a -> well_formed_mask b -> length a = length r -> length b = length r ->
    exists a1 b1 a2 b2,
      mask_mul_row a r = Ret a1 /\ mask_mul_row b r = Ret b1 /\ row_mul_mask r a = Ret a2 /\ row_mul_mask r b = Ret b2 /\
      mask_is_subset_of a1 b1 = mask_is_subset_of a b /\ mask_is_subset_of a2 b2 = mask_is_subset_of a b /\
      mask_is_compatible_with a1 b1 = mask_is_compatible_with a b /\ mask_is_compatible_with a2 b2 = mask_is_compatible_with a b /\
      mask_combine a1 b1 = (o <- mask_combine a b;; match o with Some c => c1 <- mask_mul_row c r;; Ret (Some c1) | None => Ret None end) /\
      mask_combine a2 b2 = (o <- mask_combine a b;; match o with Some c => c2 <- row_mul_mask r c;; Ret (Some c2) | None => Ret None end).
Proof.
  intros a b r V (Na & Oa & Ra) (Nb & Ob & Rb) La Lb.
  rewrite La in Ra. rewrite Lb in Rb.
  destruct (mul_row_places a r V La) as (a1 & Ea1 & La1 & Ha1). destruct (mul_row_places b r V Lb) as (b1 & Eb1 & Lb1 & Hb1).
  destruct (row_mul_mask_ok r a V La Ra) as (a2 & Ea2 & La2 & Ha2). destruct (row_mul_mask_ok r b V Lb Rb) as (b2 & Eb2 & Lb2 & Hb2).
  pose proof (mul_specifies a r a1 V La Ha1) as Sa1. pose proof (mul_specifies b r b1 V Lb Hb1) as Sb1.
  pose proof (lmul_specifies r a a2 Ha2) as Sa2. pose proof (lmul_specifies r b b2 Hb2) as Sb2.
  exists a1, b1, a2, b2.
  assert (NE : forall m : list (option nat), length m = length r -> m <> []) by (intros m L; eapply mask_nonempty; eauto).
  assert (Inj : forall p p' q, nth_error r p = Some q -> nth_error r p' = Some q -> p = p').
  { intros p p' q. apply NoDup_nth_error_inj, V. }
  assert (Fu : forall p q q', nth_error r p = Some q -> nth_error r p = Some q' -> q = q') by (intros; congruence).
  assert (On : forall q, q < length r -> exists p, nth_error r p = Some q) by (apply valid_onto; auto).
  assert (To : forall x, x < length r -> exists y, nth_error r x = Some y).
  { intros x K. destruct (nth_error r x) eqn:E; eauto. apply nth_error_None in E. lia. }
  assert (O1 : each_bell_once a1).
  { intros p q x Hp Hq. apply Sa1 in Hp as (p' & Hp & Gp). apply Sa1 in Hq as (q' & Hq & Gq).
    assert (p' = q') by (eapply Oa; eauto). subst. eauto. }
  assert (O2 : each_bell_once a2).
  { intros p q x Hp Hq. apply Sa2 in Hp as (p' & Hp & Gp). apply Sa2 in Hq as (q' & Hq & Gq).
    assert (p' = q') by eauto. subst. eapply Oa; eauto. }
  assert (C1 : compat a1 b1 <-> compat a b).
  { apply (compat_map a b a1 b1 (length r) (fun p q => nth_error r p = Some q)); auto. }
  assert (C2 : compat a2 b2 <-> compat a b).
  { unfold compat. rewrite La2, Lb2. split; intros [L C]; (split; [auto|]).
    - intros i y Hy. destruct (To y) as (y' & Hy'); [eauto|]. destruct (C i y') as [K1 K2]; [apply Sb2; eauto|]. split.
      + intros x Hx. destruct (To x) as (x' & Hx'); [eauto|]. assert (x' = y') by (apply K1, Sa2; eauto). subst. eauto.
      + intros q Hq. apply K2, Sa2. eauto.
    - intros i y Hy. apply Sb2 in Hy as (z & Hz & Gz). destruct (C i z Hz) as [K1 K2]. split.
      + intros x Hx. apply Sa2 in Hx as (w & Hw & Gw). rewrite (K1 w Hw) in Gw. congruence.
      + intros q Hq. apply Sa2 in Hq as (w & Hw & Gw). assert (w = z) by eauto. subst. auto. }
  assert (Na1 : a1 <> []) by (apply NE; congruence). assert (Nb1 : b1 <> []) by (apply NE; congruence).
  assert (Na2 : a2 <> []) by (apply NE; congruence). assert (Nb2 : b2 <> []) by (apply NE; congruence).
  splits; auto.
  - apply subset_iff; auto. rewrite La1, Lb1. split; intros [L H]; (split; [auto|]).
    + intros q x Hq. destruct (On q) as (p & Hp); [apply specifies_lt in Hq; congruence|].
      assert (G : specifies a1 p x) by (apply H, Sb1; eauto). apply Sa1 in G as (q' & Hq' & G). rewrite Hp in Hq'. injection Hq' as <-. auto.
    + intros p x Hp. apply Sb1 in Hp as (q & Hq & Hp). apply Sa1. eauto.
  - apply subset_iff; auto. rewrite La2, Lb2. split; intros [L H]; (split; [auto|]).
    + intros p x Hp. destruct (To x) as (y & Hy); [eauto|]. assert (G : specifies a2 p y) by (apply H, Sb2; eauto).
      apply Sa2 in G as (x' & G & Hx). assert (x' = x) by eauto. subst. auto.
    + intros p y Hp. apply Sb2 in Hp as (x & Hx & Hy). apply Sa2. eauto.
  - destruct (mask_compat_ok a b Na Nb Oa) as (v & -> & Hv). destruct (mask_compat_ok a1 b1 Na1 Nb1 O1) as (w & -> & Hw).
    f_equal. apply Bool.eq_iff_eq_true. tauto.
  - destruct (mask_compat_ok a b Na Nb Oa) as (v & -> & Hv). destruct (mask_compat_ok a2 b2 Na2 Nb2 O2) as (w & -> & Hw).
    f_equal. apply Bool.eq_iff_eq_true. tauto.
  - destruct (combine_gives a b Na Nb Oa) as [(C & c & E & J)|[C E]]; rewrite E; cbn [bind].
    + destruct J as [Lc J]. destruct (mul_row_places c r V ltac:(congruence)) as (c1 & Ec & Lc1 & Hc1). rewrite Ec. cbn [bind].
      pose proof (mul_specifies c r c1 V ltac:(congruence) Hc1) as Sc1.
      apply combine_joined; auto; [tauto|]. split; [congruence|]. intros p x. rewrite Sc1, Sa1, Sb1. split.
      * intros (q & Hq & G). apply J in G as [G|G]; [left|right]; eauto.
      * intros [(q & Hq & G)|(q & Hq & G)]; exists q; split; auto; apply J; auto.
    + apply combine_none; auto. tauto.
  - destruct (combine_gives a b Na Nb Oa) as [(C & c & E & J)|[C E]]; rewrite E; cbn [bind].
    + destruct J as [Lc J].
      destruct (row_mul_mask_ok r c V ltac:(congruence)) as (c2 & Ec & Lc2 & Hc2); [intros p x Hp; apply J in Hp as [Hp|Hp]; eauto|].
      rewrite Ec. cbn [bind]. pose proof (lmul_specifies r c c2 Hc2) as Sc2.
      apply combine_joined; auto; [tauto|]. split; [congruence|]. intros p y. rewrite Sc2, Sa2, Sb2. split.
      * intros (q & G & Hq). apply J in G as [G|G]; [left|right]; eauto.
      * intros [(q & G & Hq)|(q & G & Hq)]; exists q; split; auto; apply J; auto.
    + apply combine_none; auto. tauto.
Qed.

Lemma pf_C97_fix_bells :
  forall s bs cs, 0 < s -> Forall (fun b => b < s) bs -> Forall (fun b => b < s) cs ->
    (exists b c d, mask_fix_bells s bs = Ret b /\ mask_fix_bells s cs = Ret c /\ mask_fix_bells s (bs ++ cs) = Ret d /\
       mask_combine b c = Ret (Some d)) /\
    ((forall x, In x bs <-> In x cs) -> mask_fix_bells s bs = mask_fix_bells s cs) /\
    mask_fix_bells s [] = Ret (mask_empty s) /\
    ((forall x, x < s -> In x bs) -> mask_fix_bells s bs = Ret (mask_full_row (seq 0 s))).
Proof.
  intros s bs cs S Hb Hc.
  assert (D : Forall (fun b => b < s) (bs ++ cs)) by (apply Forall_app; auto).
  destruct (pf_C50_fix_bells s bs S) as [Fb _]. destruct (Fb Hb) as (b & Eb & Lb & Wb & Sb).
  destruct (pf_C50_fix_bells s cs S) as [Fc _]. destruct (Fc Hc) as (c & Ec & Lc & Wc & Sc).
  destruct (pf_C50_fix_bells s (bs ++ cs) S) as [Fd _]. destruct (Fd D) as (d & Ed & Ld & Wd & Sd).
  splits; auto.
  - exists b, c, d. splits; auto. apply combine_joined; try apply Wb; try apply Wc.
    + split; [congruence|]. intros i y Hy. apply Sc in Hy as [-> Hy]. split.
      * intros x Hx. apply Sb in Hx as [Hx _]. auto.
      * intros q Hq. apply Sb in Hq as [Hq _]. auto.
    + split; [congruence|]. intros p x. rewrite Sb, Sc, Sd, in_app_iff. tauto.
  - intros H. rewrite Eb, Ec. f_equal. apply mask_ext; [congruence|]. intros p x. rewrite Sb, Sc, H. tauto.
  - intros H. rewrite Eb. f_equal. apply mask_ext; [unfold mask_full_row; rewrite map_length, seq_length; auto|].
    intros p x. rewrite Sb, specifies_full. split.
    + intros [-> Hx]. rewrite Forall_forall in Hb. specialize (Hb _ Hx).
      rewrite (nth_error_nth' _ 0) by (rewrite seq_length; lia). rewrite seq_nth; auto.
    + intros E. assert (p < s) by (rewrite <- (seq_length s 0); apply nth_error_Some; congruence).
      rewrite (nth_error_nth' _ 0) in E by (rewrite seq_length; lia). rewrite seq_nth in E by lia. injection E as <-. split; auto.
Qed.
