(** Proofs about the operations on masks. *)
From Verif Require Import Base Bell Stage Row Block Music Mask Spec SpecMask ListFacts BellFacts RowFacts MulFacts BlockFacts MaskFacts.
Local Open Scope list_scope.

Lemma zip_combine {X Y} (l : list X) (m : list Y) : length l = length m -> zip_eq l m = Ret (combine l m).
Proof. revert m; induction l as [|x l IH]; intros [|y m] H; cbn in *; try discriminate; auto. rewrite IH by lia. reflexivity. Qed.

Lemma nth_error_combine {X Y} (l : list X) (m : list Y) i x y :
  nth_error (combine l m) i = Some (x, y) <-> nth_error l i = Some x /\ nth_error m i = Some y.
Proof.
  revert m i; induction l as [|a l IH]; intros [|b m] [|i]; cbn; try (split; [discriminate|intros [? ?]; discriminate]).
  - split; [intros [= -> ->]; auto|intros [[= ->] [= ->]]; auto].
  - apply IH.
Qed.

Lemma mask_stage_ok m : m <> [] -> mask_stage m = Ret (length m).
Proof. intros H. apply stage_new_pos. destruct m; [congruence|cbn; lia]. Qed.

Lemma mask_stage_empty : mask_stage [] = Panic.
Proof. reflexivity. Qed.

(** ** matches *)

Lemma matches_loop_ok m r : length m = length r -> (mask_matches_loop (combine m r) = true <-> fits m r).
Proof.
  revert r; induction m as [|[c|] m IH]; intros [|b r] L; try discriminate L; cbn [combine mask_matches_loop].
  - split; auto. intros _. apply fits_nil; auto.
  - rewrite fits_cons. destruct (Nat.eqb_spec c b).
    + rewrite IH by (cbn in L; lia). tauto.
    + split; [discriminate|tauto].
  - rewrite fits_cons, IH by (cbn in L; lia). tauto.
Qed.

Lemma mask_matches_ok m r : m <> [] -> valid_row r -> exists v, mask_matches m r = Ret v /\ (v = true <-> fits m r).
Proof.
  intros Hm V. unfold mask_matches. rewrite mask_stage_ok, valid_row_stage by auto. cbn [bind].
  destruct (Nat.eqb_spec (length m) (length r)) as [E|E]; cbn [negb].
  - rewrite zip_combine by auto. cbn [bind]. exists (mask_matches_loop (combine m r)). split; auto. apply matches_loop_ok; auto.
  - exists false. split; auto. split; [discriminate|]. intros [L _]. congruence.
Qed.

(** ** Lookup *)

Lemma obell_eqb_eq a b : obell_eqb a b = true <-> a = b.
Proof.
  destruct a as [a|], b as [b|]; cbn; try (split; congruence). rewrite Nat.eqb_eq. split; congruence.
Qed.

Lemma mask_position_Some m b p : mask_place_of m b = Some p -> specifies m p b.
Proof.
  unfold mask_place_of. rewrite position_Some. intros [(x & Hx & E) _]. apply obell_eqb_eq in E; subst. exact Hx.
Qed.

Lemma mask_position_None m b : mask_place_of m b = None <-> forall p, ~ specifies m p b.
Proof.
  unfold mask_place_of. rewrite position_None. split.
  - intros H p Hp. specialize (H (Some b) (nth_error_In _ _ Hp)). apply not_true_iff_false in H. apply H, obell_eqb_eq; auto.
  - intros H x Hx. apply not_true_iff_false. intros E. apply obell_eqb_eq in E; subst.
    apply In_nth_error in Hx as [p Hp]. apply (H p), Hp.
Qed.

Lemma mask_place_once m b p : each_bell_once m -> (mask_place_of m b = Some p <-> specifies m p b).
Proof.
  intros O. split; [apply mask_position_Some|]. intros H. destruct (mask_place_of m b) as [q|] eqn:E.
  - apply mask_position_Some in E. f_equal. eapply O; eauto.
  - exfalso. eapply (proj1 (mask_position_None m b)); eauto.
Qed.

Lemma mask_place_first m b p :
  mask_place_of m b = Some p <-> specifies m p b /\ forall q, specifies m q b -> p <= q.
Proof.
  unfold mask_place_of. rewrite position_Some. split.
  - intros [(x & Hx & E) F]. apply obell_eqb_eq in E; subst. split; [exact Hx|].
    intros q Hq. destruct (le_lt_dec p q); auto. specialize (F q (Some b) ltac:(lia) Hq).
    apply not_true_iff_false in F. exfalso; apply F, obell_eqb_eq; auto.
  - intros [H F]. split; [exists (Some b); split; [exact H|apply obell_eqb_eq; auto]|].
    intros j x Hj Hx. apply not_true_iff_false. intros E. apply obell_eqb_eq in E; subst.
    specialize (F j Hx). lia.
Qed.

Lemma unspecified_from n m p :
  In p (map fst (filter (fun '(_, b) => match b with None => true | Some _ => false end) (enumerate_from n m))) <->
  n <= p /\ leaves_open m (p - n).
Proof.
  rewrite in_map_iff. split.
  - intros ((i & x) & <- & H). apply filter_In in H as [H E]. destruct x; [discriminate|].
    apply In_enumerate_from in H. exact H.
  - intros [H1 H2]. exists (p, None). split; auto. apply filter_In. split; auto. apply In_enumerate_from. auto.
Qed.

Lemma In_unspecified m p : In p (mask_unspecified_places m) <-> leaves_open m p.
Proof. unfold mask_unspecified_places, enumerate. rewrite unspecified_from, Nat.sub_0_r. intuition lia. Qed.

Lemma length_unspecified m : length (mask_unspecified_places m) = nopen m.
Proof.
  unfold mask_unspecified_places, nopen, enumerate. rewrite map_length. generalize 0.
  induction m as [|[b|] m IH]; intros n; cbn; auto.
Qed.

Lemma ascending_cons x l : (forall y, In y l -> x < y) -> ascending l -> ascending (x :: l).
Proof.
  intros H A [|i] [|j] a b Hij Ha Hb; try lia; cbn in *.
  - injection Ha as <-. apply H. eapply nth_error_In; eauto.
  - eapply (A i j); eauto. lia.
Qed.

Lemma unspecified_ascending m : ascending (mask_unspecified_places m).
Proof.
  unfold mask_unspecified_places, enumerate. generalize 0.
  induction m as [|[b|] m IH]; intros n; cbn; auto.
  - intros [|i] j x y; discriminate.
  - apply ascending_cons; auto. intros y Hy. apply unspecified_from in Hy. lia.
Qed.

Lemma mask_is_empty_ok m : mask_is_empty m = true <-> forall p b, ~ specifies m p b.
Proof.
  unfold mask_is_empty. rewrite forallb_forall. split.
  - intros H p b Hp. specialize (H _ (nth_error_In _ _ Hp)). discriminate.
  - intros H [b|] Hx; auto. apply In_nth_error in Hx as [p Hp]. exfalso; eapply H; eauto.
Qed.

(** ** as_row *)

Lemma mask_as_row_ok m :
  (nopen m = 0 -> mask_as_row m = Ret (Some (mbells m))) /\ (nopen m <> 0 -> mask_as_row m = Ret None).
Proof.
  unfold mask_as_row. split; intros H.
  - assert (F : forallb (fun b => match b with Some _ => true | None => false end) m = true /\ mapM unwrap m = Ret (mbells m)).
    { unfold nopen, mbells in *. induction m as [|[b|] m IH]; cbn in *; auto; [|discriminate].
      destruct (IH H) as [F E]. rewrite F, E. auto. }
    destruct F as [-> ->]. reflexivity.
  - assert (forallb (fun b => match b with Some _ => true | None => false end) m = false) as ->; auto.
    unfold nopen in H. induction m as [|[b|] m IH]; cbn in *; auto; try lia.
Qed.

Lemma nopen_0 m : nopen m = 0 <-> forall p, ~ leaves_open m p.
Proof.
  rewrite <- length_unspecified. split.
  - intros H p Hp. apply In_unspecified in Hp. destruct (mask_unspecified_places m); [destruct Hp|discriminate].
  - intros H. destruct (mask_unspecified_places m) as [|p l] eqn:E; auto.
    exfalso. apply (H p), In_unspecified. rewrite E; left; auto.
Qed.

Lemma full_fits m r : nopen m = 0 -> (fits m r <-> r = mbells m).
Proof.
  unfold nopen, mbells. revert r; induction m as [|[b|] m IH]; cbn; intros r H.
  - apply fits_nil.
  - destruct r as [|c r]; [split; [intros [L _]; discriminate L|discriminate]|].
    rewrite fits_cons, IH by auto. split; [intros [-> ->]; auto|intros [= -> ->]; auto].
  - discriminate.
Qed.

(** Exchanging the bells of two open places of a row that fits gives another. *)
Lemma upd2_fits m r p q x y : fits m r -> leaves_open m p -> leaves_open m q ->
  fits m (upd (upd r p x) q y).
Proof.
  intros [L F] Hp Hq. split; [rewrite !length_upd; auto|]. intros i b Hi.
  rewrite !nth_error_upd_other; [apply F; auto| |]; intros ->; unfold specifies, leaves_open in *; congruence.
Qed.

Lemma open_lt m p : leaves_open m p -> p < length m.
Proof. intros H. apply nth_error_Some. unfold leaves_open in H. congruence. Qed.

Lemma two_open m : 2 <= nopen m -> forall p, leaves_open m p -> exists q, leaves_open m q /\ q <> p.
Proof.
  rewrite <- length_unspecified. intros H p Hp.
  assert (N : NoDup (mask_unspecified_places m)).
  { apply NoDup_nth_error. intros i j Hi E. pose proof (unspecified_ascending m) as A.
    destruct (nth_error (mask_unspecified_places m) i) as [x|] eqn:Ei; [|apply nth_error_None in Ei; lia].
    destruct (lt_eq_lt_dec i j) as [[K|K]|K]; auto; exfalso; [specialize (A i j x x K Ei (eq_sym E))|specialize (A j i x x K (eq_sym E) Ei)]; lia. }
  destruct (mask_unspecified_places m) as [|a [|b l]] eqn:E; cbn in H; try lia.
  assert (Ha : leaves_open m a) by (apply In_unspecified; rewrite E; left; auto).
  assert (Hb : leaves_open m b) by (apply In_unspecified; rewrite E; right; left; auto).
  destruct (Nat.eq_dec a p) as [->|]; [|eauto]. exists b. split; auto. intros ->.
  inversion N as [|? ? Nx _]; subst. apply Nx; left; auto.
Qed.

Lemma other_row m r p q : valid_row r -> fits m r -> leaves_open m p -> leaves_open m q -> p <> q ->
  exists r', valid_row r' /\ fits m r' /\ nth_error r' p <> nth_error r p.
Proof.
  intros V F Hp Hq D. pose proof (open_lt _ _ Hp) as Lp. pose proof (open_lt _ _ Hq) as Lq.
  pose proof (proj1 F) as L.
  set (x := nth p r 0). set (y := nth q r 0).
  exists (upd (upd r p y) q x). splits.
  - apply valid_row_iff. splits.
    + apply valid_row_pos in V. intros K. apply (f_equal (@length nat)) in K. rewrite !length_upd in K. cbn in K; lia.
    + apply NoDup_nth_error. rewrite !length_upd. pose proof (valid_row_NoDup _ V) as N.
      intros i j Hi E2. rewrite !nth_error_upd, !length_upd in E2.
      assert (Np : nth_error r p = Some x) by (apply nth_error_nth'; lia).
      assert (Nq : nth_error r q = Some y) by (apply nth_error_nth'; lia).
      pose proof (proj1 (NoDup_nth_error r) N) as I.
      assert (IP : forall k, k < length r -> nth_error r k = Some x -> k = p) by (intros k Hk Ek; apply I; congruence).
      assert (IQ : forall k, k < length r -> nth_error r k = Some y -> k = q) by (intros k Hk Ek; apply I; congruence).
      assert (Bp : (p <? length r) = true) by (apply Nat.ltb_lt; lia).
      assert (Bq : (q <? length r) = true) by (apply Nat.ltb_lt; lia).
      rewrite Bp, Bq, !andb_true_r in E2.
      assert (Hj : j < length r).
      { apply nth_error_Some. destruct (Nat.eqb_spec j q); [subst; congruence|]. destruct (Nat.eqb_spec j p); [subst; congruence|].
        rewrite <- E2. destruct (Nat.eqb_spec i q); [discriminate|].
        destruct (Nat.eqb_spec i p); [discriminate|]. apply nth_error_Some; auto. }
      destruct (Nat.eqb_spec i q), (Nat.eqb_spec j q), (Nat.eqb_spec i p), (Nat.eqb_spec j p); try congruence; auto;
      try (exfalso; match goal with
        | E : Some x = Some y |- _ => assert (p = q) by (apply I; congruence); congruence
        | E : Some y = Some x |- _ => assert (p = q) by (apply I; congruence); congruence
        | E : Some x = nth_error r ?k |- _ => assert (k = p) by (apply IP; auto); congruence
        | E : nth_error r ?k = Some x |- _ => assert (k = p) by (apply IP; auto); congruence
        | E : Some y = nth_error r ?k |- _ => assert (k = q) by (apply IQ; auto); congruence
        | E : nth_error r ?k = Some y |- _ => assert (k = q) by (apply IQ; auto); congruence
        end).
    + apply Forall_forall. rewrite !length_upd. intros z Hz. apply In_nth_error in Hz as [k Hk].
      rewrite !nth_error_upd, !length_upd in Hk.
      assert (K : x < length r /\ y < length r) by (split; apply valid_row_nth_lt; auto; lia).
      destruct ((k =? q) && _); [injection Hk as <-; tauto|].
      destruct ((k =? p) && _); [injection Hk as <-; tauto|].
      eapply valid_row_nth_error_lt; eauto.
  - apply upd2_fits; auto.
  - rewrite nth_error_upd_other by auto. rewrite nth_error_upd_same by lia.
    rewrite (nth_error_nth' r 0) by lia. intros [= E]. fold x in E.
    apply D. apply (proj1 (NoDup_nth r 0) (valid_row_NoDup _ V)); try lia; symmetry; exact E.
Qed.

(** ** is_subset_of *)

Lemma subset_loop_ok a b : length a = length b ->
  (mask_subset_loop (combine a b) = true <-> forall p y, specifies b p y -> specifies a p y).
Proof.
  revert b; induction a as [|x a IH]; intros [|y b] L; try discriminate L.
  - split; auto.
  - cbn [combine mask_subset_loop]. cbn in L.
    assert (K : (forall p z, specifies (y :: b) p z -> specifies (x :: a) p z) <->
      (forall z, y = Some z -> x = Some z) /\ (forall p z, specifies b p z -> specifies a p z)).
    { split.
      - intros H. split; [intros z ->; apply (specifies_cons_0 x a), H; reflexivity|]. intros p z. apply (H (S p) z).
      - intros [H1 H2] [|p] z Hp; [apply specifies_cons_0 in Hp; apply specifies_cons_0; auto|apply H2, Hp]. }
    rewrite K. destruct x as [x|], y as [y|].
    + destruct (Nat.eqb_spec x y) as [->|D]; cbn [negb].
      * rewrite IH by lia. intuition.
      * split; [discriminate|]. intros [H _]. specialize (H y eq_refl). congruence.
    + rewrite IH by lia. split; [intros H; split; [discriminate|auto]|tauto].
    + split; [discriminate|]. intros [H _]. specialize (H y eq_refl). discriminate.
    + rewrite IH by lia. split; [intros H; split; [discriminate|auto]|tauto].
Qed.

Lemma mask_subset_ok a b : a <> [] -> b <> [] ->
  exists v, mask_is_subset_of a b = Ret v /\
    (v = true <-> length a = length b /\ forall p y, specifies b p y -> specifies a p y).
Proof.
  intros Ha Hb. unfold mask_is_subset_of. rewrite !mask_stage_ok by auto. cbn [bind].
  destruct (Nat.eqb_spec (length a) (length b)) as [E|E]; cbn [negb].
  - rewrite zip_combine by auto. cbn [bind]. eexists; split; auto. rewrite subset_loop_ok by auto. tauto.
  - exists false. split; auto. split; [discriminate|tauto].
Qed.

Lemma specifies_dec m p : (exists b, specifies m p b) \/ leaves_open m p \/ length m <= p.
Proof.
  unfold specifies, leaves_open. destruct (nth_error m p) as [[b|]|] eqn:E; eauto.
  apply nth_error_None in E. auto.
Qed.

Lemma subset_complete a b : well_formed_mask a -> (forall r, valid_row r -> fits a r -> fits b r) ->
  nopen a <> 1 \/ (forall p, leaves_open a p -> leaves_open b p) ->
  length a = length b /\ forall p y, specifies b p y -> specifies a p y.
Proof.
  intros W H K. destruct (completion a W) as (r & V & F). pose proof (H r V F) as Fb.
  assert (L : length a = length b) by (destruct F, Fb; congruence). split; auto.
  intros p y Hp. destruct (specifies_dec a p) as [(x & Hx)|[Ho|Hl]].
  - apply Fb in Hp. pose proof (proj2 F _ _ Hx) as Hr. congruence.
  - exfalso. assert (nopen a <> 0) by (intros Z; eapply nopen_0; eauto).
    destruct K as [K|K]; [|specialize (K p Ho); unfold specifies, leaves_open in *; congruence].
    destruct (two_open a ltac:(lia) p Ho) as (q & Hq & D).
    destruct (other_row a r p q V F Ho Hq ltac:(auto)) as (r' & V' & F' & N).
    apply H in F'; auto. apply F' in Hp as E1. apply Fb in Hp as E2. congruence.
  - unfold specifies in Hp. assert (p < length b) by (apply nth_error_Some; congruence). lia.
Qed.

(** ** is_compatible_with and combine *)

Definition compat (a b : list (option nat)) : Prop :=
  length a = length b /\
  forall i y, specifies b i y -> (forall x, specifies a i x -> x = y) /\ (forall q, specifies a q y -> q = i).

Lemma compat_loop_ok a l n : each_bell_once a ->
  (mask_compat_loop a (enumerate_from n l) = true <->
   forall i y s, nth_error l i = Some (Some y, s) ->
     (forall x, s = Some x -> x = y) /\ (forall q, specifies a q y -> q = n + i)).
Proof.
  intros O. revert n; induction l as [|[[y|] s] l IH]; intros n; cbn [enumerate_from mask_compat_loop].
  - split; auto. intros _ [|i] y s; discriminate.
  - fold (mask_place_of a y).
    assert (P : (match mask_place_of a y with None => true | Some idx_self => n =? idx_self end) = true <->
                forall q, specifies a q y -> q = n).
    { destruct (mask_place_of a y) as [q|] eqn:E.
      - apply mask_position_Some in E. rewrite Nat.eqb_eq. split; [intros -> q' Hq; eapply O; eauto|intros H; symmetry; apply H; auto].
      - pose proof (proj1 (mask_position_None a y) E) as N. split; auto. intros _ q Hq. exfalso. eapply N; eauto. }
    assert (Q : (match s with None => true | Some b_self => b_self =? y end) = true <-> forall x, s = Some x -> x = y).
    { destruct s as [x|]; [rewrite Nat.eqb_eq; split; [intros -> ? [= ->]; auto|auto]|split; auto; discriminate]. }
    assert (S : (forall i z t, nth_error ((Some y, s) :: l) i = Some (Some z, t) ->
       (forall x, t = Some x -> x = z) /\ (forall q, specifies a q z -> q = n + i)) <->
      ((forall x, s = Some x -> x = y) /\ (forall q, specifies a q y -> q = n)) /\
      mask_compat_loop a (enumerate_from (S n) l) = true).
    { rewrite IH. split.
      - intros H. split; [specialize (H 0 y s eq_refl); rewrite Nat.add_0_r in H; auto|].
        intros i z t E. specialize (H (S i) z t E). replace (S n + i) with (n + S i) by lia. auto.
      - intros [H1 H2] [|i] z t E; [injection E as <- <-; rewrite Nat.add_0_r; auto|].
        replace (n + S i) with (S n + i) by lia. apply H2, E. }
    rewrite S, <- P, <- Q.
    destruct (match s with None => true | Some b_self => b_self =? y end); cbn [negb]; [|split; [discriminate|tauto]].
    destruct (match mask_place_of a y with None => true | Some idx_self => n =? idx_self end); cbn [negb]; [tauto|split; [discriminate|tauto]].
  - rewrite IH. split.
    + intros H [|i] z t E; [discriminate|]. replace (n + S i) with (S n + i) by lia. apply H, E.
    + intros H i z t E. replace (S n + i) with (n + S i) by lia. apply (H (S i)), E.
Qed.

Lemma mask_compat_ok a b : a <> [] -> b <> [] -> each_bell_once a ->
  exists v, mask_is_compatible_with a b = Ret v /\ (v = true <-> compat a b).
Proof.
  intros Ha Hb O. unfold mask_is_compatible_with. rewrite !mask_stage_ok by auto. cbn [bind].
  destruct (Nat.eqb_spec (length a) (length b)) as [E|E]; cbn [negb].
  - rewrite zip_combine by auto. cbn [bind]. eexists; split; auto. unfold enumerate. rewrite compat_loop_ok by auto.
    unfold compat. split.
    + intros H. split; auto. intros i y Hy. split.
      * intros x Hx. specialize (H i y (Some x)). rewrite nth_error_combine in H. apply H; auto.
      * intros q Hq. destruct (nth_error a i) as [s|] eqn:Ea.
        -- specialize (H i y s). rewrite nth_error_combine in H. apply H; auto.
        -- apply nth_error_None in Ea. assert (i < length b) by (apply nth_error_Some; unfold specifies in Hy; congruence). lia.
    + intros [_ H] i y s Hs. apply nth_error_combine in Hs as [Hy Hx]. destruct (H i y Hy) as [H1 H2]. split; auto.
      intros x ->. apply H1, Hx.
  - exists false. split; auto. split; [discriminate|]. intros [L _]; congruence.
Qed.

Fixpoint merge (a b : list (option nat)) : list (option nat) :=
  match a, b with
  | x :: a', y :: b' => (match x with Some _ => x | None => y end) :: merge a' b'
  | _, _ => []
  end.

Lemma merge_specifies a b p z : length a = length b ->
  (specifies (merge a b) p z <-> specifies a p z \/ (leaves_open a p /\ specifies b p z)).
Proof.
  unfold leaves_open. revert b p; induction a as [|x a IH]; intros [|y b] p L; try discriminate L; cbn [merge].
  - split; [destruct p; discriminate|]. intros [H|[H _]]; destruct p; discriminate.
  - destruct p as [|p].
    + rewrite !specifies_cons_0. cbn. destruct x as [x|]; intuition congruence.
    + rewrite !specifies_cons_S. cbn in L. rewrite IH by lia. reflexivity.
Qed.

Lemma length_merge a b : length a = length b -> length (merge a b) = length a.
Proof. revert b; induction a as [|x a IH]; intros [|y b] L; try discriminate L; cbn in *; auto. Qed.

Lemma compat_fits a b r : compat a b -> (fits (merge a b) r <-> fits a r /\ fits b r).
Proof.
  intros [L C]. split.
  - intros [L' F]. rewrite length_merge in L' by auto. split; (split; [congruence|]); intros p z Hp; apply F; apply merge_specifies; auto.
    destruct (specifies_dec a p) as [(x & Hx)|[Ho|Hl]]; auto.
    + left. assert (x = z) by (apply (C p z Hp); auto). subst; auto.
    + unfold specifies in Hp. assert (p < length b) by (apply nth_error_Some; congruence). lia.
  - intros [[La Fa] [Lb Fb]]. split; [rewrite length_merge; auto|]. intros p z Hp.
    apply merge_specifies in Hp as [Hp|[_ Hp]]; auto.
Qed.

Lemma compat_wf a b : well_formed_mask a -> well_formed_mask b -> compat a b -> well_formed_mask (merge a b).
Proof.
  intros (Na & Oa & Ra) (Nb & Ob & Rb) [L C]. unfold well_formed_mask. splits.
  - destruct a, b; try discriminate; congruence.
  - intros p q z Hp Hq. apply merge_specifies in Hp, Hq; auto.
    destruct Hp as [Hp|[_ Hp]], Hq as [Hq|[_ Hq]]; [eapply Oa; eauto| | |eapply Ob; eauto].
    + apply (C q z Hq); auto.
    + symmetry. apply (C p z Hp); auto.
  - rewrite length_merge by auto. intros p z Hp. apply merge_specifies in Hp as [Hp|[_ Hp]]; auto; [eauto|rewrite L; eauto].
Qed.

Lemma fits_both_compat a b r : valid_row r -> fits a r -> fits b r -> compat a b.
Proof.
  intros V [La Fa] [Lb Fb]. split; [congruence|]. intros i y Hy. apply Fb in Hy. split.
  - intros x Hx. apply Fa in Hx. congruence.
  - intros q Hq. apply Fa in Hq. eapply NoDup_nth_error_inj; eauto. apply valid_row_NoDup; auto.
Qed.

Lemma compat_iff a b : well_formed_mask a -> well_formed_mask b ->
  (compat a b <-> exists r, valid_row r /\ fits a r /\ fits b r).
Proof.
  intros Wa Wb. split.
  - intros C. destruct (completion _ (compat_wf a b Wa Wb C)) as (r & V & F). apply compat_fits in F; eauto.
  - intros (r & V & Fa & Fb). eapply fits_both_compat; eauto.
Qed.

Lemma mapM_merge a b : length a = length b -> (forall i x y, specifies a i x -> specifies b i y -> x = y) ->
  mapM combine_bells (combine a b) = Ret (merge a b).
Proof.
  revert b; induction a as [|x a IH]; intros [|y b] L H; try discriminate L; auto. cbn [combine mapM merge].
  assert (E : combine_bells (x, y) = Ret (match x with Some _ => x | None => y end)).
  { destruct x as [x|], y as [y|]; auto. cbn. rewrite (H 0 x y) by reflexivity. rewrite Nat.eqb_refl. reflexivity. }
  rewrite E. cbn [bind]. rewrite IH; auto. intros i u v Hu Hv. apply (H (S i)); auto.
Qed.

Lemma mask_combine_ok a b : a <> [] -> b <> [] -> each_bell_once a ->
  (compat a b -> mask_combine a b = Ret (Some (merge a b))) /\ (~ compat a b -> mask_combine a b = Ret None).
Proof.
  intros Ha Hb O. destruct (mask_compat_ok a b Ha Hb O) as (v & E & V). unfold mask_combine. rewrite E. cbn [bind].
  split; intros C.
  - rewrite (proj2 V C). cbn [negb]. destruct C as [L C]. rewrite zip_combine by auto. cbn [bind].
    rewrite mapM_merge; auto. intros i x y Hx Hy. apply (C i y Hy); auto.
  - destruct v; [exfalso; apply C, V; auto|]. reflexivity.
Qed.

(** ** Transposition *)

Lemma mask_nonempty (m : list (option nat)) r : valid_row r -> length m = length r -> m <> [].
Proof. intros V L. apply valid_row_pos in V. destruct m; [cbn in L; lia|discriminate]. Qed.


Lemma mask_mul_row_ok m r : valid_row r -> length m = length r ->
  exists m', mask_mul_row m r = Ret m' /\ length m' = length r /\
    forall p, nth_error m' p = match nth_error r p with Some b => nth_error m b | None => None end.
Proof.
  intros V L. unfold mask_mul_row. rewrite mask_stage_ok, valid_row_stage by eauto using mask_nonempty.
  cbn [bind]. rewrite L, Nat.eqb_refl. cbn [assert_ bind].
  exists (map (fun b => nth b m None) r). splits.
  - apply mapM_ret. intros b Hb. apply idx_ret. rewrite L. apply V; auto.
  - apply map_length.
  - intros p. rewrite nth_error_map. destruct (nth_error r p) as [b|] eqn:E; cbn; auto.
    symmetry. apply nth_error_nth'. rewrite L. eapply valid_row_nth_error_lt; eauto.
Qed.

Lemma mask_mul_row_panic m r : valid_row r -> m <> [] -> length m <> length r -> mask_mul_row m r = Panic.
Proof.
  intros V Hm L. unfold mask_mul_row. rewrite mask_stage_ok, valid_row_stage by auto. cbn [bind].
  destruct (Nat.eqb_spec (length m) (length r)); [congruence|reflexivity].
Qed.

Lemma row_mul_mask_ok r m : valid_row r -> length m = length r -> (forall p b, specifies m p b -> b < length r) ->
  exists m', row_mul_mask r m = Ret m' /\ length m' = length m /\
    forall p, nth_error m' p = match nth_error m p with
                               | Some (Some b) => option_map Some (nth_error r b)
                               | x => x end.
Proof.
  intros V L R. unfold row_mul_mask. rewrite mask_stage_ok, valid_row_stage by eauto using mask_nonempty.
  cbn [bind]. rewrite L, Nat.eqb_refl. cbn [assert_ bind].
  exists (map (option_map (fun b => nth b r 0)) m). splits.
  - apply mapM_ret. intros [b|] Hb; auto. apply In_nth_error in Hb as [p Hp]. rewrite (idx_ret 0) by eauto. reflexivity.
  - rewrite map_length; auto.
  - intros p. rewrite nth_error_map. destruct (nth_error m p) as [[b|]|] eqn:E; cbn; auto.
    rewrite (nth_error_nth' r 0); auto. eauto.
Qed.

Lemma row_mul_mask_range_panic r m p b : valid_row r -> length m = length r -> specifies m p b -> length r <= b ->
  row_mul_mask r m = Panic.
Proof.
  intros V L Hp R. unfold row_mul_mask. rewrite mask_stage_ok, valid_row_stage by eauto using mask_nonempty.
  cbn [bind]. rewrite L, Nat.eqb_refl. cbn [assert_ bind]. clear L.
  revert p Hp. induction m as [|x m IH]; intros [|p] Hp; try discriminate; cbn [mapM].
  - apply specifies_cons_0 in Hp as ->. rewrite idx_panic by auto. reflexivity.
  - destruct x as [x|]; [destruct (Nat.ltb_spec x (length r)) as [K|K]; [rewrite (idx_ret 0) by auto|rewrite idx_panic by auto; reflexivity]|];
      cbn [bind]; rewrite (IH p Hp); reflexivity.
Qed.

Lemma row_mul_mask_panic m r : valid_row r -> m <> [] -> length m <> length r -> row_mul_mask r m = Panic.
Proof.
  intros V Hm L. unfold row_mul_mask. rewrite mask_stage_ok, valid_row_stage by auto. cbn [bind].
  destruct (Nat.eqb_spec (length r) (length m)); [congruence|reflexivity].
Qed.

(** ** set_bell *)

Lemma set_bell_ok m b p :
  (forall q, mask_place_of m b = Some q -> mask_set_bell m b p = Ret (m, if q =? p then Ok tt else Err tt)) /\
  (mask_place_of m b = None -> p < length m -> mask_set_bell m b p = Ret (upd m p (Some b), Ok tt)) /\
  (mask_place_of m b = None -> length m <= p -> mask_set_bell m b p = Panic).
Proof.
  unfold mask_set_bell. fold (mask_place_of m b). splits.
  - intros q ->. destruct (q =? p); auto.
  - intros -> H. unfold mask_set_bell_unchecked. rewrite set_idx_ret by auto. reflexivity.
  - intros -> H. unfold mask_set_bell_unchecked, set_idx. destruct (Nat.ltb_spec p (length m)); [lia|reflexivity].
Qed.

Lemma upd_specifies m p b q c : p < length m ->
  (specifies (upd m p (Some b)) q c <-> (q = p /\ c = b) \/ (q <> p /\ specifies m q c)).
Proof.
  intros H. unfold specifies. destruct (Nat.eq_dec q p) as [->|D].
  - rewrite nth_error_upd_same by auto. intuition congruence.
  - rewrite nth_error_upd_other by auto. intuition.
Qed.

Lemma upd_once m p b : each_bell_once m -> (forall q, specifies m q b -> q = p) -> p < length m ->
  each_bell_once (upd m p (Some b)).
Proof.
  intros O N L q1 q2 c H1 H2. apply upd_specifies in H1, H2; auto.
  destruct H1 as [[-> ->]|[D1 H1]], H2 as [[-> E]|[D2 H2]]; auto.
  - symmetry. apply N; auto.
  - subst. apply N; auto.
  - eapply O; eauto.
Qed.

Lemma length_empty s : length (mask_empty s) = s.
Proof. apply repeat_length. Qed.
Lemma specifies_empty s p b : ~ specifies (mask_empty s) p b.
Proof. intros H. apply nth_error_In, repeat_spec in H. discriminate. Qed.

Lemma specifies_full r p b : specifies (mask_full_row r) p b <-> nth_error r p = Some b.
Proof. unfold specifies, mask_full_row. rewrite nth_error_map. destruct (nth_error r p); cbn; split; congruence. Qed.

Lemma fix_bells_gen bs m :
  (Forall (fun b => b < length m) bs ->
   exists m', foldM mask_fix_unchecked bs m = Ret m' /\ length m' = length m /\
     forall p b, specifies m' p b <-> (p = b /\ In b bs) \/ (~ In p bs /\ specifies m p b)) /\
  (~ Forall (fun b => b < length m) bs -> foldM mask_fix_unchecked bs m = Panic).
Proof.
  revert m; induction bs as [|x bs IH]; intros m; cbn [foldM].
  - split; [|intros H; exfalso; apply H; constructor]. intros _. exists m. splits; auto. intros p b; cbn; tauto.
  - unfold mask_fix_unchecked at 1 3, mask_set_bell_unchecked. split.
    + intros F. inversion F as [|? ? Fx Fb]; subst. rewrite set_idx_ret by auto. cbn [bind].
      destruct (proj1 (IH (upd m x (Some x)))) as (m' & E & L & H); [rewrite length_upd; auto|].
      exists m'. rewrite length_upd in L. splits; auto. intros p b. rewrite H, upd_specifies by auto. cbn [In].
      split.
      * intros [[-> K]|[K [[-> ->]|[D S]]]]; auto. right. split; auto. intros [->|?]; auto.
      * intros [[-> [->|K]]|[K S]].
        -- destruct (in_dec Nat.eq_dec b bs); auto.
        -- auto.
        -- right. split; [tauto|]. right. split; [|auto]. intros ->; tauto.
    + intros N. unfold set_idx. destruct (Nat.ltb_spec x (length m)) as [K|K]; [|reflexivity]. cbn [bind].
      apply IH. rewrite length_upd. intros F; apply N; constructor; auto.
Qed.
