(** Compatibility and combination of masks which may ask for a bell several times. *)
From Verif Require Import Base Bell Spec Stage Row Music Mask SpecMask ListFacts BellFacts RowFacts MulFacts MaskFacts MaskFacts2.
Local Open Scope list_scope.

Lemma compat_loop_any a l n :
  mask_compat_loop a (enumerate_from n l) = true <->
  forall i y s, nth_error l i = Some (Some y, s) ->
    (forall x, s = Some x -> x = y) /\ (forall q, specifies a q y -> specifies a (n + i) y /\ n + i <= q).
Proof.
  revert n; induction l as [|[[y|] s] l IH]; intros n; cbn [enumerate_from mask_compat_loop].
  - split; auto. intros _ [|i] y s; discriminate.
  - fold (mask_place_of a y).
    assert (P : (match mask_place_of a y with None => true | Some idx_self => n =? idx_self end) = true <->
                forall q, specifies a q y -> specifies a n y /\ n <= q).
    { destruct (mask_place_of a y) as [p|] eqn:E.
      - pose proof (mask_position_Some _ _ _ E) as Hp. unfold mask_place_of in E. apply position_Some in E. destruct E as [_ First].
        rewrite Nat.eqb_eq. split.
        + intros -> q Hq. split; auto. destruct (Nat.le_gt_cases p q); auto. exfalso.
          specialize (First q (Some y) ltac:(auto) Hq). cbn in First. rewrite Nat.eqb_refl in First. discriminate.
        + intros H. destruct (H p Hp) as [Hn Le]. destruct (Nat.eq_dec n p) as [|N]; auto. exfalso.
          specialize (First n (Some y) ltac:(lia) Hn). cbn in First. rewrite Nat.eqb_refl in First. discriminate.
      - pose proof (proj1 (mask_position_None a y) E) as N. split; auto. intros _ q Hq. exfalso. eapply N; eauto. }
    assert (Q : (match s with None => true | Some b_self => b_self =? y end) = true <-> forall x, s = Some x -> x = y).
    { destruct s as [x|]; [rewrite Nat.eqb_eq; split; [intros -> ? [= ->]; auto|auto]|split; auto; discriminate]. }
    assert (S : (forall i z t, nth_error ((Some y, s) :: l) i = Some (Some z, t) ->
       (forall x, t = Some x -> x = z) /\ (forall q, specifies a q z -> specifies a (n + i) z /\ n + i <= q)) <->
      ((forall x, s = Some x -> x = y) /\ (forall q, specifies a q y -> specifies a n y /\ n <= q)) /\
      mask_compat_loop a (enumerate_from (S n) l) = true).
    { rewrite IH. split.
      - intros H. split; [specialize (H 0 y s eq_refl); rewrite Nat.add_0_r in H; auto|].
        intros i z t E. specialize (H (S i) z t E). replace (S n + i) with (n + S i) by lia. auto.
      - intros [H1 H2] [|i] z t E; [injection E as <- <-; rewrite Nat.add_0_r; auto|].
        replace (n + S i) with (S n + i) by lia. apply H2, E. }
    rewrite S, <- P, <- Q.
    destruct (match s with None => true | Some b_self => b_self =? y end); cbn [negb]; [|split; [discriminate|tauto]].
    destruct (match mask_place_of a y with None => true | Some idx_self => n =? idx_self end); cbn [negb]; [tauto|split; [discriminate|tauto]].
  - rewrite IH. split.
    + intros H [|i] z t E; [discriminate|]. replace (n + S i) with (S n + i) by lia. apply H, E.
    + intros H i z t E. replace (S n + i) with (n + S i) by lia. apply (H (S i)), E.
Qed.

Definition compat_any (a b : list (option nat)) : Prop :=
  length a = length b /\
  forall i y, specifies b i y ->
    (forall x, specifies a i x -> x = y) /\ (forall q, specifies a q y -> specifies a i y /\ i <= q).

Lemma mask_compat_any a b : a <> [] -> b <> [] ->
  exists v, mask_is_compatible_with a b = Ret v /\ (v = true <-> compat_any a b).
Proof.
  intros Ha Hb. unfold mask_is_compatible_with. rewrite !mask_stage_ok by auto. cbn [bind].
  destruct (Nat.eqb_spec (length a) (length b)) as [E|E]; cbn [negb].
  - rewrite zip_combine by auto. cbn [bind]. eexists; split; auto. unfold enumerate. rewrite compat_loop_any by auto.
    unfold compat_any. split.
    + intros H. split; auto. intros i y Hy. assert (Li : i < length a).
      { rewrite E. apply nth_error_Some. unfold specifies in Hy. congruence. }
      destruct (nth_error a i) as [s|] eqn:Ea; [|apply nth_error_None in Ea; lia].
      specialize (H i y s). rewrite nth_error_combine in H. destruct (H (conj Hy Ea)) as [H1 H2].
      split; [intros x Hx; apply H1; unfold specifies in Hx; congruence|auto].
    + intros [_ H] i y s Hs. apply nth_error_combine in Hs as [Hy Hx]. destruct (H i y Hy) as [H1 H2]. split; auto.
      intros x ->. apply H1, Hx.
  - eexists; split; [reflexivity|]. split; [discriminate|]. intros [L _]. congruence.
Qed.

Lemma mask_combine_any a b : a <> [] -> b <> [] ->
  (compat_any a b -> mask_combine a b = Ret (Some (merge a b))) /\ (~ compat_any a b -> mask_combine a b = Ret None).
Proof.
  intros Ha Hb. destruct (mask_compat_any a b Ha Hb) as (v & E & V). unfold mask_combine. rewrite E. cbn [bind].
  split; intros C.
  - rewrite (proj2 V C). cbn [negb]. destruct C as [L C]. rewrite zip_combine by auto. cbn [bind].
    rewrite mapM_merge; auto. intros i x y Hx Hy. apply (C i y Hy); auto.
  - destruct v; [exfalso; apply C, V; auto|]. reflexivity.
Qed.
