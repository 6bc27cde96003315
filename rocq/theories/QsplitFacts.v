(** Lemmas for C159: a touch with a set of calls left out falls into round blocks. *)
From Verif Require Import Base Spec SpecBlock SpecVec SpecPn ListFacts Row RowFacts MulFacts ParityFacts GroupFacts SameStageVec Block SsvFacts BlockFacts
  PlaceNot PnFacts PnFacts2 LawFacts LawFacts2 QjoinFacts InsertFacts.
Local Open Scope list_scope.

Lemma app_same_length {A} (a b c d : list A) : a ++ b = c ++ d -> length a = length c -> a = c /\ b = d.
Proof.
  revert c. induction a as [|x a IH]; intros [|y c] E L; cbn in *; try discriminate; auto.
  injection E as -> E. destruct (IH c E) as [-> ->]; auto.
Qed.

Lemma unchain pc bodies rowss : Forall2 (fun (body : list place_not) (rows : list row) => length rows = S (length body)) bodies rowss -> bodies <> [] ->
  forall r rs z, rung r (concat (map (fun body => body ++ [pc]) bodies)) rs z -> r :: rs = concat rowss ++ [z] -> chain pc bodies rowss z.
Proof.
  induction 1 as [|body rows bodies rowss L F IH]; [congruence|]. intros _ r rs z H E.
  destruct rows as [|r0 rs0]; [discriminate|]. cbn [map concat] in H, E.
  destruct (rung_split _ _ _ _ _ H) as (l1 & l2 & y & -> & L1 & H1 & H2).
  destruct (rung_snoc _ _ _ _ _ H1) as (l1' & x & -> & H3 & R). rewrite !app_length in L1. cbn [length] in L1, L.
  rewrite <- !app_assoc in E. change (r :: l1' ++ [y] ++ l2) with ((r :: l1') ++ y :: l2) in E.
  apply app_same_length in E as [E E']; [|cbn [length]; lia]. injection E as -> ->.
  destruct F as [|body' rows' bodies rowss L' F].
  - cbn [map concat app] in H2, E'. inversion H2; subst. eapply chain_last; eauto.
  - specialize (IH ltac:(discriminate) _ _ _ H2 E'). destruct rows' as [|r' rs']; [discriminate|].
    cbn [concat app] in E'. injection E' as -> _. eapply chain_more; eauto.
Qed.

Section Split.
  Context (n : nat) (pp pc : place_not) (tp tc : row).
  Hypothesis Rp : rings (pn_places pp) 0 (row_rounds n) tp.
  Hypothesis Rc : rings (pn_places pc) 0 (row_rounds n) tc.
  Hypothesis Vtp : vrow n tp.
  Hypothesis Vtc : vrow n tc.
  Let q := rmul tc (rinv tp).

  Lemma vq' : vrow n q.
  Proof. unfold q. auto using valid_rmul, valid_rinv. Qed.

  Lemma chain_end bodies rowss z : chain pc bodies rowss z -> vrow n (hd [] (hd [] rowss)) -> linked tp tc rowss ->
    z = rmul (rmul (last (hd [] rowss) []) (rpow q (length bodies))) tp.
  Proof.
    intros C. induction C as [body r rs x z H R|body r rs x bodies r' rs' rowss z H R C IH]; intros V L; cbn [hd] in *;
      pose proof (rung_last _ _ _ _ H) as Lx; assert (Vx : vrow n x) by (eapply rung_vrow; eauto); rewrite Lx.
    - cbn [length rpow]. assert (E : rmul (row_rounds (length q)) q = q) by (rewrite (proj2 vq'); apply rmul_rounds_l_vrow, vq').
      rewrite E. unfold q. rewrite (call_leads n) by auto. eapply rings_fun; [exact R|]. apply (rings_rmul n); auto.
    - rewrite IH.
      + pose proof (L 0 _ _ eq_refl eq_refl) as E. rewrite Lx in E. rewrite (row_mul_ok n) in E by auto using vq'. assert (E0 : rmul x q = last (r' :: rs') []) by (unfold q; congruence). rewrite <- E0.
        change (length (body :: bodies)) with (S (length bodies)). cbn [rpow]. rewrite <- (rpow_comm n) by apply vq'.
        rewrite <- (rmul_assoc_vrow n x) by auto using vq', vrow_rpow. auto.
      + eapply rings_vrow; eauto.
      + intros k a b Ha Hb. apply (L (S k)); auto.
  Qed.

  Lemma chain_parts bodies rowss z : chain pc bodies rowss z -> vrow n (hd [] (hd [] rowss)) -> linked tp tc rowss ->
    hd [] (hd [] rowss) = rmul (last (hd [] rowss) []) tp -> Forall2 (part n pp) bodies rowss.
  Proof.
    intros C. induction C as [body r rs x z H R|body r rs x bodies r' rs' rowss z H R C IH]; intros V L Z; cbn [hd] in *;
      pose proof (rung_last _ _ _ _ H) as Lx; assert (Vx : vrow n x) by (eapply rung_vrow; eauto); rewrite Lx in Z;
      (assert (P : part n pp body (r :: rs)) by (exists r, rs, x; split; [auto|]; split; [auto|]; split; [auto|]; pose proof (rings_rmul n pp tp x Rp Vx) as Q; rewrite <- Z in Q; exact Q)).
    - constructor; auto.
    - constructor; auto. apply IH.
      + eapply rings_vrow; eauto.
      + intros k a b Ha Hb. apply (L (S k)); auto.
      + pose proof (L 0 _ _ eq_refl eq_refl) as E. rewrite Lx in E. rewrite (row_mul_ok n) in E by auto using vq'. assert (E0 : rmul x q = last (r' :: rs') []) by (unfold q; congruence). rewrite <- E0.
        unfold q. rewrite (call_leads n) by auto. eapply rings_fun; [exact R|]. apply (rings_rmul n); auto.
  Qed.
End Split.
