(** Lemmas for C157: round blocks joined by a set of calls. *)
From Verif Require Import Base Spec SpecBlock SpecVec SpecPn ListFacts Row RowFacts MulFacts ParityFacts GroupFacts SameStageVec Block SsvFacts BlockFacts
  PlaceNot PnFacts PnFacts2 LawFacts LawFacts2.
Local Open Scope list_scope.

Lemma rings_rmul n pn t x : rings (pn_places pn) 0 (row_rounds n) t -> vrow n x -> rings (pn_places pn) 0 x (rmul x t).
Proof.
  intros R V. assert (H : rings (pn_places pn) 0 (map (fun i => nth i x 0) (row_rounds n)) (map (fun i => nth i x 0) t)) by (apply rings_map; auto).
  change (map (fun i => nth i x 0) (row_rounds n)) with (rmul x (row_rounds n)) in H.
  rewrite (rmul_rounds_r n) in H by apply V. exact H.
Qed.

(** A block of [body] and a last change, whose rows but the last are [rows]. *)
Definition part n pp body rows : Prop := exists r rs x, rows = r :: rs /\ vrow n r /\ rung r body rs x /\ rings (pn_places pp) 0 x r.

Lemma rung_snoc r pns pn rs y : rung r (pns ++ [pn]) rs y -> exists rs' x, rs = rs' ++ [y] /\ rung r pns rs' x /\ rings (pn_places pn) 0 x y.
Proof.
  revert r rs. induction pns as [|a pns IH]; intros r rs H; cbn [app] in H; inversion H as [|? ? ? r1 rs1 ? R H']; subst.
  - inversion H'; subst. exists [], r. repeat split; auto. constructor.
  - destruct (IH _ _ H') as (rs' & x & -> & H1 & H2). exists (r1 :: rs'), x. repeat split; auto. econstructor; eauto.
Qed.

Lemma part_of_rows n pp body v start rows : legal pp -> pn_stage pp = n -> Forall (fun pn => legal pn /\ pn_stage pn = n) body -> vrow n start ->
  pn_block_to_rows (body ++ [pp]) start = Ret (Ok v) -> ssv_rows v = Ret (rows ++ [start]) -> part n pp body rows /\ hd [] rows = start.
Proof.
  intros Lp Sp F V E Er.
  destruct (to_rows_ok (body ++ [pp]) start n) as (v' & rs & x & E' & Rv & Ru); auto.
  { destruct body; discriminate. }
  { apply Forall_app. auto. }
  rewrite E in E'. injection E' as <-. rewrite (rep_rows _ _ _ Rv) in Er. injection Er as Er.
  destruct (rung_snoc _ _ _ _ _ Ru) as (rs' & y & -> & H1 & H2).
  change (start :: rs' ++ [x]) with ((start :: rs') ++ [x]) in Er. apply app_inj_tail in Er as [<- ->].
  split; auto. exists start, rs', y. auto.
Qed.

(** Blocks after each other, each started where the change [pc] from the last row of the one before leads. *)
Inductive chain (pc : place_not) : list (list place_not) -> list (list row) -> row -> Prop :=
| chain_last body r rs x z : rung r body rs x -> rings (pn_places pc) 0 x z -> chain pc [body] [r :: rs] z
| chain_more body r rs x bodies r' rs' rowss z : rung r body rs x -> rings (pn_places pc) 0 x r' -> chain pc bodies ((r' :: rs') :: rowss) z ->
    chain pc (body :: bodies) ((r :: rs) :: (r' :: rs') :: rowss) z.

Lemma chain_rung pc bodies rowss z : chain pc bodies rowss z -> exists r rs, concat rowss = r :: rs /\ hd [] (hd [] rowss) = r /\
  rung r (concat (map (fun body => body ++ [pc]) bodies)) (rs ++ [z]) z.
Proof.
  induction 1 as [body r rs x z H R|body r rs x bodies r' rs' rowss z H R C IH].
  - exists r, rs. cbn [concat map hd app]. rewrite !app_nil_r. repeat split; auto. eapply rung_app; eauto. econstructor; eauto. constructor.
  - destruct IH as (r0 & rs0 & E & Eh & IH). cbn [hd] in Eh. subst r0. exists r, (rs ++ r' :: rs0).
    cbn [concat map hd]. cbn [concat] in E. rewrite E. repeat split; auto.
    replace ((rs ++ r' :: rs0) ++ [z]) with ((rs ++ [r']) ++ rs0 ++ [z]) by (rewrite <- !app_assoc; auto).
    eapply rung_app; [|exact IH]. eapply rung_app; eauto. econstructor; eauto. constructor.
Qed.

Section Join.
  Context (n : nat) (pp pc : place_not) (tp tc : row).
  Hypothesis Rp : rings (pn_places pp) 0 (row_rounds n) tp.
  Hypothesis Rc : rings (pn_places pc) 0 (row_rounds n) tc.
  Hypothesis Vtp : vrow n tp.
  Hypothesis Vtc : vrow n tc.
  Let q := rmul tc (rinv tp).

  Lemma vq : vrow n q.
  Proof. unfold q. auto using valid_rmul, valid_rinv. Qed.

  (** The call from [x] leads where the plain change from [x * q] leads. *)
  Lemma call_leads x : vrow n x -> rmul (rmul x q) tp = rmul x tc.
  Proof.
    intros V. unfold q. rewrite (rmul_assoc_vrow n) by auto using valid_rmul, valid_rinv.
    rewrite (rmul_assoc_vrow n tc) by auto using valid_rinv. rewrite (rmul_rinv_l n) by auto.
    rewrite (rmul_rounds_r n) by apply Vtc. auto.
  Qed.

  Definition linked (rowss : list (list row)) : Prop := forall k a b, nth_error rowss k = Some a -> nth_error rowss (S k) = Some b ->
    row_mul (last a []) q = Ret (last b []).

  Lemma chain_ok bodies rowss : Forall2 (part n pp) bodies rowss -> bodies <> [] -> linked rowss ->
    vrow n (last (hd [] rowss) []) /\ chain pc bodies rowss (rmul (rmul (last (hd [] rowss) []) (rpow q (length bodies))) tp).
  Proof.
    intros F. induction F as [|body rows bodies rowss P F IH]; [congruence|]. intros _ L. cbn [hd].
    destruct P as (r & rs & x & -> & V & H & R). pose proof (rung_last _ _ _ _ H) as Lx. rewrite Lx.
    assert (Vx : vrow n x) by (eapply rung_vrow; eauto).
    split; auto. destruct F as [|body' rows' bodies rowss P' F].
    - cbn [length rpow]. econstructor; eauto.
      assert (E : rmul (row_rounds (length q)) q = q) by (rewrite (proj2 vq); apply rmul_rounds_l_vrow, vq).
      rewrite E, call_leads by auto. apply (rings_rmul n); auto.
    - destruct IH as [V' C]; [discriminate| |].
      { intros k a b Ha Hb. apply (L (S k)); auto. }
      pose proof (L 0 _ _ eq_refl eq_refl) as E. rewrite Lx in E. rewrite (row_mul_ok n) in E by auto using vq. injection E as E.
      cbn [hd] in *. rewrite <- E in C. destruct P' as (r' & rs' & x' & -> & Vr' & H' & R').
      rewrite (rung_last _ _ _ _ H') in E, V'.
      assert (rmul x' tp = r') as Er by (eapply rings_fun; [apply (rings_rmul n); eauto|exact R']).
      eapply chain_more; eauto.
      + rewrite <- Er, <- E, call_leads by auto. apply (rings_rmul n); auto.
      + replace (rmul x (rpow q (length (body :: body' :: bodies)))) with (rmul (rmul x q) (rpow q (length (body' :: bodies)))); auto.
        rewrite (rmul_assoc_vrow n) by auto using vq, vrow_rpow. f_equal. rewrite (rpow_comm n) by apply vq. auto.
  Qed.
End Join.
