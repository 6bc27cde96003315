(** Lemmas for C148: products of a group with other rows. *)
From Verif Require Import Base Spec ListFacts Row RowFacts MulFacts GroupFacts GroupFacts2 Utils LawFacts2.
Local Open Scope list_scope.

Section Parts.
  Context (n : nat) (G : list row).
  Hypothesis Ng : NoDup G.
  Hypothesis Ne : G <> [].
  Hypothesis Vg : forall g, In g G -> vrow n g.
  Hypothesis Sg : subgroup n (fun x => In x G).

  Lemma parts_pos : 0 < n.
  Proof. destruct G as [|g t]; [congruence|]. destruct (Vg g (or_introl eq_refl)) as [[N _] <-]. destruct g; [congruence|cbn; lia]. Qed.

  Lemma parts_rounds : In (row_rounds n) G.
  Proof.
    destruct G as [|g t] eqn:E; [congruence|]. assert (I : In g G) by (rewrite E; left; auto). rewrite <- E in *. pose proof (Vg g I) as V.
    rewrite <- (rmul_rinv_r n g V). apply (subgroup_mul n (fun x => In x G)); auto; [apply valid_rinv; auto|]. apply (subgroup_inv n (fun x => In x G)); auto.
  Qed.

  Lemma parts_length rs : length (mstep G rs) = length G * length rs.
  Proof. unfold mstep. induction rs as [|r rs IH]; cbn [flat_map length]; [lia|]. rewrite app_length, map_length, IH. lia. Qed.

  Lemma in_parts rs x : In x (mstep G rs) <-> exists g r, In g G /\ In r rs /\ x = rmul g r.
  Proof.
    unfold mstep. rewrite in_flat_map. split.
    - intros (r & R & I). apply in_map_iff in I as (g & <- & I). eauto.
    - intros (g & r & I & R & ->). exists r. split; auto. apply in_map_iff. eauto.
  Qed.

  Lemma parts_self rs r : vrow n r -> In r rs -> In r (mstep G rs).
  Proof. intros V I. apply in_parts. exists (row_rounds n), r. splits; auto using parts_rounds. rewrite rmul_rounds_l_vrow; auto. Qed.

  Lemma parts_turn p q : vrow n p -> vrow n q -> In (rmul q (rinv p)) G -> In (rmul p (rinv q)) G.
  Proof.
    intros Vp Vq I. replace (rmul p (rinv q)) with (rinv (rmul q (rinv p))).
    - apply (subgroup_inv n (fun x => In x G)); auto.
    - rewrite (rinv_rmul n), (rinv_rinv n) by auto using valid_rinv. auto.
  Qed.

  Lemma parts_back p q : vrow n p -> vrow n q -> rmul (rmul q (rinv p)) p = q.
  Proof. intros Vp Vq. rewrite (rmul_assoc_vrow n), (rmul_rinv_l n) by auto using valid_rinv. apply rmul_rounds_r. apply Vq. Qed.

  Lemma parts_true rs : Forall (vrow n) rs ->
    NoDup (mstep G rs) <-> NoDup rs /\ forall p q, In p rs -> In q rs -> In (rmul q (rinv p)) G -> p = q.
  Proof.
    induction rs as [|r rs IH]; intros V.
    - split; intros; [split; [constructor|intros p q []]|constructor].
    - inversion V as [|? ? Vr Vt]; subst. specialize (IH Vt). pose proof Vt as Vs. rewrite Forall_forall in Vs.
      change (mstep G (r :: rs)) with (map (fun g => rmul g r) G ++ mstep G rs). split.
      + intros N. apply NoDup_app_elim in N as (N1 & N2 & D). apply IH in N2 as [N2 K].
        assert (X : forall q, In q rs -> In (rmul q (rinv r)) G -> False).
        { intros q Iq I. apply (D q); [|apply parts_self; auto]. apply in_map_iff. exists (rmul q (rinv r)). split; auto. apply parts_back; auto. }
        split.
        * constructor; auto. intros I. apply (X r I). rewrite (rmul_rinv_r n) by auto. apply parts_rounds.
        * intros p q [<-|Ip] [<-|Iq] I; auto; exfalso; [apply (X q); auto|apply (X p); auto]. apply parts_turn; auto.
      + intros [N K]. apply NoDup_cons_iff in N as [Nr N]. apply NoDup_app_intro.
        * apply NoDup_map_inj; auto. intros a b Ia Ib E. apply (rmul_cancel_r n r); auto.
        * apply IH. split; auto. intros p q Ip Iq. apply K; right; auto.
        * intros x I1 I2. apply in_map_iff in I1 as (g & <- & Ig). apply in_parts in I2 as (h & q & Ih & Iq & E).
          apply Nr. replace r with q; auto. apply K; [right; auto|left; auto|].
          assert (Q : rmul r (rinv q) = rmul (rinv g) h).
          { apply (rmul_cancel_l n g); auto using valid_rmul, valid_rinv. rewrite <- !(rmul_assoc_vrow n), E by auto using valid_rinv.
            rewrite (rmul_rinv_r n g), rmul_rounds_l_vrow by auto. rewrite (rmul_assoc_vrow n), (rmul_rinv_r n q) by auto using valid_rinv. apply rmul_rounds_r. apply Vg; auto. }
          rewrite Q. apply (subgroup_mul n (fun x => In x G)); auto using valid_rinv. apply (subgroup_inv n (fun x => In x G)); auto.
  Qed.

  (** Multiplying by a row of the group goes from part to part. *)
  Lemma parts_again rs g : Forall (vrow n) rs -> In g G -> Permutation (map (rmul g) (mstep G rs)) (mstep G rs).
  Proof.
    intros V I. rewrite Forall_forall in V. assert (P : Permutation (map (rmul g) G) G).
    { apply NoDup_Permutation_bis; [|rewrite map_length; auto|].
      - apply NoDup_map_inj; auto. intros a b Ia Ib E. apply (rmul_cancel_l n g); auto.
      - intros x Ix. apply in_map_iff in Ix as (h & <- & Ih). apply (subgroup_mul n (fun x => In x G)); auto. }
    unfold mstep. induction rs as [|r rs IH]; cbn [flat_map]; auto. rewrite map_app. apply Permutation_app; [|apply IH; intros; apply V; right; auto].
    assert (Vr : vrow n r) by (apply V; left; auto).
    rewrite map_map. transitivity (map (fun h => rmul h r) (map (rmul g) G)); [|apply Permutation_map; auto].
    rewrite map_map. rewrite (map_ext_in _ (fun h => rmul (rmul g h) r)); auto. intros h Ih. symmetry. apply (rmul_assoc_vrow n); auto.
  Qed.

  (** Rows which are with each row also its products with the group are the products of the group with some of them. *)
  Lemma parts_of_rows : forall k H, length H <= k -> NoDup H -> (forall x, In x H -> vrow n x) -> (forall g x, In g G -> In x H -> In (rmul g x) H) ->
    exists reps, (forall x, In x reps -> In x H) /\ Permutation (mstep G reps) H.
  Proof.
    induction k as [|k IH]; intros H L N V C.
    - destruct H; [|cbn in L; lia]. exists []. split; auto.
    - destruct H as [|x H0]; [exists []; split; auto|]. set (H := x :: H0) in *. assert (Ix : In x H) by (left; auto). assert (Vx : vrow n x) by auto.
      set (C1 := map (fun g => rmul g x) G). set (H1 := filter (fun y => negb (row_mem y C1)) H).
      assert (I1 : forall y, In y H1 <-> In y H /\ ~ In y C1).
      { intros y. unfold H1. rewrite filter_In, negb_true_iff. split; intros [A B]; split; auto.
        - intros Hc. apply row_mem_iff in Hc. congruence.
        - destruct (row_mem y C1) eqn:E; auto. apply row_mem_iff in E. tauto. }
      assert (NC : NoDup C1) by (apply NoDup_map_inj; auto; intros a b Ia Ib E; apply (rmul_cancel_r n x); auto).
      assert (P : Permutation (C1 ++ H1) H).
      { apply NoDup_Permutation; auto.
        - apply NoDup_app_intro; auto; [apply NoDup_filter; auto|]. intros y Hy Hy'. apply I1 in Hy'. tauto.
        - intros y. rewrite in_app_iff, I1. split.
          + intros [Hy|[Hy _]]; auto. apply in_map_iff in Hy as (g & <- & Ig). auto.
          + intros Hy. destruct (in_dec (list_eq_dec Nat.eq_dec) y C1); auto. }
      destruct (IH H1) as (reps & R1 & R2).
      + apply Permutation_length in P. rewrite app_length in P. unfold C1 in P. rewrite map_length in P. assert (0 < length G) by (destruct G; [congruence|cbn; lia]). lia.
      + apply NoDup_filter; auto.
      + intros y Hy. apply V, I1, Hy.
      + intros g y Ig Iy. apply I1 in Iy as [Iy Ny]. apply I1. split; auto. intros Q. apply Ny. apply in_map_iff in Q as (h & E & Ih).
        apply in_map_iff. exists (rmul (rinv g) h). pose proof (Vg g Ig) as Wg. pose proof (Vg h Ih) as Wh. pose proof (V y Iy) as Wy. split.
        * rewrite (rmul_assoc_vrow n), E by auto using valid_rinv. rewrite <- (rmul_assoc_vrow n), (rmul_rinv_l n), rmul_rounds_l_vrow by auto using valid_rinv. auto.
        * apply (subgroup_mul n (fun x => In x G)); auto using valid_rinv. apply (subgroup_inv n (fun x => In x G)); auto.
      + exists (x :: reps). split.
        * intros y [<-|Iy]; auto. apply I1, R1, Iy.
        * change (mstep G (x :: reps)) with (C1 ++ mstep G reps). rewrite R2. auto.
  Qed.
End Parts.

Lemma group_facts n G : Forall (vrow n) G -> is_group_set G = Ret (Ok true) -> G <> [] /\ subgroup n (fun x => In x G).
Proof.
  intros V E. assert (Ne : G <> []) by (intros ->; discriminate E). split; auto.
  destruct (is_group_set_ok n G Ne V) as (ok & E' & K). rewrite E in E'. injection E' as <-. apply subgroup_test; auto. apply K. reflexivity.
Qed.
