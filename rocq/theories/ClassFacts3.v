(** Proofs about the model of classification: sub-classes, and the whole classification. *)
From Verif Require Import Base Spec ListFacts Bell Stage Row RowFacts MulFacts GroupFacts
  Utils SameStageVec SpecVec SsvFacts Block SpecBlock BlockFacts PlaceNot SpecPn PnFacts PnFacts2
  Class SpecClass ClassFacts ClassFacts2.
Local Open Scope list_scope.

(** ** Changes without jumps *)

Lemma rings_near made i r r' : rings made i r r' -> NoDup r -> no_jump r r'.
Proof.
  intros R. induction R as [i|i b r r' I R IH|i a b r r' N1 N2 R IH]; intros D x p q Hp Hq.
  - destruct p; discriminate.
  - pose proof (rings_perm _ _ _ _ R) as P. inversion D as [|? ? Nb D']; subst.
    destruct p as [|p], q as [|q]; cbn in Hp, Hq; try lia.
    + injection Hp as <-. exfalso. apply Nb. apply (Permutation_in _ (Permutation_sym P)). eapply nth_error_In; eauto.
    + injection Hq as <-. exfalso. apply Nb. eapply nth_error_In; eauto.
    + specialize (IH D' x p q Hp Hq). lia.
  - pose proof (rings_perm _ _ _ _ R) as P. inversion D as [|? ? Na D']; subst. inversion D' as [|? ? Nb D'']; subst.
    assert (Na' : ~ In a r') by (intros J; apply Na; right; apply (Permutation_in _ (Permutation_sym P)); auto).
    assert (Nb' : ~ In b r') by (intros J; apply Nb; apply (Permutation_in _ (Permutation_sym P)); auto).
    destruct p as [|[|p]], q as [|[|q]]; cbn in Hp, Hq; try lia.
    + injection Hp as <-. exfalso. apply Na'. eapply nth_error_In; eauto.
    + injection Hp as <-. exfalso. apply Nb'. eapply nth_error_In; eauto.
    + injection Hq as <-. exfalso. apply Nb. eapply nth_error_In; eauto.
    + injection Hq as <-. exfalso. apply Na. right. eapply nth_error_In; eauto.
    + specialize (IH D'' x p q Hp Hq). lia.
Qed.

Lemma near_rings s : forall n r1 r2 i, length r1 <= n -> NoDup r1 -> Permutation r1 r2 -> no_jump r1 r2 ->
  i + length r1 = s -> exists l, legal_from s i l /\ rings l i r1 r2.
Proof.
  induction n as [|n IH]; intros r1 r2 i Hn D P J Hs.
  - destruct r1; [|cbn in Hn; lia]. apply Permutation_nil in P. subst r2. exists []. cbn in Hs. rewrite Nat.add_0_r in Hs.
    subst i. split; constructor.
  - destruct r1 as [|a r1].
    { apply Permutation_nil in P. subst r2. exists []. cbn in Hs. rewrite Nat.add_0_r in Hs. subst i. split; constructor. }
    destruct r2 as [|b r2]; [apply Permutation_sym, Permutation_nil in P; discriminate|].
    destruct (Nat.eq_dec a b) as [<-|Nab].
    + apply Permutation_cons_inv in P. apply NoDup_cons_iff in D as [Na D'].
      destruct (IH r1 r2 (i + 1)) as (l & Lg & R); auto.
      * cbn in Hn. lia.
      * intros x p q Hp Hq. specialize (J x (S p) (S q) Hp Hq). lia.
      * cbn in Hs. lia.
      * exists (i :: l). split.
        -- apply lf_place; auto. cbn in Hs. lia. 
        -- apply rings_place; [left; auto|]. eapply rings_ext; [|exact R]. intros j Hj. cbn. split; auto. intros [->|]; auto. lia.
    + assert (Ia : In a r2).
      { assert (In a (b :: r2)) by (apply (Permutation_in _ P); left; auto). destruct H; auto. congruence. }
      assert (Ib : In b r1).
      { assert (In b (a :: r1)) by (apply (Permutation_in _ (Permutation_sym P)); left; auto). destruct H; auto. congruence. }
      apply In_nth_error in Ia as (q & Hq), Ib as (p & Hp).
      pose proof (J a 0 (S q) eq_refl Hq) as Jq. pose proof (J b (S p) 0 Hp eq_refl) as Jp.
      assert (q = 0) by lia. assert (p = 0) by lia. subst p q.
      destruct r1 as [|b' r1]; [discriminate|]. destruct r2 as [|a' r2]; [discriminate|].
      cbn in Hp, Hq. injection Hp as ->. injection Hq as ->.
      assert (P' : Permutation r1 r2).
      { assert (P2 : Permutation (a :: b :: r1) (a :: b :: r2)) by (eapply perm_trans; [exact P|]; apply perm_swap).
        apply Permutation_cons_inv, Permutation_cons_inv in P2. auto. }
      apply NoDup_cons_iff in D as [Na D']. apply NoDup_cons_iff in D' as [Nb D''].
      destruct (IH r1 r2 (i + 2)) as (l & Lg & R); auto.
      * cbn in Hn. lia.
      * intros x p q Hp Hq. specialize (J x (S (S p)) (S (S q)) Hp Hq). lia.
      * cbn in Hs. lia.
      * assert (Hl : forall x, In x l -> i + 2 <= x) by (intros x Hx; apply (legal_In _ _ _ _ Lg) in Hx; lia).
        exists l. split.
        -- apply lf_swap; auto. cbn in Hs. lia.
        -- apply rings_swap; auto; intros Hx; apply Hl in Hx; lia.
Qed.

Lemma between_no_jump s r1 r2 : vrow s r1 -> vrow s r2 -> no_jump r1 r2 ->
  exists pn hi, pn_between r1 r2 = Ret (Some pn) /\ pn_has_internal_places pn = Ret hi /\
    (hi = true <-> internal_place r1 r2).
Proof.
  intros [V1 L1] [V2 L2] J.
  assert (P : Permutation r1 r2).
  { apply valid_row_perm in V1 as [_ P1], V2 as [_ P2]. rewrite L1 in P1. rewrite L2 in P2. etransitivity; [exact P1|]. apply Permutation_sym; auto. }
  pose proof (valid_row_NoDup r1 V1) as D1. pose proof (valid_row_pos r1 V1) as Hp.
  destruct (near_rings s (length r1) r1 r2 0) as (l & Lg & R); auto.
  destruct (pn_between_ok r1 r2 V1 V2) as (o & E & H).
  assert (Hl : legal (PlaceNot l s)) by (split; auto; cbn; lia).
  assert (o = Some (PlaceNot l s)) as -> by (apply H; splits; auto).
  destruct (has_internal_spec _ Hl) as (hi & Eh & Hh). exists (PlaceNot l s), hi. splits; auto.
  cbn [pn_places pn_stage] in Hh. rewrite Hh. unfold internal_place. split.
  - intros (p & Hin & H1 & H2).
    destruct (nth_error r1 p) as [b|] eqn:Eb; [|apply nth_error_None in Eb; lia].
    exists p, b. splits; auto; try lia. rewrite <- Eb. apply (rings_stays l 0); auto; lia.
  - intros (p & b & H1 & H2 & E1 & E2). exists p. splits; auto; try lia.
    change p with (0 + p). apply (rings_stays l 0 r1 r2 p); auto; try lia. congruence.
Qed.

Lemma between_jump s r1 r2 : vrow s r1 -> vrow s r2 -> ~ no_jump r1 r2 -> pn_between r1 r2 = Ret None.
Proof.
  intros [V1 L1] [V2 L2] J. destruct (pn_between_ok r1 r2 V1 V2) as ([pn|] & E & H); auto.
  exfalso. apply J. destruct (proj1 (H pn) eq_refl) as (_ & _ & R). eapply rings_near; eauto. apply valid_row_NoDup; auto.
Qed.

Lemma no_jump_dec r1 r2 : NoDup r1 -> NoDup r2 -> no_jump r1 r2 \/ ~ no_jump r1 r2.
Proof.
  intros D1 D2.
  set (bad := fun p => existsb (fun q => (nth p r1 0 =? nth q r2 0) && negb ((p <=? q + 1) && (q <=? p + 1))) (seq 0 (length r2))).
  destruct (existsb bad (seq 0 (length r1))) eqn:E.
  - right. intros J. apply existsb_exists in E as (p & Hp & Eq). apply existsb_exists in Eq as (q & Hq & Eb).
    apply in_seq in Hp, Hq. apply andb_true_iff in Eb as [E1 E2]. apply Nat.eqb_eq in E1. apply negb_true_iff in E2.
    destruct (J (nth p r1 0) p q) as [J1 J2].
    + apply nth_error_nth'; lia.
    + rewrite E1. apply nth_error_nth'; lia.
    + rewrite (proj2 (Nat.leb_le _ _)) in E2 by auto. rewrite (proj2 (Nat.leb_le _ _)) in E2 by auto. discriminate.
  - left. intros x p q Hp Hq.
    assert (Hp' : p < length r1) by (apply nth_error_Some; congruence).
    assert (Hq' : q < length r2) by (apply nth_error_Some; congruence).
    apply nth_error_nth with (d := 0) in Hp, Hq.
    destruct ((p <=? q + 1) && (q <=? p + 1)) eqn:Eb.
    { apply andb_true_iff in Eb as [B1 B2]. apply Nat.leb_le in B1, B2. auto. }
    exfalso. assert (existsb bad (seq 0 (length r1)) = true); [|congruence].
    apply existsb_exists. exists p. split; [apply in_seq; lia|]. unfold bad. apply existsb_exists. exists q.
    split; [apply in_seq; lia|]. rewrite Eb, Hp, Hq, Nat.eqb_refl. reflexivity.
Qed.

(** ** Paths in the plain course *)

Section Course.
Context {A : Type} (s : nat) (ars : list (row * A)) (lo : row) (b : block A).
Hypothesis B : brep s ars lo b.
Hypothesis Na : ars <> [].

Let rows := map fst ars.
Let L := length rows.
Let V : vrow s lo.
Proof. eapply brep_vrows; eauto. Qed.
Let Fr : Forall (vrow s) rows.
Proof. eapply brep_vrows; eauto. Qed.
Let HL : 0 < L.
Proof. unfold L, rows. rewrite map_length. destruct ars; [congruence|cbn; lia]. Qed.

Definition cp (x t : nat) : nat := place_in (nth (t mod L) rows []) (it lo x (t / L)).

Lemma row_at t : exists r, nth_error rows (t mod L) = Some r /\ nth (t mod L) rows [] = r /\ vrow s r.
Proof.
  assert (H : t mod L < L) by (apply Nat.mod_upper_bound; lia).
  destruct (nth_error rows (t mod L)) as [r|] eqn:E; [|apply nth_error_None in E; unfold L in *; lia].
  exists r. splits; auto; [apply nth_error_nth; auto|]. rewrite Forall_forall in Fr. apply Fr. eapply nth_error_In; eauto.
Qed.

Lemma course_place_iff x t p : x < s -> (course_place rows lo x t p <-> p = cp x t).
Proof.
  intros Hx. destruct (row_at t) as (r & Er & En & Vr). unfold cp. rewrite En. fold L.
  pose proof (it_lt s lo V x (t / L) Hx) as Hi. split.
  - intros (r0 & h & r' & E0 & P & C & N). fold L in E0, P. assert (r0 = r) as -> by congruence.
    pose proof (power_fun _ _ _ P) as Eh. subst h. pose proof (composition_fun _ _ _ C) as ->.
    unfold rmul in N. rewrite nth_error_map in N. destruct (nth_error r p) as [y|] eqn:Ey; [|discriminate].
    cbn in N. assert (Hy : y < s) by (rewrite <- (proj2 Vr); eapply valid_row_nth_error_lt; eauto; apply Vr).
    assert (N' : nth_error (rpow lo (t / L)) y = Some x).
    { rewrite (nth_error_nth' _ 0); [congruence|]. rewrite (proj2 (vrow_rpow s lo (t / L) V)). auto. }
    apply (power_nth s lo V x (t / L) _ y Hx P) in N'. subst y. symmetry. apply place_in_unique; auto. apply Vr.
  - intros ->. exists r, (rpow lo (t / L)), (rmul (rpow lo (t / L)) r). fold L. splits; auto.
    + eapply power_rpow; eauto.
    + apply (composition_vrow s); auto. apply vrow_rpow; auto.
    + unfold rmul. rewrite nth_error_map, place_in_ok; [|exact (proj1 Vr)|rewrite (proj2 Vr); exact Hi].
      cbn [option_map]. f_equal. apply nth_error_nth. apply (rpow_nth s); auto.
Qed.

Lemma cp_shift x k t : cp (it lo x k) t = cp x (t + k * L).
Proof.
  unfold cp. rewrite Nat.mod_add by lia. rewrite Nat.div_add by lia. rewrite it_add. reflexivity.
Qed.

Lemma cp_period x n t : order lo x n -> cp x t = cp x (t mod (n * L)).
Proof.
  intros O. unfold cp. pose proof (proj1 O) as Hn. rewrite (it_mod lo x n (t / L)) by auto.
  rewrite (it_mod lo x n ((t mod (n * L)) / L)) by auto.
  assert (A1 : (t mod (n * L)) mod L = t mod L).
  { rewrite (Nat.mul_comm n), Nat.mod_mul_r by lia. rewrite Nat.mul_comm, Nat.mod_add by lia. apply Nat.mod_mod; lia. }
  assert (A2 : ((t mod (n * L)) / L) mod n = (t / L) mod n).
  { rewrite (Nat.mul_comm n), Nat.mod_mul_r by lia. rewrite Nat.mul_comm, Nat.div_add by lia.
    rewrite (Nat.div_small (t mod L)) by (apply Nat.mod_upper_bound; lia). apply Nat.mod_mod; lia. }
  rewrite A1, A2. reflexivity.
Qed.

Lemma lead_path_length x : length (lead_path ars x) = L.
Proof. unfold lead_path, path_in. rewrite map_length. reflexivity. Qed.

Lemma full_path_nth x n t : t < n * L -> nth t (flat_map (lead_path ars) (orb lo x n)) 0 = cp x t.
Proof.
  unfold orb. assert (G : forall n k t, t < n * L ->
    nth t (flat_map (lead_path ars) (map (it lo x) (seq k n))) 0 = cp x (t + k * L)).
  { clear n t. induction n as [|n IH]; intros k t Ht; [lia|]. cbn [seq map flat_map].
    destruct (lt_dec t L) as [H|H].
    - rewrite app_nth1 by (rewrite lead_path_length; auto). unfold cp. rewrite Nat.mod_add, Nat.div_add by lia.
      rewrite (Nat.mod_small t), (Nat.div_small t) by auto. cbn [Nat.add].
      unfold lead_path, path_in. fold rows.
      rewrite (nth_indep (map (fun r => place_in r (it lo x k)) rows) 0 ((fun r => place_in r (it lo x k)) [])) by (rewrite map_length; auto).
      rewrite (map_nth (fun r => place_in r (it lo x k))). reflexivity.
    - rewrite app_nth2 by (rewrite lead_path_length; lia). rewrite lead_path_length. rewrite IH by nia.
      f_equal. nia. }
  intros Ht. rewrite G by auto. f_equal. lia.
Qed.

Lemma full_path_length x n : length (flat_map (lead_path ars) (orb lo x n)) = n * L.
Proof.
  unfold orb. generalize 0. induction n as [|n IH]; intros k; auto. cbn [seq map flat_map].
  rewrite app_length, lead_path_length, IH. lia.
Qed.

Definition sharp (x t : nat) : Prop :=
  cp x t = cp x (t + 2) /\ (cp x (t + 1) = cp x t + 1 \/ cp x t = cp x (t + 1) + 1).

Lemma turns_sharply_iff x : x < s -> (turns_sharply rows lo x <-> exists t, sharp x t).
Proof.
  intros Hx. split.
  - intros (t & p & q & H1 & H2 & H3 & H4). apply course_place_iff in H1, H2, H3; auto. exists t.
    unfold sharp. rewrite <- H1, <- H2, <- H3. auto.
  - intros (t & H1 & H2). exists t, (cp x t), (cp x (t + 1)). splits; auto; apply course_place_iff; auto.
Qed.

Lemma turns_cycle xn : good_start s lo xn ->
  (existsb (fun '(a, b, c) => (a =? c) && ((b + 1 =? a) || (b =? a + 1))) (circular_windows3 (full_path (cyc ars lo xn))) = true <->
   turns_sharply rows lo (fst xn)).
Proof.
  destruct xn as (x, n). intros [Hx O]. cbn [fst snd] in *. rewrite turns_sharply_iff by auto.
  rewrite (circular3_nth 0). unfold cyc. cbn [full_path fst snd]. rewrite full_path_length. rewrite existsb_exists.
  pose proof (proj1 O) as Hn. assert (HT : n * L <> 0) by nia.
  assert (N : forall t, nth (t mod (n * L)) (flat_map (lead_path ars) (orb lo x n)) 0 = cp x t).
  { intros t. rewrite full_path_nth by (apply Nat.mod_upper_bound; auto). symmetry. apply cp_period; auto. }
  split.
  - intros (w & Hw & E). apply in_map_iff in Hw as (t & <- & Ht). apply in_seq in Ht. rewrite !N in E.
    rewrite full_path_nth in E by lia. apply andb_true_iff in E as [E1 E2]. apply Nat.eqb_eq in E1.
    exists t. split; auto. apply orb_true_iff in E2 as [E2|E2]; apply Nat.eqb_eq in E2; lia.
  - intros (t & H1 & H2). eexists. split.
    + apply in_map_iff. exists (t mod (n * L)). split; [reflexivity|]. apply in_seq.
      pose proof (Nat.mod_upper_bound t (n * L) HT). lia.
    + cbn beta iota. rewrite !Nat.add_mod_idemp_l by auto. rewrite !N. rewrite H1, Nat.eqb_refl. cbn [andb].
      rewrite <- H1. apply orb_true_iff. rewrite !Nat.eqb_eq. lia.
Qed.

Lemma turns_orbit x n y : x < s -> order lo x n -> In y (orb lo x n) ->
  (turns_sharply rows lo y <-> turns_sharply rows lo x).
Proof.
  intros Hx O Hy.
  assert (Hy' : y < s). { pose proof (orb_lt s lo V x n Hx) as F. rewrite Forall_forall in F. auto. }
  assert (G : forall x y k, x < s -> y < s -> y = it lo x k -> turns_sharply rows lo y -> turns_sharply rows lo x).
  { clear x n y Hx O Hy Hy'. intros x y k Hx Hy -> H. apply turns_sharply_iff in H as (t & H1 & H2); auto.
    apply turns_sharply_iff; auto. exists (t + k * L). unfold sharp in *. rewrite !cp_shift in H1, H2.
    replace (t + k * L + 2) with (t + 2 + k * L) by lia. replace (t + k * L + 1) with (t + 1 + k * L) by lia. auto. }
  apply In_orb in Hy as (k & Ek); auto. split; [eapply G; eauto|].
  (* back *)
  intros H. apply (G y x (n * k - k)); auto. subst y. rewrite <- it_add. pose proof (proj1 O).
  replace (n * k - k + k) with (n * k) by nia. rewrite (it_mod lo x n) by auto. rewrite Nat.mul_comm, Nat.mod_mul by lia. reflexivity.
Qed.

(** ** Cross sections *)

Lemma list_min_ok l : l <> [] -> exists m, list_min l = Some m /\ In m l /\ forall q, In q l -> m <= q.
Proof.
  destruct l as [|x l]; [congruence|]. intros _. cbn [list_min]. exists (fold_left Nat.min l x). split; auto.
  revert x. induction l as [|y l IH]; intros x; cbn [fold_left].
  - split; [left; auto|]. intros q [->|[]]; auto.
  - destruct (IH (Nat.min x y)) as [I1 I2]. split.
    + destruct I1 as [I1|I1]; [|right; right; auto]. rewrite <- I1.
      destruct (Nat.min_spec x y) as [[_ ->]|[_ ->]]; [left|right; left]; auto.
    + intros q [->|[->|Hq]].
      * specialize (I2 _ (or_introl eq_refl)). lia.
      * specialize (I2 _ (or_introl eq_refl)). lia.
      * apply I2. right; auto.
Qed.

Lemma In_positions (l : list bool) i : In i (positions (fun m => m) l) <-> nth_error l i = Some true.
Proof.
  unfold positions. rewrite in_map_iff. split.
  - intros ((j, x) & E & H). cbn in E. subst j. apply filter_In in H as [H1 H2]. apply In_enumerate in H1. subst x. auto.
  - intros H. exists (i, true). split; auto. apply filter_In. split; auto. apply In_enumerate. auto.
Qed.

Lemma crosses_ok x pbs : exists l, cross_indices_of (Cycle pbs (lead_path ars x)) = Ret l /\
  forall i, In i l <-> crosses rows x i.
Proof.
  unfold cross_indices_of. cbn [full_path]. set (p := lead_path ars x).
  assert (Lp : length p = L) by apply lead_path_length.
  destruct (list_min_ok p) as (m & Em & Im & Hm); [intros E; rewrite E in Lp; cbn in Lp; lia|].
  rewrite Em. cbn [unwrap bind]. rewrite (circular2_nth 0).
  set (g := fun ab => negb ((fst ab - m) / 2 =? (snd ab - m) / 2)).
  assert (N : forall i, i < L -> m <= nth i p 0) by (intros i Hi; apply Hm, nth_In; lia).
  rewrite (mapM_ret _ g).
  - cbn [bind]. eexists; split; [reflexivity|]. intros i. rewrite In_positions, !nth_error_map, nth_error_seq, Lp. unfold crosses.
    fold L. change (path_in rows x) with p. destruct (Nat.ltb_spec i L) as [Hi|Hi]; cbn [option_map Nat.add].
    + assert (Hj : (i + 1) mod L < L) by (apply Nat.mod_upper_bound; lia). split.
      * intros E. exists (nth i p 0), (nth ((i + 1) mod L) p 0), m. splits; auto; try (apply nth_error_nth'; lia).
        intros E'. unfold g in E. cbn [fst snd] in E. rewrite E', Nat.eqb_refl in E. discriminate.
      * intros (a & c & m' & E1 & E2 & I' & H' & D). apply nth_error_nth with (d := 0) in E1, E2.
        assert (m' = m) as -> by (apply Nat.le_antisymm; auto). unfold g. cbn [fst snd]. rewrite E1, E2.
        apply Nat.eqb_neq in D. rewrite D. reflexivity.
    + split; [discriminate|]. intros (a & c & m' & E1 & _). assert (i < length p) by (apply nth_error_Some; congruence). lia.
  - intros (a, c) Hin. apply in_map_iff in Hin as (i & E & Hi). injection E as <- <-. apply in_seq in Hi.
    unfold usub. rewrite !(proj2 (Nat.leb_le _ _)); auto.
    + apply N. rewrite Lp. apply Nat.mod_upper_bound. lia.
    + apply N. lia.
Qed.

Lemma change_rows i : i < L -> exists r1 r2, change_at rows lo i r1 r2 /\
  block_get_row b i = Some r1 /\ block_get_row b (i + 1) = Some r2 /\ vrow s r1 /\ vrow s r2.
Proof.
  intros Hi. unfold change_at. rewrite !(brep_get_row s ars lo b) by auto. unfold all_rows_of. fold rows.
  pose proof (all_rows_vrow _ _ _ _ B) as F. unfold all_rows_of in F. fold rows in F. rewrite Forall_forall in F.
  assert (Ll : length (rows ++ [lo]) = L + 1) by (rewrite app_length; reflexivity).
  destruct (nth_error (rows ++ [lo]) i) as [r1|] eqn:E1; [|apply nth_error_None in E1; lia].
  destruct (nth_error (rows ++ [lo]) (i + 1)) as [r2|] eqn:E2; [|apply nth_error_None in E2; lia].
  exists r1, r2. splits; auto; apply F; eapply nth_error_In; eauto.
Qed.

Lemma cross_loop_ok l : Forall (fun i => i < L) l -> forall ai an,
  (exists i r1 r2, In i l /\ change_at rows lo i r1 r2 /\ ~ no_jump r1 r2) /\ cross_loop b l ai an = Panic \/
  (forall i r1 r2, In i l -> change_at rows lo i r1 r2 -> no_jump r1 r2) /\
  exists ai' an', cross_loop b l ai an = Ret (ai', an') /\
    (ai' = true <-> ai = true /\ forall i r1 r2, In i l -> change_at rows lo i r1 r2 -> internal_place r1 r2) /\
    (an' = true <-> an = true /\ forall i r1 r2, In i l -> change_at rows lo i r1 r2 -> ~ internal_place r1 r2).
Proof.
  assert (CF : forall i r1 r2 r1' r2', change_at rows lo i r1 r2 -> change_at rows lo i r1' r2' -> r1' = r1 /\ r2' = r2).
  { intros i r1 r2 r1' r2' [H1 H2] [H3 H4]. split; congruence. }
  induction 1 as [|i l Hi F IH]; intros ai an.
  - right. split; [intros i r1 r2 []|]. exists ai, an. splits; auto; split; try tauto; intros H; split; auto; intros i r1 r2 [].
  - cbn [cross_loop]. destruct (change_rows i Hi) as (r1 & r2 & C & E1 & E2 & V1 & V2). rewrite E1, E2. cbn [unwrap bind].
    destruct (no_jump_dec r1 r2 (valid_row_NoDup _ (proj1 V1)) (valid_row_NoDup _ (proj1 V2))) as [J|J].
    + destruct (between_no_jump s r1 r2 V1 V2 J) as (pn & hi & Eb & Eh & Hh). rewrite Eb. cbn [bind unwrap]. rewrite Eh. cbn [bind].
      assert (R : forall P : list nat -> list nat -> Prop,
        (forall j q1 q2, In j (i :: l) -> change_at rows lo j q1 q2 -> P q1 q2) <->
        (P r1 r2 /\ forall j q1 q2, In j l -> change_at rows lo j q1 q2 -> P q1 q2)).
      { intros P. split.
        - intros H. split; [apply (H i); auto; left; auto|]. intros j q1 q2 Hj. apply H. right; auto.
        - intros [H1 H2] j q1 q2 [<-|Hj] Cj; [|eauto]. destruct (CF _ _ _ _ _ C Cj) as [-> ->]. auto. }
      rewrite (R (fun q1 q2 => no_jump q1 q2)). 
      destruct hi.
      * assert (Ip : internal_place r1 r2) by (apply Hh; auto).
        destruct (IH ai false) as [[(j & q1 & q2 & Hj & Cj & Nj) P]|[Nj (ai' & an' & P & Ha & Hn)]].
        -- left. split; auto. exists j, q1, q2. splits; auto. right; auto.
        -- right. split; auto. exists ai', an'. split; auto. rewrite (R internal_place), (R (fun q1 q2 => ~ internal_place q1 q2)).
           rewrite Ha, Hn. split; [tauto|]. split; [intros [E _]; discriminate|tauto].
      * assert (Ip : ~ internal_place r1 r2) by (rewrite <- Hh; discriminate).
        destruct (IH false an) as [[(j & q1 & q2 & Hj & Cj & Nj) P]|[Nj (ai' & an' & P & Ha & Hn)]].
        -- left. split; auto. exists j, q1, q2. splits; auto. right; auto.
        -- right. split; auto. exists ai', an'. split; auto. rewrite (R internal_place), (R (fun q1 q2 => ~ internal_place q1 q2)).
           rewrite Ha, Hn. split; [|tauto]. split; [intros [E _]; discriminate|tauto].
    + left. split.
      * exists i, r1, r2. splits; auto. left; auto.
      * rewrite (between_jump s) by auto. reflexivity.
Qed.

(** ** Hunt cycles and working cycles *)

Hypothesis I0 : is_identity (hd [] (all_rows_of ars lo)).

Lemma hunt_lt x : hunt_bell lo x -> x < s.
Proof. intros H. rewrite <- (proj2 V). apply nth_error_Some. unfold hunt_bell in H. congruence. Qed.

Definition hcyc (x : nat) : cycle := Cycle [x] (lead_path ars x).

Lemma cyc_1 x : cyc ars lo (x, 1) = hcyc x.
Proof. unfold cyc, hcyc, orb. cbn [fst snd seq map flat_map]. rewrite app_nil_r. reflexivity. Qed.

Lemma cyc_hunt x n : cycle_is_hunt (cyc ars lo (x, n)) = (n =? 1).
Proof. unfold cycle_is_hunt, cyc. cbn [place_bells fst snd]. unfold orb. rewrite map_length, seq_length. reflexivity. Qed.

Lemma cyc_leads x n : num_leads (cyc ars lo (x, n)) = n.
Proof. unfold num_leads, cyc. cbn [place_bells fst snd]. unfold orb. rewrite map_length, seq_length. reflexivity. Qed.

Lemma starts_cover st y : Permutation (bells_of lo st) (seq 0 s) -> y < s ->
  exists xn, In xn st /\ In y (orb lo (fst xn) (snd xn)).
Proof.
  intros P Hy. assert (In y (bells_of lo st)) as H by (apply (Permutation_in _ (Permutation_sym P)), in_seq; lia).
  apply in_flat_map in H. auto.
Qed.

Lemma orb_order x n y : x < s -> order lo x n -> In y (orb lo x n) -> order lo y n.
Proof.
  intros Hx O Hy. apply In_orb in Hy as (k & ->); auto. pose proof (proj1 O) as Hn. unfold order.
  assert (E : forall j, it lo (it lo x k) j = it lo x k <-> it lo x j = x).
  { intros j. rewrite <- it_add, Nat.add_comm, it_add. split; [|congruence]. intros H.
    apply (it_inj s lo V _ _ k); auto. apply (it_lt s lo V); auto. }
  splits; auto.
  - apply E. apply O.
  - intros j Hj. rewrite E. apply O; auto.
Qed.

Lemma hunt_cycles_In st c : Forall (good_start s lo) st -> Permutation (bells_of lo st) (seq 0 s) ->
  (In c (filter cycle_is_hunt (map (cyc ars lo) st)) <-> exists x, hunt_bell lo x /\ c = hcyc x).
Proof.
  intros F P. rewrite filter_In, in_map_iff. rewrite Forall_forall in F. split.
  - intros (((x, n) & <- & Hin) & E). rewrite cyc_hunt in E. apply Nat.eqb_eq in E. subst n.
    destruct (F _ Hin) as [H1 H2]. cbn [fst snd] in *. exists x. rewrite cyc_1. split; auto.
    eapply hunt_order; eauto.
  - intros (x & H & ->). pose proof (hunt_lt x H) as Hx.
    destruct (starts_cover st x P Hx) as ((y, n) & Hin & Ho). cbn [fst snd] in Ho.
    destruct (F _ Hin) as [Hy O]. cbn [fst snd] in *.
    pose proof (orb_order y n x Hy O Ho) as Ox. apply (hunt_order s lo V x Hx) in H.
    pose proof (order_fun _ _ _ _ Ox H) as ->.
    unfold orb in Ho. cbn in Ho. destruct Ho as [Ho|[]]. change (it lo y 0) with y in Ho. subst y.
    split; [|reflexivity]. exists (x, 1). split; auto. apply cyc_1.
Qed.

Lemma hunt_path_ok x : hunt_bell lo x -> hunt_path s (hcyc x).
Proof.
  intros H. unfold hunt_path, hcyc. cbn [full_path]. split.
  - intros E. pose proof (lead_path_length x) as El. rewrite E in El. cbn in El. lia.
  - apply Forall_forall. intros p Hp. unfold lead_path, path_in in Hp. apply in_map_iff in Hp as (r & <- & Hr).
    rewrite Forall_forall in Fr. destruct (Fr r Hr) as [Vr Lr]. rewrite <- Lr. apply place_in_lt; auto.
    rewrite Lr. apply hunt_lt; auto.
Qed.

Lemma as_hunt_hcyc x : as_hunt_bell (hcyc x) = Some x.
Proof. reflexivity. Qed.

Section Whole.
Context (ho : list nat -> list nat).
Hypothesis HO : forall l, collected_set l (ho l).

Definition two_lengths : Prop := exists x y k l, x < s /\ ~ hunt_bell lo x /\ returns_after lo x k /\
  y < s /\ ~ hunt_bell lo y /\ returns_after lo y l /\ k <> l.

Lemma differential_ok st : Forall (good_start s lo) st -> Permutation (bells_of lo st) (seq 0 s) ->
  (negb (forallb (fun '(a, b) => num_leads a =? num_leads b)
     (windows2 (filter (fun c => negb (cycle_is_hunt c)) (map (cyc ars lo) st)))) = true <-> two_lengths).
Proof.
  intros F P. rewrite Forall_forall in F. rewrite negb_true_iff, <- not_true_iff_false, (windows2_all num_leads).
  set (W := filter _ _).
  assert (HW : forall c, In c W <-> exists x n, In (x, n) st /\ n <> 1 /\ c = cyc ars lo (x, n)).
  { intros c. unfold W. rewrite filter_In, in_map_iff. split.
    - intros (((x, n) & <- & Hin) & E). rewrite cyc_hunt in E. apply negb_true_iff, Nat.eqb_neq in E. eauto.
    - intros (x & n & Hin & Hn & ->). split; [eauto|]. rewrite cyc_hunt. apply negb_true_iff, Nat.eqb_neq. auto. }
  split.
  - intros N.
    destruct (existsb (fun a => existsb (fun c => negb (num_leads a =? num_leads c)) W) W) eqn:E.
    + apply existsb_exists in E as (a & Ha & E). apply existsb_exists in E as (c & Hc & E).
      apply negb_true_iff, Nat.eqb_neq in E. apply HW in Ha as (x & k & Hx & Nk & ->), Hc as (y & l & Hy & Nl & ->).
      rewrite !cyc_leads in E. destruct (F _ Hx) as [Lx Ox], (F _ Hy) as [Ly Oy]. cbn [fst snd] in *.
      exists x, y, k, l. splits; auto; try (apply (returns_after_order s lo V); auto).
      * intros H. apply (hunt_order s lo V x Lx) in H. apply Nk. eapply order_fun; eauto.
      * intros H. apply (hunt_order s lo V y Ly) in H. apply Nl. eapply order_fun; eauto.
    + exfalso. apply N. intros a c Ha Hc.
      destruct (Nat.eq_dec (num_leads a) (num_leads c)) as [|D]; auto. exfalso.
      assert (existsb (fun a => existsb (fun c => negb (num_leads a =? num_leads c)) W) W = true); [|congruence].
      apply existsb_exists. exists a. split; auto. apply existsb_exists. exists c. split; auto.
      apply negb_true_iff, Nat.eqb_neq. auto.
  - intros (x & y & k & l & Lx & Nx & Rx & Ly & Ny & Ry & D) H. apply D. clear D.
    assert (G : forall x k, x < s -> ~ hunt_bell lo x -> returns_after lo x k -> exists c, In c W /\ num_leads c = k).
    { clear x y k l Lx Nx Rx Ly Ny Ry. intros x k Lx Nx Rx. destruct (starts_cover st x P Lx) as ((z, n) & Hin & Ho).
      destruct (F _ Hin) as [Hz O]. cbn [fst snd] in *. pose proof (orb_order z n x Hz O Ho) as Ox.
      apply (returns_after_order s lo V x k Lx) in Rx. pose proof (order_fun _ _ _ _ Ox Rx) as ->.
      exists (cyc ars lo (z, k)). split; [|apply cyc_leads]. apply HW. exists z, k. splits; auto. intros ->.
      apply Nx. apply (hunt_order s lo V x Lx). auto. }
    destruct (G x k Lx Nx Rx) as (c & Hc & <-), (G y l Ly Ny Ry) as (c' & Hc' & <-). auto.
Qed.

Lemma plain_ok st inb : Forall (good_start s lo) st -> Permutation (bells_of lo st) (seq 0 s) ->
  (forall c, In c inb <-> exists x, dominant rows lo x HPlain /\ c = hcyc x) ->
  exists hb, mapM (fun c => unwrap (as_hunt_bell c)) inb = Ret hb /\
  let hunts := filter cycle_is_hunt (map (cyc ars lo) st) in
  exists marked, mapM (fun c => b <- unwrap (as_hunt_bell c);;
                        Ret (negb (existsb (fun x => x =? b) hb), c)) hunts = Ret marked /\
  method_class rows lo HPlain
    (sub_classify_plain (filter (fun c => negb (cycle_is_hunt c)) (map (cyc ars lo) st) ++ map snd (filter fst marked))).
Proof.
  intros F P Hi. set (first := fun c => hd 0 (place_bells c)).
  exists (map first inb). split.
  { apply mapM_ret. intros c Hc. apply Hi in Hc as (x & _ & ->). reflexivity. }
  cbv zeta. set (hunts := filter cycle_is_hunt (map (cyc ars lo) st)).
  set (mk := fun c => (negb (existsb (fun x => x =? first c) (map first inb)), c)).
  exists (map mk hunts). split.
  { apply mapM_ret. intros c Hc. apply (hunt_cycles_In st c F P) in Hc as (x & _ & ->). reflexivity. }
  assert (Dm : forall x, existsb (fun y => y =? x) (map first inb) = true <-> dominant rows lo x HPlain).
  { intros x. rewrite existsb_exists. split.
    - intros (y & Hy & E). apply Nat.eqb_eq in E. subst y. apply in_map_iff in Hy as (c & E & Hc).
      apply Hi in Hc as (z & Hz & ->). cbn in E. subst z. auto.
    - intros D. exists x. split; [|apply Nat.eqb_refl]. apply in_map_iff. exists (hcyc x). split; auto. apply Hi. eauto. }
  set (all := _ ++ _).
  assert (HA : forall c, In c all <-> exists x n, In (x, n) st /\ c = cyc ars lo (x, n) /\ (n = 1 -> ~ dominant rows lo x HPlain)).
  { intros c. unfold all. rewrite in_app_iff, filter_In, !in_map_iff. split.
    - intros [(((x, n) & <- & Hin) & E)|((m, c') & E & Hc)].
      + exists x, n. splits; auto. intros ->. rewrite cyc_hunt in E. discriminate.
      + cbn in E. subst c'. apply filter_In in Hc as [Hc Em]. cbn in Em. subst m. apply in_map_iff in Hc as (c' & E & Hc).
        unfold mk in E. injection E as E <-. unfold hunts in Hc. apply filter_In in Hc as [Hc Eh].
        apply in_map_iff in Hc as ((x, n) & <- & Hin). rewrite cyc_hunt in Eh. apply Nat.eqb_eq in Eh. subst n.
        exists x, 1. splits; auto. intros _ D. rewrite cyc_1 in E. apply Dm in D. change (first (hcyc x)) with x in E. rewrite D in E. discriminate.
    - intros (x & n & Hin & -> & Hn). destruct (Nat.eq_dec n 1) as [->|Nn].
      + right. exists (mk (cyc ars lo (x, 1))). split; auto. apply filter_In. split.
        * apply in_map. unfold hunts. apply filter_In. split; [apply in_map; auto|]. rewrite cyc_hunt. reflexivity.
        * unfold mk. cbn [fst]. apply negb_true_iff, not_true_iff_false. rewrite Dm. apply Hn. auto.
      + left. split; [eauto|]. rewrite cyc_hunt. apply negb_true_iff, Nat.eqb_neq. auto. }
  rewrite Forall_forall in F. unfold sub_classify_plain.
  destruct (existsb _ all) eqn:E.
  - apply existsb_exists in E as (c & Hc & E). apply HA in Hc as (x & n & Hin & -> & Hn).
    pose proof (F _ Hin) as G. apply (turns_cycle (x, n) G) in E. cbn [fst] in E.
    apply mc_bob with (x := x); auto.
    + rewrite (proj2 V). apply G.
    + destruct (Nat.eq_dec n 1) as [->|Nn]; auto. intros D. destruct G as [Lx Ox]. cbn [fst snd] in *.
      apply Nn. eapply order_fun; [exact Ox|]. apply (hunt_order s lo V x Lx). apply D.
  - apply mc_place. intros y Hy Nd T. rewrite (proj2 V) in Hy.
    destruct (starts_cover st y P Hy) as ((x, n) & Hin & Ho). pose proof (F _ Hin) as G.
    destruct G as [Lx Ox]. cbn [fst snd] in *.
    apply not_true_iff_false in E. apply E. apply existsb_exists. exists (cyc ars lo (x, n)). split.
    + apply HA. exists x, n. splits; auto. intros -> D. apply Nd. unfold orb in Ho. cbn in Ho. destruct Ho as [Ho|[]].
      change (it lo x 0) with x in Ho. congruence.
    + apply (turns_cycle (x, n)); [split; auto|]. cbn [fst]. apply (turns_orbit x n y Lx Ox Ho). auto.
Qed.

Lemma td_ok inb : (exists x, dominant rows lo x HTrebleDodging) ->
  (forall c, In c inb <-> exists x, dominant rows lo x HTrebleDodging /\ c = hcyc x) ->
  (exists r1 r2, cross_section rows lo r1 r2 /\ ~ no_jump r1 r2) /\ sub_classify_treble_dodging ho b inb = Panic \/
  all_cross_sections rows lo no_jump /\
  exists cl, sub_classify_treble_dodging ho b inb = Ret cl /\ method_class rows lo HTrebleDodging cl.
Proof.
  intros _ Hi. unfold sub_classify_treble_dodging.
  assert (M : forall l, (forall c, In c l -> exists x, dominant rows lo x HTrebleDodging /\ c = hcyc x) ->
    exists ll, mapM cross_indices_of l = Ret ll /\
      forall i, In i (concat ll) <-> exists x, In (hcyc x) l /\ crosses rows x i).
  { induction l as [|c l IH]; intros H.
    - exists []. split; auto. intros i. split; [intros []|intros (x & [] & _)].
    - destruct (H c (or_introl eq_refl)) as (x & _ & ->). destruct IH as (ll & E & Hl); [intros c' Hc'; apply H; right; auto|].
      destruct (crosses_ok x [x]) as (l0 & E0 & H0). exists (l0 :: ll).
      cbn [mapM]. unfold hcyc at 1. rewrite E0. cbn [bind]. rewrite E. cbn [bind]. split; auto.
      intros i. cbn [concat]. rewrite in_app_iff, H0, Hl. split.
      + intros [Hx|(y & Hy & Cy)]; [exists x|exists y]; split; auto; [left|right]; auto.
      + intros (y & [Ey|Hy] & Cy); [|right; eauto]. left. injection Ey as -> _. auto. }
  destruct (M inb) as (ll & E & Hl); [intros c; apply Hi|]. rewrite E. cbn [bind].
  assert (Hx : forall i, In i (ho (concat ll)) <-> exists x, dominant rows lo x HTrebleDodging /\ crosses rows x i).
  { intros i. destruct (HO (concat ll)) as [_ H]. rewrite (H i), Hl. split.
    - intros (x & Hc & Cx). apply Hi in Hc as (y & D & Ey). injection Ey as -> _. eauto.
    - intros (x & D & Cx). exists x. split; auto. apply Hi. eauto. }
  assert (CS : forall r1 r2, cross_section rows lo r1 r2 <-> exists i, In i (ho (concat ll)) /\ change_at rows lo i r1 r2).
  { intros r1 r2. unfold cross_section. split.
    - intros (x & i & D & C & H). exists i. split; auto. apply Hx. eauto.
    - intros (i & H & C). apply Hx in H as (x & D & Cx). exists x, i. auto. }
  assert (AS : forall P : list nat -> list nat -> Prop, all_cross_sections rows lo P <->
    forall i r1 r2, In i (ho (concat ll)) -> change_at rows lo i r1 r2 -> P r1 r2).
  { intros P. unfold all_cross_sections. split.
    - intros H i r1 r2 Hin C. apply H. apply CS. eauto.
    - intros H r1 r2 C. apply CS in C as (i & Hin & C). eauto. }
  assert (Fi : Forall (fun i => i < L) (ho (concat ll))).
  { apply Forall_forall. intros i H. apply Hx in H as (x & _ & (a & c & m & E1 & _)).
    rewrite <- (lead_path_length x). apply nth_error_Some. unfold lead_path. fold rows. congruence. }
  destruct (cross_loop_ok _ Fi true true) as [[(i & r1 & r2 & Hin & C & J) Ep]|[J (ai & an & Ep & Ha & Hn)]].
  - left. split; [|rewrite Ep; auto]. exists r1, r2. split; auto. apply CS. eauto.
  - right. split; [apply AS; auto|]. rewrite Ep. cbn [bind]. eexists; split; [reflexivity|].
    rewrite <- (AS internal_place) in Ha. rewrite <- (AS (fun r1 r2 => ~ internal_place r1 r2)) in Hn.
    destruct ai, an.
    + apply mc_treble_bob. apply Hn. auto.
    + destruct (proj1 Ha eq_refl) as [_ H1].
      destruct (ho (concat ll)) as [|i t] eqn:Eh.
      * exfalso. assert (false = true) as C; [apply Hn; split; auto|discriminate].
        intros r1 r2 C. apply CS in C as (i & [] & _).
      * destruct (change_rows i) as (r1 & r2 & C & _); [inversion Fi; auto|].
        apply (mc_surprise _ _ r1 r2); auto. apply CS. exists i. split; [left; auto|auto].
    + apply mc_treble_bob. apply Hn. auto.
    + apply mc_delight.
      * intros H. assert (false = true) as C by (apply Ha; auto). discriminate.
      * intros H. assert (false = true) as C by (apply Hn; auto). discriminate.
Qed.

Lemma classify_ok : exists d, (d = true <-> two_lengths) /\
  ((forall x, ~ hunt_bell lo x) /\ classify ho b = Ret (FullClass false false d Principle) \/
   exists x h little, dominant rows lo x h /\
     (little = true <-> forall y, dominant rows lo y h -> exists q, q < s /\ ~ In q (path_in rows y)) /\
     (h = HTrebleDodging /\ (exists r1 r2, cross_section rows lo r1 r2 /\ ~ no_jump r1 r2) /\ classify ho b = Panic \/
      (h = HTrebleDodging -> all_cross_sections rows lo no_jump) /\
      exists cl, method_class rows lo h cl /\ classify ho b = Ret (FullClass false little d cl))).
Proof.
  destruct (cycles_ok s ars lo b B Na I0) as (st & E & F & P & _).
  unfold classify. rewrite E. cbn [bind]. rewrite partition_ok. cbn iota beta.
  eexists. split; [apply (differential_ok st F P)|].
  pose proof (hunt_cycles_In st) as HC. 
  assert (HP : Forall (hunt_path s) (filter cycle_is_hunt (map (cyc ars lo) st))).
  { apply Forall_forall. intros c Hc. apply (HC c F P) in Hc as (x & H & ->). apply hunt_path_ok; auto. }
  assert (HC' : forall c, In c (filter cycle_is_hunt (map (cyc ars lo) st)) <-> exists x, hunt_bell lo x /\ c = hcyc x)
    by (intros c; apply HC; auto).
  set (dd := negb _). set (hunts := filter cycle_is_hunt (map (cyc ars lo) st)) in *.
  assert (Eh : exists hh, hunts = hh) by eauto. destruct Eh as (hh & Eh). rewrite Eh.
  destruct hh as [|c rest].
  - left. split; auto. intros x H. assert (In (hcyc x) hunts) as J by (apply HC'; eauto). rewrite Eh in J. destruct J.
  - right. assert (HPc : hunt_path s c /\ Forall (hunt_path s) rest) by (rewrite Eh in HP; inversion HP; auto).
    destruct HPc as [Hc Hr]. assert (Es : block_stage b = s) by apply B. rewrite !Es.
    destruct (classify_cycle s c Hc) as (lc & h0 & Ec & O & Lc). rewrite Ec. cbn [bind].
    assert (B1 : exists c', In c' [c] /\ of_class c' h0) by (exists c; split; auto; left; auto).
    assert (B2 : forall c' h, In c' [c] -> of_class c' h -> dominance h0 <= dominance h).
    { intros c' h' [<-|[]] H. rewrite (path_class_fun _ _ _ H O). auto. }
    assert (B3 : forall c', In c' [c] <-> In c' [c] /\ of_class c' h0).
    { intros c'. split; [|tauto]. intros [<-|[]]; split; auto; left; auto. }
    assert (B4 : lc = true <-> forall c', In c' [c] -> misses s c').
    { rewrite Lc. split; [intros H c' [<-|[]]; auto|]. intros H. apply H. left; auto. }
    destruct (best_loop_ok s rest Hr lc h0 [c] (Forall_cons _ Hc (Forall_nil _)) B1 B2 [c] B3 B4)
      as (little & best & inb & Eb & Ex & Mn & Hi & Hl).
    rewrite Eb. cbn [bind]. cbn [app] in Ex, Mn, Hi. rewrite <- Eh in Ex, Mn, Hi.
    assert (Dom : forall x, hunt_bell lo x /\ of_class (hcyc x) best <-> dominant rows lo x best).
    { intros x. split.
      - intros [H1 H2]. split; [exact H1|]. split; [exact H2|]. intros y h' Hy Hh. apply (Mn (hcyc y)); auto. apply HC'. eauto.
      - intros (H1 & H2 & _). split; auto. }
    assert (Hi' : forall c, In c inb <-> exists x, dominant rows lo x best /\ c = hcyc x).
    { intros c'. rewrite Hi, HC'. split.
      - intros [(x & H1 & ->) H2]. exists x. split; auto. apply Dom. auto.
      - intros (x & D & ->). apply Dom in D as [H1 H2]. split; eauto. }
    destruct Ex as (c1 & H1 & H2). apply HC' in H1 as (x & Hx & ->).
    assert (D : dominant rows lo x best) by (apply Dom; auto).
    exists x, best, little. splits; auto.
    { rewrite Hl. split.
      - intros H y Dy. apply (H (hcyc y)). apply Hi'. eauto.
      - intros H c' Hc'. apply Hi' in Hc' as (y & Dy & ->). apply (H y Dy). }
    assert (MH : exists hb, mapM (fun c => unwrap (as_hunt_bell c)) inb = Ret hb).
    { eexists. apply (mapM_ret _ (fun c => hd 0 (place_bells c))). intros c' Hc'. apply Hi' in Hc' as (y & _ & ->). reflexivity. }
    destruct MH as (hb & MH). rewrite MH. cbn [bind].
    clear Eb Dom Mn H2. destruct best.
    + right. split; [discriminate|]. destruct (plain_ok st inb F P Hi') as (hb' & E1 & marked & E2 & M).
      rewrite MH in E1. injection E1 as <-. fold hunts in E2. rewrite Eh in E2. rewrite E2. cbn [bind]. eauto.
    + destruct (td_ok inb (ex_intro _ x D) Hi') as [[J Ep]|[J (cl & Ep & M)]].
      * left. splits; auto. rewrite Ep. reflexivity.
      * right. split; auto. exists cl. rewrite Ep. auto.
    + right. split; [discriminate|]. eexists; split; [constructor|reflexivity].
    + right. split; [discriminate|]. eexists; split; [constructor|reflexivity].
    + right. split; [discriminate|]. eexists; split; [constructor|reflexivity].
Qed.
End Whole.
End Course.
