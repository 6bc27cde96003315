(** Proofs about the model of classification: the cycles of a lead. *)
From Verif Require Import Base Spec ListFacts Bell Stage Row RowFacts MulFacts GroupFacts
  Utils SameStageVec SpecVec SsvFacts Block SpecBlock BlockFacts PlaceNot Class SpecClass.
Local Open Scope list_scope.

Lemma place_in_unique r b i : valid_row r -> nth_error r i = Some b -> place_in r b = i.
Proof. intros V N. unfold place_in. apply (path_entry (length r)); auto. split; auto. Qed.

Lemma place_in_lt r b : valid_row r -> b < length r -> place_in r b < length r.
Proof. intros V H. apply nth_error_Some. rewrite place_in_ok by auto. discriminate. Qed.

Lemma iter_add {A} (f : A -> A) a b x : Nat.iter (a + b) f x = Nat.iter a f (Nat.iter b f x).
Proof. induction a as [|a IH]; cbn; auto. f_equal. exact IH. Qed.

Definition clear (bl : list bool) (l : list nat) : list bool := fold_left (fun bl x => upd bl x false) l bl.

Lemma length_clear bl l : length (clear bl l) = length bl.
Proof. revert bl. induction l as [|x l IH]; intros bl; cbn; auto. unfold clear in *. rewrite IH, length_upd. auto. Qed.

Lemma nth_clear bl l i : i < length bl ->
  (nth_error (clear bl l) i = Some true <-> nth_error bl i = Some true /\ ~ In i l).
Proof.
  revert bl. induction l as [|x l IH]; intros bl Hi; cbn [clear fold_left]; [cbn; tauto|].
  change (fold_left _ l (upd bl x false)) with (clear (upd bl x false) l). rewrite IH by (rewrite length_upd; auto).
  rewrite nth_error_upd. destruct (Nat.eqb_spec i x) as [->|N]; cbn [andb In].
  - rewrite (proj2 (Nat.ltb_lt _ _)) by auto. split; [intros [E _]; discriminate|]. intros [_ E]. exfalso; auto.
  - split; intros [E1 E2]; split; auto. intros [->|]; auto.
Qed.

Section Orbits.
Context (s : nat) (lo : list nat).
Hypothesis V : vrow s lo.

Definition sg (x : nat) : nat := place_in lo x.
Definition it (x k : nat) : nat := Nat.iter k sg x.

Lemma sg_nth x : x < s -> nth_error lo (sg x) = Some x.
Proof. intros H. destruct V as [V1 V2]. apply place_in_ok; auto. lia. Qed.

Lemma sg_lt x : x < s -> sg x < s.
Proof. intros H. destruct V as [V1 V2]. pose proof (place_in_lt lo x V1 ltac:(lia)). unfold sg. lia. Qed.

Lemma sg_inj x y : x < s -> y < s -> sg x = sg y -> x = y.
Proof. intros Hx Hy E. apply sg_nth in Hx, Hy. rewrite E in Hx. congruence. Qed.

Lemma sg_iff x y : x < s -> (nth_error lo y = Some x <-> sg x = y).
Proof.
  intros Hx. split; [intros N|intros <-; apply sg_nth; auto].
  apply place_in_unique; auto. apply V.
Qed.

Lemma it_lt x k : x < s -> it x k < s.
Proof. intros H. unfold it. induction k as [|k IH]; cbn; auto. apply sg_lt; auto. Qed.

Lemma it_S x k : it x (S k) = sg (it x k).
Proof. reflexivity. Qed.

Lemma it_add x a b : it x (a + b) = it (it x b) a.
Proof. unfold it. apply iter_add. Qed.

Lemma it_inj x y k : x < s -> y < s -> it x k = it y k -> x = y.
Proof.
  intros Hx Hy. induction k as [|k IH]; auto. rewrite !it_S. intros E. apply IH.
  apply sg_inj; auto using it_lt.
Qed.

(** the place of [x] in a power of the lead head *)
Lemma rpow_nth x k : x < s -> nth_error (rpow lo k) (it x k) = Some x.
Proof.
  intros Hx. induction k as [|k IH].
  - cbn [rpow it Nat.iter]. change (it x 0) with x. rewrite (proj2 V). rewrite rounds_seq.
    rewrite nth_error_seq. rewrite (proj2 (Nat.ltb_lt _ _)) by auto. reflexivity.
  - cbn [rpow]. rewrite it_S. unfold rmul. rewrite nth_error_map, sg_nth by auto using it_lt. cbn [option_map].
    f_equal. apply nth_error_nth. exact IH.
Qed.

Lemma power_nth x k h y : x < s -> power lo k h -> (nth_error h y = Some x <-> y = it x k).
Proof.
  intros Hx P. apply power_fun in P. subst h. pose proof (rpow_nth x k Hx) as N. split; [|intros ->; auto].
  intros E. eapply NoDup_nth_error_inj; eauto. apply valid_row_NoDup. apply (vrow_rpow s lo k V).
Qed.

Lemma it_finite x : x < s -> exists k, 0 < k /\ it x k = x.
Proof.
  intros Hx. destruct (finite_order s lo V) as (k & Hk & E). exists k. split; auto.
  pose proof (rpow_nth x k Hx) as N. rewrite E in N. rewrite rounds_seq, nth_error_seq in N.
  destruct (it x k <? s); [|discriminate]. cbn in N. congruence.
Qed.

Definition order (x n : nat) : Prop := 0 < n /\ it x n = x /\ forall j, 0 < j < n -> it x j <> x.

Lemma order_exists x : x < s -> exists n, order x n.
Proof.
  intros Hx. destruct (it_finite x Hx) as (k & Hk & E).
  assert (G : forall m, (exists n, order x n) \/ forall j, 0 < j <= m -> it x j <> x).
  { induction m as [|m [H|H]]; [right; lia|left; auto|].
    destruct (Nat.eq_dec (it x (S m)) x) as [Em|Em].
    - left. exists (S m). split; [lia|]. split; auto. intros j Hj. apply H. lia.
    - right. intros j Hj. destruct (Nat.eq_dec j (S m)) as [->|]; auto. apply H. lia. }
  destruct (G k) as [|H]; auto. exfalso. apply (H k); auto; lia.
Qed.

Lemma order_fun x n m : order x n -> order x m -> n = m.
Proof.
  intros (H1 & H2 & H3) (K1 & K2 & K3). destruct (Nat.lt_trichotomy n m) as [L|[L|L]]; auto.
  - exfalso. apply (K3 n); auto.
  - exfalso. apply (H3 m); auto.
Qed.

Lemma it_mod x n k : order x n -> it x k = it x (k mod n).
Proof.
  intros (H1 & H2 & _). rewrite (Nat.div_mod k n) at 1 by lia. rewrite Nat.add_comm, it_add. 
  rewrite <- it_add, Nat.add_comm. rewrite Nat.add_comm.
  induction (k / n) as [|q IH]; [rewrite Nat.mul_0_r, Nat.add_0_r; auto|].
  replace (k mod n + n * S q) with ((k mod n + n * q) + n) by lia. rewrite it_add, H2. exact IH.
Qed.

Definition orb (x n : nat) : list nat := map (it x) (seq 0 n).

Lemma orb_NoDup x n : x < s -> order x n -> NoDup (orb x n).
Proof.
  intros Hx (H1 & H2 & H3). apply NoDup_map_inj; [|apply seq_NoDup].
  assert (G : forall i j, i < j -> j < n -> it x i = it x j -> False).
  { intros i j Hij Hj E. replace j with (i + (j - i)) in E by lia. rewrite it_add in E.
    apply it_inj in E; auto using it_lt. apply (H3 (j - i)); auto; lia. }
  intros i j Hi Hj E. apply in_seq in Hi, Hj. destruct (Nat.lt_trichotomy i j) as [L|[L|L]]; auto; exfalso.
  - apply (G i j); auto; lia.
  - apply (G j i); auto; lia.
Qed.

Lemma In_orb x n y : order x n -> (In y (orb x n) <-> exists k, y = it x k).
Proof.
  intros H. unfold orb. rewrite in_map_iff. split.
  - intros (k & <- & _). eauto.
  - intros (k & ->). exists (k mod n). split; [symmetry; apply it_mod; auto|]. apply in_seq.
    destruct H. pose proof (Nat.mod_upper_bound k n). lia.
Qed.

Lemma orb_lt x n : x < s -> Forall (fun y => y < s) (orb x n).
Proof. intros H. apply Forall_forall. intros y Hy. apply in_map_iff in Hy as (k & <- & _). apply it_lt; auto. Qed.

Lemma order_le x n : x < s -> order x n -> n <= s.
Proof.
  intros Hx H. pose proof (orb_NoDup x n Hx H) as N.
  assert (I : length (orb x n) <= length (seq 0 s)).
  { apply NoDup_incl_length; auto. apply Forall_lt_incl_seq. apply orb_lt; auto. }
  unfold orb in I. rewrite map_length, !seq_length in I. exact I.
Qed.

Lemma orb_closed x n y k : order x n -> In y (orb x n) -> In (it y k) (orb x n).
Proof.
  intros H Hy. apply In_orb in Hy as (j & ->); auto. apply In_orb; auto. exists (k + j). rewrite it_add. auto.
Qed.

Lemma orb_back x n y k : y < s -> order x n -> In (it y k) (orb x n) -> In y (orb x n).
Proof.
  intros Hy H I. destruct (order_exists y Hy) as (m & Hm).
  assert (E : y = it (it y k) (m * k - k)).
  { rewrite <- it_add. destruct Hm as (M1 & M2 & M3). assert (k <= m * k) by nia.
    replace (m * k - k + k) with (m * k) by lia. rewrite (it_mod y m) by (split; auto).
    rewrite Nat.mul_comm, Nat.mod_mul by lia. reflexivity. }
  rewrite E. apply orb_closed; auto.
Qed.

Lemma hunt_order x : x < s -> (hunt_bell lo x <-> order x 1).
Proof.
  intros Hx. unfold hunt_bell. rewrite sg_iff by auto. split.
  - intros E. split; [lia|]. split; [exact E|]. lia.
  - intros (_ & E & _). exact E.
Qed.

Lemma returns_after_order x k : x < s -> (returns_after lo x k <-> order x k).
Proof.
  intros Hx. unfold returns_after, order. split.
  - intros (H1 & (h & P & N) & H3). split; auto. split.
    + symmetry. apply (power_nth x k h x Hx P). auto.
    + intros j Hj E. apply (H3 j (rpow lo j) Hj (power_rpow s lo j V)).
      rewrite <- E at 1. apply rpow_nth; auto.
  - intros (H1 & H2 & H3). split; auto. split.
    + exists (rpow lo k). split; [eapply power_rpow; eauto|]. rewrite <- H2 at 1. apply rpow_nth; auto.
    + intros j h Hj P N. apply (H3 j Hj). symmetry. apply (power_nth x j h x Hx P). auto.
Qed.

Lemma orb_is_cycle x n : x < s -> order x n -> is_cycle lo (orb x n).
Proof.
  intros Hx H. split; [|split].
  - destruct H as [H _]. unfold orb. destruct n; [lia|]. discriminate.
  - apply orb_NoDup; auto.
  - intros i y z Hy Hz. unfold orb in *. rewrite map_length, seq_length in Hz.
    rewrite nth_error_map, nth_error_seq in Hy, Hz.
    destruct (Nat.ltb_spec i n) as [Hi|]; [|discriminate]. cbn in Hy. injection Hy as <-.
    destruct (Nat.ltb_spec ((i + 1) mod n) n) as [Hj|]; [|discriminate]. rewrite Nat.add_0_l in Hz. assert (z = it x ((i + 1) mod n)) as -> by (cbn [option_map] in Hz; congruence).
    rewrite <- (it_mod x n) by auto. rewrite Nat.add_1_r, it_S. apply sg_nth. apply it_lt; auto.
Qed.

(** any cycle lists an orbit *)
Lemma is_cycle_it pbs x : is_cycle lo pbs -> Forall (fun y => y < s) pbs -> hd_error pbs = Some x ->
  forall k, nth_error pbs (k mod length pbs) = Some (it x k).
Proof.
  intros (N & D & C) F Hd. destruct pbs as [|x0 pbs]; [congruence|]. injection Hd as ->. set (l := x :: pbs) in *.
  assert (Ln : length l <> 0) by (cbn; lia).
  induction k as [|k IH].
  - rewrite Nat.mod_0_l by auto. reflexivity.
  - assert (B : S k mod length l < length l) by (apply Nat.mod_upper_bound; auto).
    destruct (nth_error l (S k mod length l)) as [y|] eqn:E; [|apply nth_error_None in E; lia].
    f_equal. rewrite it_S. symmetry. apply sg_iff.
    + apply it_lt. inversion F; auto.
    + eapply C; [exact IH|]. rewrite <- E. f_equal. rewrite Nat.add_mod_idemp_l by auto. f_equal. lia.
Qed.
End Orbits.

(** ** The loops *)

Section Loops.
Context {A : Type} (s : nat) (ars : list (row * A)) (lo : row) (b : block A).
Hypothesis B : brep s ars lo b.

Let V : vrow s lo.
Proof. eapply brep_vrows; eauto. Qed.

Definition lead_path (x : nat) : list nat := path_in (map fst ars) x.

Lemma path_of_ok x : x < s -> block_path_of b x = Ret (Some (lead_path x, sg lo x)).
Proof.
  intros Hx. destruct (brep_path s ars lo b x B Hx) as (p & l & E & _ & F & N). rewrite E. f_equal. f_equal. f_equal.
  - destruct (brep_vrows _ _ _ _ B) as [Fr _]. unfold lead_path, path_in. clear - F Fr.
    induction F as [|r i rs p Hr F IH]; auto. inversion Fr as [|? ? Vr Fr']; subst. cbn [map]. f_equal; auto.
    symmetry. apply place_in_unique; auto. apply Vr.
  - symmetry. apply (sg_iff s); auto.
Qed.

Lemma follow_ok x n : x < s -> order lo x n -> forall d fuel k bl pbs fp,
  k + S d = n -> d < fuel -> length bl = s ->
  follow_cycle fuel b x (it lo x k) bl pbs fp =
  Ret (clear bl (map (it lo x) (seq k (S d))), pbs ++ map (it lo x) (seq k (S d)),
       fp ++ flat_map lead_path (map (it lo x) (seq k (S d)))).
Proof.
  intros Hx O. induction d as [|d IH]; intros fuel k bl pbs fp Hk Hf Hl; (destruct fuel as [|fuel]; [lia|]);
    cbn [follow_cycle]; pose proof (it_lt s lo V x k Hx) as Hi; rewrite set_idx_ret by lia; cbn [bind];
    rewrite path_of_ok by auto; cbn [unwrap bind]; rewrite <- it_S.
  - assert (n = S k) as -> by lia. destruct O as (_ & -> & _). rewrite Nat.eqb_refl.
    cbn [seq map flat_map]. rewrite app_nil_r. reflexivity.
  - destruct (Nat.eqb_spec (it lo x (S k)) x) as [E|E].
    + exfalso. destruct O as (_ & _ & O). apply (O (S k)); auto; lia.
    + rewrite IH; auto; try lia; [|rewrite length_upd; auto].
      change (seq k (S (S d))) with (k :: seq (S k) (S d)). cbn [map flat_map]. rewrite <- !app_assoc. reflexivity.
Qed.

Definition cyc (xn : nat * nat) : cycle :=
  Cycle (orb lo (fst xn) (snd xn)) (flat_map lead_path (orb lo (fst xn) (snd xn))).
Definition bells_of (st : list (nat * nat)) : list nat := flat_map (fun xn => orb lo (fst xn) (snd xn)) st.
Definition good_start (xn : nat * nat) : Prop := fst xn < s /\ order lo (fst xn) (snd xn).
Definition least_first (xn : nat * nat) : Prop := forall y, In y (orb lo (fst xn) (snd xn)) -> fst xn <= y.

Definition sorted_lt (l : list nat) : Prop := forall i j x y, i < j -> nth_error l i = Some x -> nth_error l j = Some y -> x < y.

Lemma sorted_lt_snoc l x : sorted_lt l -> Forall (fun y => y < x) l -> sorted_lt (l ++ [x]).
Proof.
  intros S F i j y z Hij Hy Hz. assert (j < length (l ++ [x])) as Hj by (apply nth_error_Some; congruence).
  rewrite app_length in Hj. cbn in Hj. rewrite nth_error_app1 in Hy by lia.
  destruct (Nat.eq_dec j (length l)) as [->|N].
  - rewrite nth_error_app2, Nat.sub_diag in Hz by lia. injection Hz as <-. rewrite Forall_forall in F. apply F.
    eapply nth_error_In; eauto.
  - rewrite nth_error_app1 in Hz by lia. apply (S i j); auto.
Qed.

Lemma cycles_loop_ok : forall fuel bl st,
  length bl = s ->
  (forall i, i < s -> (nth_error bl i = Some true <-> ~ In i (bells_of st))) ->
  Forall good_start st -> NoDup (bells_of st) -> Forall least_first st -> sorted_lt (map fst st) ->
  (forall x j, In x (map fst st) -> j < x -> In j (bells_of st)) ->
  s < fuel + length (bells_of st) ->
  exists st', cycles_loop fuel b bl (map cyc st) = Ret (map cyc st') /\
    Forall good_start st' /\ NoDup (bells_of st') /\ (forall i, i < s -> In i (bells_of st')) /\
    Forall least_first st' /\ sorted_lt (map fst st').
Proof.
  assert (Lt : forall st, Forall good_start st -> Forall (fun y => y < s) (bells_of st)).
  { intros st G. apply Forall_flat_map. eapply Forall_impl; [|exact G]. intros (x, n) [Hx _]. apply orb_lt; auto. }
  induction fuel as [|fuel IH]; intros bl st Hl Hb G N Lf So Dn Hf.
  { exfalso. assert (length (bells_of st) <= length (seq 0 s)); [|rewrite seq_length in *; lia].
    apply NoDup_incl_length; auto. apply Forall_lt_incl_seq; auto. }
  cbn [cycles_loop]. destruct (position (fun v => v) bl) as [x|] eqn:P.
  - apply position_Some in P as ((v & Hv & Ev) & Hmin). subst v.
    assert (Hx : x < s) by (rewrite <- Hl; apply nth_error_Some; congruence).
    destruct (order_exists s lo V x Hx) as (n & O).
    assert (Hn : n <= s) by (eapply order_le; eauto).
    assert (Hn0 : 0 < n) by apply O.
    pose proof (follow_ok x n Hx O (n - 1) (S (length bl)) 0 bl [] [] ltac:(lia) ltac:(lia) Hl) as Fo.
    change (it lo x 0) with x in Fo. rewrite Fo. replace (S (n - 1)) with n by lia. cbn [bind app].
    change (map (it lo x) (seq 0 n)) with (orb lo x n).
    replace (map cyc st ++ [Cycle (orb lo x n) (flat_map lead_path (orb lo x n))]) with (map cyc (st ++ [(x, n)]))
      by (rewrite map_app; reflexivity).
    assert (Eb : bells_of (st ++ [(x, n)]) = bells_of st ++ orb lo x n).
    { unfold bells_of. rewrite flat_map_app. cbn. rewrite app_nil_r. reflexivity. }
    assert (Nx : ~ In x (bells_of st)) by (apply Hb; auto).
    assert (Below : forall j, j < x -> In j (bells_of st)).
    { intros j Hj. destruct (in_dec Nat.eq_dec j (bells_of st)) as [|Nj]; auto. exfalso.
      assert (Hjs : j < s) by lia. apply (proj2 (Hb j Hjs)) in Nj. specialize (Hmin j true Hj Nj). discriminate. }
    assert (Disj : forall y, In y (bells_of st) -> In y (orb lo x n) -> False).
    { intros y Hy1 Hy2. apply Nx. apply in_flat_map in Hy1 as ((x', n') & Hin & Hy1). cbn [fst snd] in Hy1.
      unfold bells_of. apply in_flat_map. exists (x', n'). split; auto. cbn [fst snd].
      rewrite Forall_forall in G. destruct (G _ Hin) as [Hx' O']. cbn [fst snd] in *.
      apply In_orb in Hy2 as (k & ->); auto. eapply (orb_back s lo V x' n' x k); eauto. }
    apply IH.
    + rewrite length_clear. auto.
    + intros i Hi. rewrite nth_clear by lia. rewrite Hb, Eb, in_app_iff by auto. tauto.
    + apply Forall_app; split; auto. constructor; [split; auto|constructor].
    + rewrite Eb. apply NoDup_app_intro; auto. apply (orb_NoDup s lo V); auto.
    + apply Forall_app; split; auto. constructor; [|constructor]. intros y Hy. cbn [fst snd] in *.
      destruct (le_lt_dec x y); auto. exfalso. apply (Disj y); auto.
    + rewrite map_app. cbn [map fst]. apply sorted_lt_snoc; auto. apply Forall_forall. intros y Hy.
      destruct (Nat.lt_trichotomy y x) as [|[E|L]]; auto; exfalso.
      * subst y. apply Nx. apply in_map_iff in Hy as ((x', n') & E & Hin). cbn in E. subst x'.
        unfold bells_of. apply in_flat_map. exists (x, n'). split; auto. cbn [fst snd].
        rewrite Forall_forall in G. destruct (G _ Hin) as [_ O']. cbn [fst snd] in *. apply In_orb; auto. exists 0. reflexivity.
      * apply Nx. eapply Dn; eauto.
    + intros y j Hy Hj. rewrite Eb, in_app_iff. rewrite map_app, in_app_iff in Hy. destruct Hy as [Hy|[<-|[]]].
      * left. eauto.
      * left. auto.
    + rewrite Eb, app_length. unfold orb. rewrite map_length, seq_length. lia.
  - rewrite position_None in P. exists st. splits; auto. intros i Hi.
    destruct (in_dec Nat.eq_dec i (bells_of st)) as [|Ni]; auto. exfalso.
    apply (proj2 (Hb i Hi)) in Ni. apply nth_error_In in Ni. apply P in Ni. discriminate.
Qed.

Lemma cycles_ok : ars <> [] -> is_identity (hd [] (all_rows_of ars lo)) ->
  exists st, cycles_from_lead b = Ret (map cyc st) /\ Forall good_start st /\
    Permutation (bells_of st) (seq 0 s) /\ Forall least_first st /\ sorted_lt (map fst st).
Proof.
  intros Ne I. unfold cycles_from_lead, block_first_annot_row.
  erewrite brep_get_annot_row by eauto. destruct ars as [|(r, a) t] eqn:Ea; [congruence|]. cbn [nth_error unwrap bind fst].
  unfold all_rows_of in I. cbn in I. apply identity_rounds in I. rewrite (proj2 (is_rounds_iff r)) by auto. cbn [assert_ bind].
  rewrite <- Ea in *. destruct (cycles_loop_ok (S (block_stage b)) (repeat true (block_stage b)) []) as (st & E & G & N & Al & Lf & So);
    try (assert (block_stage b = s) as -> by apply B); auto.
  - apply repeat_length.
  - intros i Hi. rewrite nth_error_repeat_iff. unfold bells_of. cbn [flat_map In]. tauto.
  - constructor.
  - intros i j x y _ Hx. destruct i; discriminate.
  - lia.
  - exists st. assert (block_stage b = s) as Es by apply B. rewrite Es in *. splits; auto.
    apply NoDup_Permutation; auto; [apply seq_NoDup|]. intros i. rewrite in_seq. split.
    + intros Hi. apply in_flat_map in Hi as ((x, n) & Hin & Hi). rewrite Forall_forall in G. destruct (G _ Hin) as [Hx _].
      pose proof (orb_lt s lo V x n Hx) as F. rewrite Forall_forall in F. apply F in Hi. lia.
    + intros Hi. apply Al. lia.
Qed.
End Loops.
