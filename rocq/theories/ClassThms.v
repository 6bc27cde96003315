(** Properties C61 and C62: the cycles of the bells of a lead, and the classification of methods. *)

(* Generated from tools/props/Class.src: the proofs behind PropsClass.v. *)
From Verif Require Import Base Spec ListFacts Bell Stage Row RowFacts MulFacts GroupFacts
  Utils SameStageVec SpecVec SsvFacts Block SpecBlock BlockFacts PlaceNot SpecPn PnFacts PnFacts2 PropsBell PropsPn
  Class SpecClass ClassFacts ClassFacts2 ClassFacts3.
Local Open Scope list_scope.

Lemma pf_C61_cycles_partition_the_bells :
  forall A (b : block A) s ars lo, block_holds b s ars lo -> ars <> [] ->
    is_identity (hd [] (map fst ars)) ->
    exists cs, cycles_from_lead b = Ret cs /\
      Permutation (flat_map place_bells cs) (seq 0 s) /\
      (forall c, In c cs -> is_cycle lo (place_bells c)) /\
      (forall c, In c cs -> full_path c = flat_map (path_in (map fst ars)) (place_bells c)) /\
      (forall c y, In c cs -> In y (place_bells c) -> hd 0 (place_bells c) <= y) /\
      (forall i j c d, i < j -> nth_error cs i = Some c -> nth_error cs j = Some d ->
         hd 0 (place_bells c) < hd 0 (place_bells d)).
Proof.
  intros A b s ars lo H Na I. apply holds_brep in H. pose proof (brep_vrows _ _ _ _ H) as [Fv V].
  assert (I' : is_identity (hd [] (all_rows_of ars lo))).
  { unfold all_rows_of. destruct ars; [congruence|exact I]. }
  destruct (cycles_ok s ars lo b H Na I') as (st & E & F & P & Lf & So).
  assert (Hh : forall x n, good_start s lo (x, n) -> hd 0 (orb lo x n) = x).
  { intros x n [_ [Hn _]]. cbn [fst snd] in *. unfold orb. destruct n; [lia|]. reflexivity. }
  rewrite Forall_forall in F, Lf. exists (map (cyc ars lo) st). split; auto. split.
  { eapply Permutation_trans; [|exact P]. unfold bells_of. rewrite flat_map_concat_map, map_map, <- flat_map_concat_map.
    apply Permutation_refl. }
  split; [|split; [|split]].
  - intros c Hc. apply in_map_iff in Hc as ((x, n) & <- & Hin). destruct (F _ Hin). apply (orb_is_cycle s); auto.
  - intros c Hc. apply in_map_iff in Hc as ((x, n) & <- & Hin). reflexivity.
  - intros c y Hc Hy. apply in_map_iff in Hc as ((x, n) & <- & Hin). cbn [cyc place_bells fst snd] in *.
    rewrite Hh by auto. apply (Lf _ Hin y Hy).
  - intros i j c d Hij Hi Hj. rewrite nth_error_map in Hi, Hj.
    destruct (nth_error st i) as [(x, n)|] eqn:Ei; [|discriminate]. destruct (nth_error st j) as [(y, m)|] eqn:Ej; [|discriminate].
    cbn in Hi, Hj. injection Hi as <-. injection Hj as <-. cbn [cyc place_bells fst snd].
    rewrite !Hh by (apply F; eapply nth_error_In; eauto). apply (So i j); auto; rewrite nth_error_map, ?Ei, ?Ej; reflexivity.
Qed.

Lemma pf_C61_place_bells_are_successive_leads :
  forall A (b : block A) s ars lo cs c x, block_holds b s ars lo ->
    cycles_from_lead b = Ret cs -> In c cs -> hd_error (place_bells c) = Some x ->
    returns_after lo x (num_leads c) /\
    forall k y h, k < num_leads c -> power lo k h ->
      (nth_error (place_bells c) k = Some y <-> nth_error h y = Some x).
Proof.
  intros A b s ars lo cs c x H E Hc Hx. apply holds_brep in H. pose proof (brep_vrows _ _ _ _ H) as [Fv V].
  assert (Na : ars <> [] /\ is_identity (hd [] (all_rows_of ars lo))).
  { unfold cycles_from_lead, block_first_annot_row in E. erewrite brep_get_annot_row in E by eauto.
    destruct ars as [|(r, a) t]; [discriminate|]. split; [discriminate|]. cbn [nth_error unwrap bind fst] in E.
    unfold all_rows_of. cbn [map app hd fst]. destruct (is_rounds r) eqn:R; [|discriminate].
    apply is_rounds_iff in R. rewrite R. apply rounds_identity. }
  destruct Na as [Na I]. destruct (cycles_ok s ars lo b H Na I) as (st & E' & F & P & Lf & So).
  rewrite E' in E. injection E as <-. apply in_map_iff in Hc as ((z, n) & <- & Hin).
  rewrite Forall_forall in F. destruct (F _ Hin) as [Hz O]. cbn [fst snd] in *.
  assert (z = x).
  { cbn [cyc place_bells fst snd] in Hx. unfold orb in Hx. destruct n; [destruct O; lia|]. cbn in Hx.
    injection Hx as Hx. exact Hx. }
  subst z. rewrite cyc_leads. split; [apply (returns_after_order s lo V); auto|].
  intros k y h Hk Pk. rewrite (power_nth s lo V x k h y Hz Pk).
  cbn [cyc place_bells fst snd]. unfold orb. rewrite nth_error_map, nth_error_seq.
  destruct (Nat.ltb_spec k n); [|lia]. cbn. split; [intros [= <-]; auto|intros ->; auto].
Qed.

Lemma pf_C61_hunt_bells_are_fixed_by_the_lead_head :
  forall A (b : block A) s ars lo cs, block_holds b s ars lo -> cycles_from_lead b = Ret cs ->
    (forall c x, In c cs -> as_hunt_bell c = Some x ->
       hunt_bell lo x /\ place_bells c = [x] /\ full_path c = path_in (map fst ars) x) /\
    (forall x, hunt_bell lo x -> exists c, In c cs /\ as_hunt_bell c = Some x) /\
    forall hunts working, partition_cycles cs = (hunts, working) ->
      (forall c, In c hunts <-> In c cs /\ exists x, as_hunt_bell c = Some x) /\
      (forall c, In c working <-> In c cs /\ as_hunt_bell c = None).
Proof.
  intros A b s ars lo cs H E. apply holds_brep in H. pose proof (brep_vrows _ _ _ _ H) as [Fv V].
  assert (Na : ars <> [] /\ is_identity (hd [] (all_rows_of ars lo))).
  { unfold cycles_from_lead, block_first_annot_row in E. erewrite brep_get_annot_row in E by eauto.
    destruct ars as [|(r, a) t]; [discriminate|]. split; [discriminate|]. cbn [nth_error unwrap bind fst] in E.
    unfold all_rows_of. cbn [map app hd fst]. destruct (is_rounds r) eqn:R; [|discriminate].
    apply is_rounds_iff in R. rewrite R. apply rounds_identity. }
  destruct Na as [Na I]. destruct (cycles_ok s ars lo b H Na I) as (st & E' & F & P & Lf & So).
  rewrite E' in E. injection E as <-.
  pose proof (fun c => hunt_cycles_In s ars lo b H Na st c F P) as HC.
  assert (AH : forall c, cycle_is_hunt c = true <-> exists x, as_hunt_bell c = Some x).
  { intros [pbs fp]. unfold cycle_is_hunt, as_hunt_bell. cbn [place_bells]. destruct pbs as [|x [|y t]]; cbn; split; eauto.
    - discriminate.
    - intros (x & [=]).
    - discriminate.
    - intros (z & [=]). }
  split; [|split].
  - intros c x Hc Ex. assert (In c (filter cycle_is_hunt (map (cyc ars lo) st))) as J.
    { apply filter_In. split; auto. apply AH. eauto. }
    apply HC in J as (y & Hy & ->). cbn in Ex. injection Ex as ->. splits; auto.
  - intros x Hx. assert (In (hcyc ars x) (filter cycle_is_hunt (map (cyc ars lo) st))) as J by (apply HC; eauto).
    apply filter_In in J as [J _]. exists (hcyc ars x). auto.
  - intros hunts working Ep. rewrite partition_ok in Ep. injection Ep as <- <-. split; intros c; rewrite filter_In.
    + rewrite AH. tauto.
    + rewrite negb_true_iff, <- not_true_iff_false, AH. destruct (as_hunt_bell c) as [x|]; split; intros [H1 H2]; split; auto; try discriminate.
      * exfalso. apply H2. eauto.
      * intros (x & [=]).
Qed.

Lemma pf_C61_panics :
  forall A (b : block A) s ars lo, block_holds b s ars lo ->
    (cycles_from_lead b = Panic <-> ~ (ars <> [] /\ is_identity (hd [] (map fst ars)))).
Proof.
  intros A b s ars lo H. apply holds_brep in H. split.
  - intros E [Na I]. assert (I' : is_identity (hd [] (all_rows_of ars lo))).
    { unfold all_rows_of. destruct ars; [congruence|exact I]. }
    destruct (cycles_ok s ars lo b H Na I') as (st & E' & _). congruence.
  - intros N. unfold cycles_from_lead, block_first_annot_row. erewrite brep_get_annot_row by eauto.
    destruct ars as [|(r, a) t]; [reflexivity|]. cbn [nth_error unwrap bind fst].
    destruct (is_rounds r) eqn:R; [|reflexivity]. exfalso. apply N. split; [discriminate|].
    apply is_rounds_iff in R. cbn. rewrite R. apply rounds_identity.
Qed.

Lemma pf_C62_specification_is_unambiguous :
  (forall p, p <> [] -> exists h, path_class p h) /\
  (forall p h h', path_class p h -> path_class p h' -> h = h') /\
  (forall rows head x y h h', dominant rows head x h -> dominant rows head y h' -> h = h') /\
  (forall rows head h c c', method_class rows head h c -> method_class rows head h c' -> c = c').
Proof.
  splits.
  - intros p Np.
    assert (F : Forall (fun x => x < S (fold_right Nat.max 0 p)) p).
    { clear. apply Forall_forall. intros x Hx. induction p as [|y p IH]; [destruct Hx|]. cbn [fold_right].
      destruct Hx as [->|Hx]; [lia|]. specialize (IH Hx). lia. }
    destruct (classify_cycle _ (Cycle [0] p) (conj Np F)) as (l & h & _ & O & _). exists h. exact O.
  - apply path_class_fun.
  - intros rows head x y h h' (H1 & H2 & H3) (K1 & K2 & K3). apply dominance_inj. apply Nat.le_antisymm; eauto.
  - intros rows head h c c' H K. unfold all_cross_sections in *.
    destruct H as [x H1 H2 H3|H|r1 r2 H1 H2|H|H1 H2| | |]; inversion K as [y K1 K2 K3|K1|q1 q2 K1 K2|K1|K1 K2| | |]; subst;
      auto; unfold all_cross_sections in *; try contradiction; exfalso.
    + eapply K1; eauto.
    + eapply H; eauto.
    + eapply K1; eauto.
    + eapply H; eauto.
Qed.

Lemma pf_C62_classification :
  forall A (b : block A) s ars lo hash_order, block_holds b s ars lo -> ars <> [] ->
    is_identity (hd [] (map fst ars)) ->
    (forall i r1 r2, change_at (map fst ars) lo i r1 r2 -> no_jump r1 r2) ->
    (forall l, collected_set l (hash_order l)) ->
    exists fc, classify hash_order b = Ret fc /\ is_jump fc = false /\
      (is_differential fc = true <->
         exists x y k l, x < s /\ ~ hunt_bell lo x /\ returns_after lo x k /\
           y < s /\ ~ hunt_bell lo y /\ returns_after lo y l /\ k <> l) /\
      (fc_class fc = Principle <-> forall x, ~ hunt_bell lo x) /\
      (fc_class fc = Principle -> is_little fc = false) /\
      ((exists x, hunt_bell lo x) -> exists x h, dominant (map fst ars) lo x h) /\
      (forall x h, dominant (map fst ars) lo x h ->
         method_class (map fst ars) lo h (fc_class fc) /\
         (is_little fc = true <-> forall y, dominant (map fst ars) lo y h ->
            exists q, q < s /\ ~ In q (path_in (map fst ars) y))).
Proof.
  intros A b s ars lo ho H Na I J HO. apply holds_brep in H. pose proof (brep_vrows _ _ _ _ H) as [Fv V].
  assert (I' : is_identity (hd [] (all_rows_of ars lo))).
  { unfold all_rows_of. destruct ars; [congruence|exact I]. }
  destruct pf_C62_specification_is_unambiguous as (_ & _ & DF & _).
  destruct (classify_ok s ars lo b H Na I' ho HO) as (d & Hd & [[N E]|(x & h & little & D & Hl & K)]).
  - eexists. split; [exact E|]. cbn. split; [reflexivity|]. split; [exact Hd|]. split; [|split; [|split]].
    + tauto.
    + reflexivity.
    + intros (x & Hx). exfalso. eapply N; eauto.
    + intros x h (Hx & _). exfalso. eapply N; eauto.
  - destruct K as [(-> & (r1 & r2 & (y & i & _ & _ & C) & NJ) & _)|(_ & cl & M & E)].
    { exfalso. apply NJ. eapply J; eauto. }
    eexists. split; [exact E|]. cbn. split; [reflexivity|]. split; [exact Hd|]. split; [|split; [|split]].
    + split; [intros ->; inversion M|]. intros N. exfalso. apply (N x). apply D.
    + intros ->. inversion M.
    + intros _. eauto.
    + intros y h' D'. pose proof (DF _ _ _ _ _ _ D D') as <-. auto.
Qed.

Lemma pf_C62_panics :
  forall A (b : block A) s ars lo hash_order, block_holds b s ars lo -> ars <> [] ->
    is_identity (hd [] (map fst ars)) -> (forall l, collected_set l (hash_order l)) ->
    (classify hash_order b = Panic /\
       exists r1 r2, cross_section (map fst ars) lo r1 r2 /\ ~ no_jump r1 r2) \/
    (all_cross_sections (map fst ars) lo no_jump /\ exists fc, classify hash_order b = Ret fc).
Proof.
  intros A b s ars lo ho H Na I HO. apply holds_brep in H. pose proof (brep_vrows _ _ _ _ H) as [Fv V].
  assert (I' : is_identity (hd [] (all_rows_of ars lo))).
  { unfold all_rows_of. destruct ars; [congruence|exact I]. }
  destruct pf_C62_specification_is_unambiguous as (_ & _ & DF & _).
  destruct (classify_ok s ars lo b H Na I' ho HO) as (d & Hd & [[N E]|(x & h & little & D & Hl & K)]).
  - right. split; eauto. intros r1 r2 (y & i & (Hy & _) & _). exfalso. eapply N; eauto.
  - destruct K as [(-> & C & E)|(C & cl & M & E)]; [left; auto|]. right. split; eauto.
    intros r1 r2 X. apply C; auto. destruct X as (y & i & D' & _). eapply DF; eauto.
Qed.

Lemma pf_C62_hash_order_is_irrelevant :
  forall A (b : block A) s ars lo o1 o2, block_holds b s ars lo -> ars <> [] ->
    is_identity (hd [] (map fst ars)) ->
    (forall l, collected_set l (o1 l)) -> (forall l, collected_set l (o2 l)) ->
    classify o1 b = classify o2 b.
Proof.
  intros A b s ars lo o1 o2 H Na I H1 H2. apply holds_brep in H. pose proof (brep_vrows _ _ _ _ H) as [Fv V].
  assert (I' : is_identity (hd [] (all_rows_of ars lo))).
  { unfold all_rows_of. destruct ars; [congruence|exact I]. }
  destruct pf_C62_specification_is_unambiguous as (_ & _ & DF & MF).
  destruct (classify_ok s ars lo b H Na I' o1 H1) as (d & Hd & Y1).
  destruct (classify_ok s ars lo b H Na I' o2 H2) as (d' & Hd' & Y2).
  assert (d' = d) as ->.
  { destruct d, d'; auto; [apply Hd'; apply Hd; auto|symmetry; apply Hd; apply Hd'; auto]. }
  destruct Y1 as [[N E]|(x & h & little & D & Hl & K)], Y2 as [[N' E']|(x' & h' & little' & D' & Hl' & K')].
  - congruence.
  - exfalso. apply (N x'). apply D'.
  - exfalso. apply (N' x). apply D.
  - pose proof (DF _ _ _ _ _ _ D D') as <-.
    assert (little' = little) as ->.
    { destruct little, little'; auto; [apply Hl'; apply Hl; auto|symmetry; apply Hl; apply Hl'; auto]. }
    destruct K as [(Eh & (r1 & r2 & C & NJ) & E)|(C & cl & M & E)], K' as [(Eh' & (r1' & r2' & C' & NJ') & E')|(C' & cl' & M' & E')].
    + congruence.
    + exfalso. apply NJ. apply (C' Eh). auto.
    + exfalso. apply NJ'. apply (C Eh'). auto.
    + rewrite E, E'. rewrite (MF _ _ _ _ _ M M'). reflexivity.
Qed.

Lemma pf_C62_legal_changes_do_not_jump :
  forall pn r r', legal pn -> valid_row r -> length r = pn_stage pn ->
    rings (pn_places pn) 0 r r' -> no_jump r r' /\
    (internal_place r r' <-> exists p, In p (pn_places pn) /\ 0 < p /\ p + 1 < pn_stage pn).
Proof.
  intros pn r r' L V E R. pose proof (valid_row_NoDup r V) as D. split; [eapply rings_near; eauto|].
  unfold internal_place. rewrite <- E. split.
  - intros (p & x & H1 & H2 & E1 & E2). exists p. splits; auto.
    change p with (0 + p). apply (rings_stays (pn_places pn) 0 r r' p); auto; try lia. congruence.
  - intros (p & Hin & H1 & H2). destruct (nth_error r p) as [x|] eqn:Ex; [|apply nth_error_None in Ex; lia].
    exists p, x. splits; auto. rewrite <- Ex. apply (rings_stays (pn_places pn) 0); auto. lia.
Qed.

Lemma pf_C62_hybrid_paths_are_asymmetric_refuted :
  ~ (forall (b : block unit) s ars lo hash_order fc x h, block_holds b s ars lo ->
       (forall l, collected_set l (hash_order l)) -> classify hash_order b = Ret fc ->
       fc_class fc = Hybrid -> dominant (map fst ars) lo x h -> ~ symmetric (path_in (map fst ars) x)).
Proof.
  intros H.
  set (rows := [[0; 1]; [1; 0]; [0; 1]; [1; 0]; [0; 1]; [1; 0]]).
  assert (V0 : valid_row [0; 1]) by vr. assert (V1 : valid_row [1; 0]) by vr.
  assert (exists b, block_build (BlockArg 2 (rows ++ [[0; 1]]) (fun _ => tt)) = Ret (Some b) /\
    block_holds b 2 (map (fun r => (r, tt)) rows) [0; 1]) as (b & Eb & Hb).
  { eexists. split; [vm_compute; reflexivity|]. unfold block_holds. splits; auto.
    cbn. repeat (apply Forall_cons; [split; auto|]). apply Forall_nil. }
  assert (HO : forall l, collected_set l (nodup Nat.eq_dec l)).
  { intros l. split; [apply NoDup_nodup|]. intros x. apply nodup_In. }
  assert (G : forall p, p = [0; 1; 0; 1; 0; 1] \/ p = [1; 0; 1; 0; 1; 0] -> path_class p HHybrid /\ symmetric p).
  { intros p Hp.
    assert (S : symmetric p).
    { destruct Hp as [-> | ->]; [exists [0], [1; 0; 1; 0; 1]|exists [1], [0; 1; 0; 1; 0]]; split; reflexivity. }
    split; auto. apply pc_few_places; auto.
    - intros (q & Hq). assert (0 = q) by (apply Hq; destruct Hp as [-> | ->]; cbn; auto).
      assert (1 = q) by (apply Hq; destruct Hp as [-> | ->]; cbn; auto). congruence.
    - intros E. assert (visits p 0 = 2) as E0 by (apply E; destruct Hp as [-> | ->]; cbn; auto).
      destruct Hp as [-> | ->]; discriminate.
    - intros q r Hq Hr. assert (Q : forall q, In q p -> q = 0 \/ q = 1).
      { intros z Hz. destruct Hp as [-> | ->]; cbn in Hz; intuition auto. }
      destruct Hp as [-> | ->], (Q q Hq) as [-> | ->], (Q r Hr) as [-> | ->]; reflexivity.
    - destruct Hp as [-> | ->]; cbv; lia. }
  apply (H b 2 _ [0; 1] (nodup Nat.eq_dec) (FullClass false false false Hybrid) 0 HHybrid Hb HO).
  - vm_compute in Eb. injection Eb as <-. vm_compute. reflexivity.
  - reflexivity.
  - split; [reflexivity|]. split; [apply G; left; reflexivity|]. intros y h' Hy Hp.
    assert (K : path_class (path_in (map fst (map (fun r => (r, tt)) rows)) y) HHybrid).
    { destruct y as [|[|y]]; [apply G; left; reflexivity|apply G; right; reflexivity|]. destruct y; discriminate. }
    rewrite (path_class_fun _ _ _ Hp K). auto.
  - apply G. left. reflexivity.
Qed.
