(** Facts about patterns read backwards and with other bells. *)
From Coq Require Import Permutation.
From Verif Require Import Base Bell Spec Stage Row Utils SameStageVec Block PlaceNot Mask Music SpecMask ListFacts BellFacts RowFacts MulFacts GroupFacts
  SsvFacts BlockFacts ClassFacts MusicFacts MusicFacts2 SymFacts SpecRuns RunFacts SpecRename.
Local Open Scope list_scope.

Lemma nth_lt {A} (l : list A) i x : nth_error l i = Some x -> i < length l.
Proof. intros H. apply nth_error_Some. congruence. Qed.
Lemma nth_rev {A} (l : list A) i : i < length l -> nth_error (rev l) i = nth_error l (length l - S i).
Proof.
  intros L. destruct (nth_error l (length l - S i)) as [y|] eqn:E.
  - rewrite (nth_error_nth' (rev l) y) by (rewrite rev_length; auto). rewrite rev_nth by auto. f_equal. apply nth_error_nth. auto.
  - apply nth_error_None in E. lia.
Qed.

(** ** Backwards *)

Lemma described_rev es l : described es l -> described (rev es) (rev l).
Proof.
  induction 1 as [|b es bs H IH|x es bs H IH|xs es bs H IH]; cbn [rev].
  - constructor.
  - apply described_app. exists (rev bs), [b]. splits; auto. repeat constructor.
  - apply described_app. exists (rev bs), [x]. splits; auto. repeat constructor.
  - rewrite rev_app_distr. apply described_app. exists (rev bs), (rev xs). splits; auto using described_globend.
Qed.

Lemma described_rev_iff es l : described (rev es) (rev l) <-> described es l.
Proof. split; [|apply described_rev]. intros H. apply described_rev in H. rewrite !rev_involutive in H. auto. Qed.

Lemma bells_app a b : bells_written (a ++ b) = bells_written a ++ bells_written b.
Proof. induction a as [|[c| |] a IH]; cbn; congruence. Qed.
Lemma bells_rev es : bells_written (rev es) = rev (bells_written es).
Proof. induction es as [|[c| |] es IH]; cbn; auto; rewrite bells_app, IH; cbn; auto using app_nil_r. Qed.
Lemma any_app a b : count_any (a ++ b) = count_any a + count_any b.
Proof. induction a as [|[c| |] a IH]; cbn; congruence. Qed.
Lemma any_rev es : count_any (rev es) = count_any es.
Proof. induction es as [|[c| |] es IH]; cbn; auto; rewrite any_app, IH; cbn; lia. Qed.

(** The stars of a normalised pattern. *)
Definition stars (es : list regex_elem) (g : bool) : nat := count_glob (norm es 0 g).

Lemma glob_app a b : count_glob (a ++ b) = count_glob a + count_glob b.
Proof. induction a as [|[c| |] a IH]; cbn; congruence. Qed.
Lemma glob_repeat k : count_glob (repeat RAny k) = 0. Proof. induction k; auto. Qed.
Lemma stars_k es : forall k g, count_glob (norm es k g) = stars es g.
Proof.
  unfold stars. induction es as [|[c| |] es IH]; intros k g; cbn [norm].
  - rewrite !glob_app, !glob_repeat. reflexivity.
  - rewrite !glob_app, !glob_repeat. reflexivity.
  - rewrite (IH (S k)), (IH 1). reflexivity.
  - rewrite (IH k). reflexivity.
Qed.
Lemma stars_nil g : stars [] g = if g then 1 else 0. Proof. destruct g; reflexivity. Qed.
Lemma stars_bell b es g : stars (RBell b :: es) g = (if g then 1 else 0) + stars es false.
Proof. unfold stars. cbn [norm]. rewrite glob_app. destruct g; reflexivity. Qed.
Lemma stars_any es g : stars (RAny :: es) g = stars es g. Proof. unfold stars at 1. cbn [norm]. apply stars_k. Qed.
Lemma stars_glob es g : stars (RGlob :: es) g = stars es true. Proof. reflexivity. Qed.

Lemma stars_cut b w : forall es g, stars (es ++ RBell b :: w) g = stars es g + stars w false.
Proof.
  induction es as [|[c| |] es IH]; intros g; cbn [app]; rewrite ?stars_bell, ?stars_any, ?stars_glob; auto.
  - rewrite stars_nil. lia.
  - rewrite IH. lia.
Qed.
Lemma stars_drop w : forall es g, stars (es ++ RAny :: w) g = stars (es ++ w) g.
Proof. induction es as [|[c| |] es IH]; intros g; cbn [app]; rewrite ?stars_bell, ?stars_any, ?stars_glob; auto. Qed.
Lemma stars_two : forall es g, stars (es ++ [RGlob; RGlob]) g = stars (es ++ [RGlob]) g.
Proof. induction es as [|[c| |] es IH]; intros g; cbn [app]; rewrite ?stars_bell, ?stars_any, ?stars_glob; auto. Qed.

Lemma stars_rev_gen : forall es, stars (rev es) false = stars es false /\ stars (rev es ++ [RGlob]) false = stars es true.
Proof.
  induction es as [|[c| |] es [I1 I2]]; [split; reflexivity| | |]; cbn [rev]; rewrite <- ?app_assoc; cbn [app].
  - rewrite !stars_cut, !stars_bell, stars_glob, !stars_nil, I1. split; lia.
  - rewrite !stars_drop, app_nil_r, !stars_any. auto.
  - rewrite stars_two, !stars_glob. auto.
Qed.

Lemma stars_rev es : count_glob (norm (rev es) 0 false) = count_glob (norm es 0 false).
Proof. apply (proj1 (stars_rev_gen es)). Qed.

(** ** Other bells *)

Definition named (x : list nat) (b : nat) : nat := nth b x 0.

Lemma described_named x es fs : Forall2 (renamed x) es fs -> forall l, described es l -> described fs (map (named x) l).
Proof.
  induction 1 as [|e f es fs R _ IH]; intros l D.
  - apply described_nil_inv in D. subst. constructor.
  - destruct R as [b c E| |].
    + apply described_bell_inv in D as (bs & -> & D). cbn [map]. unfold named at 1. rewrite (nth_error_nth _ _ _ E). constructor. auto.
    + apply described_any_inv in D as (y & bs & -> & D). cbn [map]. constructor. auto.
    + apply described_glob_inv in D as (xs & bs & -> & D). rewrite map_app. constructor. auto.
Qed.

Lemma named_described x es fs : NoDup x -> Forall2 (renamed x) es fs -> forall l, Forall (fun b => b < length x) l ->
  described fs (map (named x) l) -> described es l.
Proof.
  intros N. induction 1 as [|e f es fs R _ IH]; intros l F D.
  - apply described_nil_inv in D. destruct l; [constructor|discriminate].
  - destruct R as [b c E| |].
    + apply described_bell_inv in D as (bs & El & D). destruct l as [|a l]; [discriminate|]. injection El as Ea El. subst bs. inversion F; subst.
      assert (a = b).
      { apply (proj1 (NoDup_nth_error x) N); auto. unfold named in E. rewrite E. apply nth_error_nth'; auto. }
      subst a. constructor. auto.
    + apply described_any_inv in D as (y & bs & El & D). destruct l as [|a l]; [discriminate|]. injection El as Ea El. subst bs. inversion F; subst. constructor. auto.
    + apply described_glob_inv in D as (xs & bs & El & D). apply map_eq_app in El as (l1 & l2 & -> & _ & <-). apply Forall_app in F as [_ F]. constructor. auto.
Qed.

Lemma described_named_iff x es fs l : NoDup x -> Forall2 (renamed x) es fs -> Forall (fun b => b < length x) l ->
  (described fs (map (named x) l) <-> described es l).
Proof. intros N R F. split; [apply named_described; auto|apply described_named; auto]. Qed.

Lemma bells_named x es fs : Forall2 (renamed x) es fs -> Forall2 (fun b c => nth_error x b = Some c) (bells_written es) (bells_written fs).
Proof. induction 1 as [|e f es fs R _ IH]; cbn; auto. destruct R; cbn; auto. Qed.

Lemma named_shape x es fs : Forall2 (renamed x) es fs ->
  length (bells_written fs) = length (bells_written es) /\ count_any fs = count_any es /\ forall g, stars fs g = stars es g.
Proof.
  induction 1 as [|e f es fs R _ (I1 & I2 & I3)]; auto.
  destruct R; cbn [bells_written count_any length]; rewrite ?I1, ?I2; (split; [reflexivity|split; [reflexivity|]]); intros g; rewrite ?stars_bell, ?stars_any, ?stars_glob, ?I3; auto.
Qed.

(** ** Results *)

Lemma matches_same es fs r r' : NoDup r -> NoDup r' -> (described es r <-> described fs r') ->
  exists v, regex_matches (norm es 0 false) r = Ret v /\ regex_matches (norm fs 0 false) r' = Ret v.
Proof.
  intros N N' D. destruct (regex_matches_ok (norm es 0 false) r (nf_norm _ _ _) N) as (v & E & H).
  destruct (regex_matches_ok (norm fs 0 false) r' (nf_norm _ _ _) N') as (v' & E' & H').
  rewrite norm_described in H, H'. cbn in H, H'. exists v. split; auto. rewrite E'. f_equal. destruct v, v'; auto; [symmetry|]; intuition congruence.
Qed.

Lemma pattern_same es fs r r' (f : list nat -> list nat) : NoDup r -> NoDup r' -> (described es r <-> described fs r') ->
  (forall ms, ascending ms -> Forall2 (fun i b => nth_error r i = Some b) ms (bells_written es) ->
     ascending (f ms) /\ Forall2 (fun i b => nth_error r' i = Some b) (f ms) (bells_written fs)) ->
  exists o, match_pattern (norm es 0 false) r = Ret o /\ match_pattern (norm fs 0 false) r' = Ret (option_map f o).
Proof.
  intros N N' D P. destruct (match_pattern_ok (norm es 0 false) r (nf_norm _ _ _) N) as (o & E & H).
  destruct (match_pattern_ok (norm fs 0 false) r' (nf_norm _ _ _) N') as (o' & E' & H').
  setoid_rewrite norm_described in H. setoid_rewrite norm_described in H'. cbn in H, H'. setoid_rewrite norm_bells in H. setoid_rewrite norm_bells in H'.
  exists o. split; auto. rewrite E'. f_equal. destruct o as [ms|].
  - cbn. destruct (proj1 (H ms) eq_refl) as (Hd & Ha & Hf). apply H'. split; [tauto|]. auto.
  - cbn. destruct o' as [ms'|]; auto. exfalso. destruct (proj1 (H' ms') eq_refl) as (Hd & _).
    destruct (regex_run_row (norm es 0 false) r (nf_norm _ _ _) N) as (v & ms & Er & Dr & Pr). rewrite norm_described in Dr. cbn in Dr.
    destruct (Pr (proj2 Dr (proj2 D Hd))) as [A F]. rewrite norm_bells in F.
    discriminate (proj2 (H ms) (conj (proj2 D Hd) (conj A F))).
Qed.

Lemma count_same es fs w s : length (bells_written fs) = length (bells_written es) -> count_any fs = count_any es ->
  count_glob (norm fs 0 false) = count_glob (norm es 0 false) ->
  num_matching_rows w (norm fs 0 false) s = num_matching_rows w (norm es 0 false) s.
Proof.
  intros H1 H2 H3. unfold num_matching_rows. rewrite !count_elems_ok, !norm_bells, !norm_any, H1, H2, H3. reflexivity.
Qed.

(** Positions counted from the back. *)
Definition from_back (n : nat) (ps : list nat) : list nat := rev (map (fun p => n - 1 - p) ps).

Lemma from_back_ok r es ms : ascending ms -> Forall2 (fun i b => nth_error r i = Some b) ms (bells_written es) ->
  ascending (from_back (length r) ms) /\ Forall2 (fun i b => nth_error (rev r) i = Some b) (from_back (length r) ms) (bells_written (rev es)).
Proof.
  intros A F. split.
  - intros i j x y L Hi Hj. unfold from_back in *.
    assert (Lj : j < length ms) by (apply nth_lt in Hj; rewrite rev_length, map_length in Hj; auto).
    rewrite nth_rev in Hi, Hj by (rewrite map_length; lia). rewrite map_length in Hi, Hj. rewrite nth_error_map in Hi, Hj.
    destruct (nth_error ms (length ms - S i)) as [p|] eqn:Ep; [|discriminate]. destruct (nth_error ms (length ms - S j)) as [q|] eqn:Eq; [|discriminate].
    injection Hi as <-. injection Hj as <-. assert (q < p) by (eapply (A (length ms - S j) (length ms - S i)); eauto; lia).
    assert (p < length r).
    { apply nth_error_In in Ep. clear - F Ep. induction F as [|i b ms bs H _ IH]; [destruct Ep|]. destruct Ep as [->|Ep]; auto. eapply nth_lt; eauto. }
    lia.
  - rewrite bells_rev. unfold from_back. clear A. induction F as [|i b ms bs H F IH]; cbn [map rev]; [constructor|].
    apply Forall2_app; auto. constructor; [|constructor]. pose proof (nth_lt _ _ _ H). rewrite nth_rev by lia.
    replace (length r - S (length r - 1 - i)) with i by lia. auto.
Qed.

(** ** Runs *)

Lemma segs_rev s len : Permutation (segs s len) (map (@rev nat) (segs s len)).
Proof.
  unfold segs. induction (seq 0 (s - len + 1)) as [|i l IH]; cbn [flat_map map app]; auto.
  rewrite rev_involutive. eapply perm_trans; [apply perm_swap|]. auto.
Qed.

Definition turn (s b : nat) : nat := s - 1 - b.

Lemma seq_turn s len : forall i, i + len <= s -> map (turn s) (seq i len) = rev (seq (s - len - i) len).
Proof.
  induction len as [|len IH]; intros i L; auto. rewrite seq_S, map_app, IH by lia. cbn [map].
  replace (s - len - i) with (S (s - S len - i)) by lia. cbn [seq rev]. f_equal. unfold turn. f_equal. lia.
Qed.

Lemma segs_turn s len : len <= s -> Permutation (segs s len) (map (map (turn s)) (segs s len)).
Proof.
  intros L. unfold segs. set (n := s - len).
  assert (E : map (map (turn s)) (flat_map (fun i => [seq i len; rev (seq i len)]) (seq 0 (n + 1))) =
              flat_map (fun i => [rev (seq i len); seq i len]) (rev (seq 0 (n + 1)))).
  { assert (G : forall k, k <= n + 1 -> map (map (turn s)) (flat_map (fun i => [seq i len; rev (seq i len)]) (seq 0 k)) =
        flat_map (fun i => [rev (seq i len); seq i len]) (rev (seq (n + 1 - k) k))).
    { induction k as [|k IH]; intros Hk; auto. rewrite seq_S, flat_map_app, map_app, IH by lia. cbn [flat_map map app Nat.add].
      replace (n + 1 - k) with (S (n + 1 - S k)) by lia. cbn [seq rev]. rewrite flat_map_app. cbn [flat_map app]. f_equal.
      rewrite map_rev, seq_turn by (unfold n in *; lia). rewrite rev_involutive. replace (s - len - k) with (n + 1 - S k) by (unfold n; lia). reflexivity. }
    rewrite (G (n + 1)) by lia. rewrite Nat.sub_diag. reflexivity. }
  rewrite E. clear E.
  assert (P : Permutation (flat_map (fun i => [rev (seq i len); seq i len]) (seq 0 (n + 1))) (flat_map (fun i => [rev (seq i len); seq i len]) (rev (seq 0 (n + 1))))).
  { apply Coq.Sorting.Permutation.Permutation_flat_map, Permutation_rev. }
  eapply perm_trans; [|exact P]. apply GroupFacts.Permutation_flat_map. intros. apply perm_swap.
Qed.

Lemma filter_perm {A} (f : A -> bool) l l' : Permutation l l' -> length (filter f l) = length (filter f l').
Proof. induction 1; cbn; try (destruct (f x)); try (destruct (f y)); cbn; congruence. Qed.

(** If the patterns of one list correspond to those of the other, as many are matched. *)
Lemma matching_by (h : list regex_elem -> list regex_elem) ps qs r r' :
  Permutation qs (map h ps) -> (forall es, In es ps -> nf es /\ nf (h es) /\ (described es r <-> described (h es) r')) -> NoDup r -> NoDup r' ->
  length (matching ps r) = length (matching qs r').
Proof.
  intros P H N N'. unfold matching. rewrite (filter_perm _ _ _ P). clear P. induction ps as [|es ps IH]; auto.
  assert (E : match regex_matches es r with Ret true => true | _ => false end = match regex_matches (h es) r' with Ret true => true | _ => false end).
  { destruct (H es (or_introl eq_refl)) as (F & F' & D). destruct (regex_matches_ok es r F N) as (v & -> & V). destruct (regex_matches_ok (h es) r' F' N') as (v' & -> & V').
    destruct v, v'; auto; exfalso; intuition congruence. }
  cbn [filter map]. rewrite E. destruct (match regex_matches (h es) r' with Ret true => true | _ => false end); cbn [length]; rewrite IH; auto; intros; apply H; right; auto.
Qed.

Lemma perm_map_seg {B} (f g : list nat -> B) (k : list nat -> list nat) l : Permutation l (map k l) -> (forall x, f (k x) = g x) -> Permutation (map f l) (map g l).
Proof. intros P E. eapply perm_trans; [apply Permutation_map, P|]. rewrite map_map. rewrite (map_ext _ g); auto. Qed.

Lemma rev_bells g : rev (map RBell g) = map RBell (rev g). Proof. symmetry. apply map_rev. Qed.

Lemma runs_rev s len : len <= s ->
  Permutation (runs_back s len) (map (@rev _) (runs_front s len)) /\ Permutation (runs_front s len) (map (@rev _) (runs_back s len)) /\
  Permutation (all_runs s len) (map (@rev _) (all_runs s len)).
Proof.
  intros L. rewrite runs_back_segs, runs_front_segs, all_runs_segs by auto. rewrite !map_map. splits.
  - apply (perm_map_seg _ _ (@rev nat)); [apply segs_rev|]. intros x. rewrite rev_app_distr, rev_bells. reflexivity.
  - apply (perm_map_seg _ _ (@rev nat)); [apply segs_rev|]. intros x. cbn [rev]. rewrite rev_bells. reflexivity.
  - apply (perm_map_seg _ _ (@rev nat)); [apply segs_rev|]. intros x. cbn [rev]. rewrite rev_app_distr, rev_bells. reflexivity.
Qed.

Definition turned_elem (s : nat) (e : regex_elem) : regex_elem := match e with RBell b => RBell (turn s b) | e => e end.

Lemma turned_bells s g : map (turned_elem s) (map RBell g) = map RBell (map (turn s) g).
Proof. rewrite !map_map. reflexivity. Qed.

Lemma runs_turn s len : len <= s ->
  Permutation (runs_back s len) (map (map (turned_elem s)) (runs_back s len)) /\ Permutation (runs_front s len) (map (map (turned_elem s)) (runs_front s len)) /\
  Permutation (all_runs s len) (map (map (turned_elem s)) (all_runs s len)).
Proof.
  intros L. rewrite runs_back_segs, runs_front_segs, all_runs_segs by auto. rewrite !map_map. pose proof (segs_turn s len L) as P. splits.
  - apply (perm_map_seg _ _ (map (turn s))); auto. intros x. cbn [map turned_elem]. rewrite turned_bells. reflexivity.
  - apply (perm_map_seg _ _ (map (turn s))); auto. intros x. rewrite map_app, turned_bells. reflexivity.
  - apply (perm_map_seg _ _ (map (turn s))); auto. intros x. cbn [map turned_elem]. rewrite map_app, turned_bells. reflexivity.
Qed.

Lemma turned_renamed s es : Forall (fun b => b < s) (bells_written es) -> Forall2 (renamed (row_backrounds s)) es (map (turned_elem s) es).
Proof.
  induction es as [|[b| |] es IH]; cbn; intros F; constructor; auto; try constructor.
  - apply nth_backrounds. inversion F; auto.
  - inversion F; auto.
Qed.

Lemma segs_lt s len g : len <= s -> In g (segs s len) -> Forall (fun b => b < s) g.
Proof. intros L H. apply In_segs in H as (i & Hi & [-> | ->]); auto; apply Forall_forall; intros x Hx; [|apply in_rev in Hx]; apply in_seq in Hx; lia. Qed.

Lemma bells_map g : bells_written (map RBell g) = g.
Proof. induction g; cbn; congruence. Qed.

Lemma runs_bells s len es : len <= s -> In es (runs_front s len) \/ In es (runs_back s len) \/ In es (all_runs s len) -> Forall (fun b => b < s) (bells_written es).
Proof.
  intros L. rewrite runs_back_segs, runs_front_segs, all_runs_segs by auto. rewrite !in_map_iff.
  intros [(g & <- & H)|[(g & <- & H)|(g & <- & H)]]; apply segs_lt in H; auto; cbn [bells_written]; rewrite ?bells_app, bells_map; cbn; rewrite ?app_nil_r; auto.
Qed.

Lemma rev_by_backrounds n r : vrow n r -> row_mul r (row_backrounds n) = Ret (rev r).
Proof.
  intros V. assert (0 < n) by (destruct V as [[V _] <-]; destruct r; [congruence|cbn; lia]).
  rewrite (row_mul_ok n) by auto using valid_backrounds. f_equal. unfold rmul, row_backrounds, range. rewrite Nat.sub_0_r, map_rev. f_equal.
  destruct V as [_ <-]. pose proof (rmul_rounds_r (length r) r eq_refl) as E. unfold rmul, row_rounds, range in E. rewrite Nat.sub_0_r in E. exact E.
Qed.

Lemma turned_by_backrounds n r : vrow n r -> row_mul (row_backrounds n) r = Ret (map (turn n) r).
Proof.
  intros V. assert (0 < n) by (destruct V as [[V _] <-]; destruct r; [congruence|cbn; lia]).
  rewrite (row_mul_ok n) by auto using valid_backrounds. f_equal. unfold rmul. apply map_ext_in. intros b Hb.
  assert (b < n) by (destruct V as [(_ & _ & V) <-]; apply V; auto).
  apply nth_error_nth. apply nth_backrounds. auto.
Qed.
