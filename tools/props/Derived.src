(** Property theorems C117: equality of changes, masks and regexes. *)
(*IMPORTS*)
From Verif Require Import Base Bell Spec Stage Row Utils SameStageVec Block PlaceNot Mask Music SpecVec SpecPn SpecMask ListFacts BellFacts RowFacts MulFacts
  GroupFacts PnFacts MaskFacts MaskFacts2 MusicFacts Derived DerivedFacts PnThms MaskThms LawsThms LawsMaskThms LawsRegexThms.
Local Open Scope list_scope.
(*BODY*)

(** C117: legal place notations are equal exactly when they have the same stage and the same transposition, exactly
    when they do the same to every row, and exactly when they do the same to any one row which you care to try. *)
Theorem C117_changes :
  forall p q, legal p -> legal q ->
    (pn_eqb p q = true <-> pn_stage p = pn_stage q /\ pn_transposition p = pn_transposition q) /\
    (pn_eqb p q = true <-> forall r, valid_row r -> pn_permute_new p r = pn_permute_new q r) /\
    (forall r, valid_row r -> length r = pn_stage p -> (pn_eqb p q = true <-> pn_permute_new p r = pn_permute_new q r)).
Proof.
  intros p q P Q.
  assert (One : forall r, valid_row r -> length r = pn_stage p -> pn_permute_new p r = pn_permute_new q r -> p = q).
  { intros r V L E. destruct (pf_C38_permute p r P V L) as (r' & _ & E' & _ & V' & _).
    assert (Lq : length r = pn_stage q).
    { destruct (Nat.eq_dec (length r) (pn_stage q)) as [|N]; auto.
      destruct (pf_C38_permute_wrong_stage q r V N) as (_ & Eq). congruence. }
    destruct (pf_C40_place_notation_between r r' V V') as (o & _ & U & _).
    assert (A : o = Some p) by (apply U; auto). assert (B : o = Some q) by (apply U; splits; auto; congruence). congruence. }
  assert (Hp : 0 < pn_stage p) by apply P.
  splits.
  - rewrite pn_eqb_ok. split; [intros ->; auto|]. intros [S T].
    apply (One (row_rounds (pn_stage p))); [apply valid_rounds; auto|apply length_rounds|].
    destruct (pf_C39_transposition p P) as (t & Et & _ & _ & _ & _ & Kp).
    destruct (pf_C39_transposition q Q) as (u & Eu & _ & _ & _ & _ & Kq).
    destruct (Kp (row_rounds (pn_stage p))) as (r' & -> & _ & M & _); [apply valid_rounds; auto|apply length_rounds|].
    destruct (Kq (row_rounds (pn_stage p))) as (r'' & -> & _ & M' & _); [apply valid_rounds; auto|rewrite length_rounds; auto|]. congruence.
  - rewrite pn_eqb_ok. split; [intros ->; auto|]. intros H.
    apply (One (row_rounds (pn_stage p))); [apply valid_rounds; auto|apply length_rounds|]. apply H, valid_rounds; auto.
  - intros r V L. rewrite pn_eqb_ok. split; [intros ->; auto|]. apply One; auto.
Qed.

(** C117: blocks of legal changes are equal exactly when they ring the same rows, from any one start. *)
Theorem C117_blocks_of_changes :
  forall a b start s, a <> [] -> b <> [] -> Forall (fun pn => legal pn /\ pn_stage pn = s) a ->
    Forall (fun pn => legal pn /\ pn_stage pn = s) b -> valid_row start -> length start = s ->
    (pn_block_eqb a b = true <-> pn_block_to_rows a start = pn_block_to_rows b start).
Proof.
  intros a b start s Na Nb Fa Fb V L. rewrite pn_block_eqb_ok. split; [intros ->; auto|]. intros E.
  destruct (pf_C45_to_rows a start s Na Fa V L) as (v & rs & l & ts & Ev & _).
  eapply (pf_C80_different_blocks_ring_different_rows a b start s v); auto. congruence.
Qed.

(** C117: equal masks match the same rows.  Masks which match the same rows are equal, or else each of them leaves at
    most one place open, and both match one and the same row only.  The second case is real. *)
Theorem C117_masks :
  (forall a b, mask_eqb a b = true -> forall r, mask_matches a r = mask_matches b r) /\
  (forall a b, well_formed_mask a -> well_formed_mask b ->
     ((forall r, valid_row r -> (fits a r <-> fits b r)) <->
      mask_eqb a b = true \/
      (length (mask_unspecified_places a) <= 1 /\ length (mask_unspecified_places b) <= 1 /\
       exists r, valid_row r /\ fits a r /\ fits b r))) /\
  (forall a, well_formed_mask a -> length (mask_unspecified_places a) = 1 ->
     exists b, well_formed_mask b /\ mask_eqb a b = false /\ forall r, valid_row r -> (fits a r <-> fits b r)).
Proof.
  assert (One : forall a, well_formed_mask a -> length (mask_unspecified_places a) <= 1 ->
    exists r0, valid_row r0 /\ forall r, valid_row r -> (fits a r <-> r = r0)).
  { intros a W N. rewrite length_unspecified in N. destruct (count_fits a W) as (l & Ll & _ & Hl).
    assert (E : fact (nopen a) = 1) by (destruct (nopen a) as [|[|?]]; try lia; reflexivity). rewrite E in Ll.
    destruct l as [|r0 [|? ?]]; try discriminate. destruct (proj1 (Hl r0) ltac:(left; auto)) as [V F].
    exists r0. split; auto. intros r Vr. split; [|intros ->; auto]. intros F'.
    assert (In r [r0]) as [<-|[]] by (apply Hl; auto). auto. }
  assert (Many : forall a r0, well_formed_mask a -> (forall r, valid_row r -> fits a r -> r = r0) ->
    length (mask_unspecified_places a) <= 1).
  { intros a r0 W H. rewrite length_unspecified. destruct (count_fits a W) as (l & Ll & ND & Hl).
    destruct (nopen a) as [|[|k]]; try lia. exfalso.
    assert (2 <= length l). { rewrite Ll. change 2 with (fact 2). apply fact_le. lia. }
    destruct l as [|x [|y l]]; cbn in *; try lia.
    assert (x = r0) by (apply H; apply Hl; auto). assert (y = r0) by (apply H; apply Hl; auto). subst.
    inversion_clear ND. cbn in *. tauto. }
  splits.
  - intros a b E r. apply mask_eqb_ok in E. subst. auto.
  - intros a b A B. rewrite mask_eqb_ok. split.
    + intros H. destruct (Nat.le_gt_cases (length (mask_unspecified_places a)) 1) as [Sa|Sa].
      { right. destruct (One a A Sa) as (r0 & V & U). splits; auto.
        - apply (Many b r0); auto. intros r Vr F. apply U, H; auto.
        - exists r0. splits; auto; [apply U; auto|]. apply H, U; auto. }
      destruct (Nat.le_gt_cases (length (mask_unspecified_places b)) 1) as [Sb|Sb].
      { exfalso. destruct (One b B Sb) as (r0 & V & U). assert (length (mask_unspecified_places a) <= 1); [|lia].
        apply (Many a r0); auto. intros r Vr F. apply U, H; auto. }
      left.
      assert (K : forall x y, well_formed_mask x -> well_formed_mask y -> 1 < length (mask_unspecified_places x) ->
        (forall r, valid_row r -> fits x r -> fits y r) -> mask_is_subset_of x y = Ret true).
      { intros x y X Y O F. destruct (pf_C48_subset_partial x y X (proj1 Y)) as (v & E & _ & C). rewrite E. f_equal.
        apply C; auto. intros p q' Lp U _. apply (Nat.lt_irrefl 1). eapply Nat.lt_le_trans; [exact O|].
        apply (NoDup_incl_length (l' := [p])); [apply NoDup_unspecified|]. intros z Hz. left. symmetry. apply U, In_unspecified. auto. }
      apply (pf_C97_subset_is_an_order a b a); try apply A; try apply B; apply K; auto; intros r V; apply H; auto.
    + intros [->|(Sa & Sb & r0 & V & Fa & Fb)]; [tauto|]. intros r Vr.
      destruct (One a A Sa) as (ra & _ & Ua). destruct (One b B Sb) as (rb & _ & Ub).
      rewrite Ua, Ub by auto. apply Ua in Fa; auto. apply Ub in Fb; auto. subst. tauto.
  - intros a W N. destruct (One a W ltac:(lia)) as (r0 & V & U).
    assert (Fb : fits (mask_full_row r0) r0).
    { split; [symmetry; apply map_length|]. intros p b. apply specifies_full. }
    exists (mask_full_row r0). splits.
    + eapply fits_wf; eauto.
    + apply Bool.not_true_is_false. rewrite mask_eqb_ok. intros ->.
      assert (mask_unspecified_places (mask_full_row r0) = []) as E; [|rewrite E in N; discriminate].
      destruct (mask_unspecified_places (mask_full_row r0)) as [|p l] eqn:E2; auto. exfalso.
      assert (P : leaves_open (mask_full_row r0) p) by (apply In_unspecified; rewrite E2; left; auto).
      unfold leaves_open, mask_full_row in P. rewrite nth_error_map in P. destruct (nth_error r0 p); discriminate P.
    + intros r Vr. rewrite U by auto. split; [intros ->; auto|]. intros [L F]. apply row_ext.
      * rewrite L. apply map_length.
      * intros i Hi. rewrite L in Hi. unfold mask_full_row in Hi. rewrite map_length in Hi.
        assert (S : nth_error r i = Some (nth i r0 0)) by (apply F, specifies_full, nth_error_nth'; auto).
        apply (nth_error_nth _ _ 0) in S. auto.
Qed.

(** C117: regexes made from two patterns are equal exactly when the patterns describe the same lists of bells. *)
Theorem C117_regexes :
  forall es fs, exists es' fs', regex_from_vec es = Ret es' /\ regex_from_vec fs = Ret fs' /\
    (regex_eqb es' fs' = true <-> forall l, described es l <-> described fs l).
Proof.
  intros es fs. exists (norm es 0 false), (norm fs 0 false). unfold regex_from_vec.
  pose proof (pf_C98_equal_regexes es fs) as H. unfold regex_from_vec in H. rewrite !normalise_ok in *. splits; auto.
  rewrite regex_eqb_ok, <- H. split; [intros ->; auto|congruence].
Qed.

(** C117: what is fed to a hasher is the same exactly for equal values, and that of one value never begins with that
    of another. *)
Theorem C117_hashing :
  (forall p q l m, pn_feed p ++ l = pn_feed q ++ m <-> pn_eqb p q = true /\ l = m) /\
  (forall a b l m, pn_block_feed a ++ l = pn_block_feed b ++ m <-> pn_block_eqb a b = true /\ l = m) /\
  (forall a b l m, mask_feed a ++ l = mask_feed b ++ m <-> mask_eqb a b = true /\ l = m) /\
  (forall a b l m, regex_feed a ++ l = regex_feed b ++ m <-> regex_eqb a b = true /\ l = m).
Proof.
  splits; intros.
  - rewrite pn_eqb_ok. split; [apply pn_separated|intros [-> ->]; auto].
  - rewrite pn_block_eqb_ok. split; [apply (vec_separated _ pn_separated)|intros [-> ->]; auto].
  - rewrite mask_eqb_ok. split; [apply mask_separated|intros [-> ->]; auto].
  - rewrite regex_eqb_ok. split; [apply regex_separated|intros [-> ->]; auto].
Qed.

Example C117_example :
  (exists p q r, pn_parse (s2l "4") 8 = Ret (Ok p) /\ pn_parse (s2l "14") 8 = Ret (Ok q) /\ pn_parse (s2l "18") 8 = Ret (Ok r) /\
     pn_eqb p q = true /\ pn_eqb p r = false /\ pn_feed p = [2; 0; 3; 8]) /\
  mask_eqb (mask_parse (s2l "1xx4xx")) (mask_parse (s2l "1..4.X")) = true /\
  mask_eqb (mask_parse (s2l "1xx4xx")) (mask_parse (s2l "1xx4x")) = false /\
  mask_unspecified_places (mask_parse (s2l "1xx4xx")) = [1; 2; 4; 5] /\
  (exists e f, regex_parse (s2l "*x1*") = Ret e /\ regex_parse (s2l ".*1*") = Ret f /\ regex_eqb e f = true /\ regex_feed e = [4; 1; 2; 0; 0; 2]).
Proof. splits; try reflexivity; repeat eexists; vm_compute; reflexivity. Qed.
