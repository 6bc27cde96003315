(** Property theorems C135: in Bob and Place methods the treble plain hunts. *)
(*IMPORTS*)
From Verif Require Import Base Spec ListFacts Bell Stage Row RowFacts MulFacts GroupFacts
  Utils SameStageVec SpecVec SsvFacts Block SpecBlock BlockFacts PlaceNot SpecPn
  Class SpecClass ClassFacts ClassFacts2 ClassFacts3 SpecHunt PlainFacts LeadLenFacts.
From Verif Require Import ClassThms.
Local Open Scope list_scope.
(*BODY*)
(** C135: a closed path which moves by at most one place at a time is of the class "plain" exactly when it hunts between two places, from the
    one to the other and back with two rows at each end, or is four rows of dodging in two places. *)
Theorem C135_plain_paths :
  forall p, p <> [] -> closed_path p ->
    (path_class p HPlain <-> (exists a h, 2 <= h /\ hunts_between p a h) \/ (exists a, dodges_between p a)).
Proof.
  intros p N C. split; [apply plain_to; auto|]. intros [(a & h & H & B)|(a & D)]; [eapply to_plain; eauto|eapply dodge_plain; eauto].
Qed.

(** C135: a lead which starts at rounds and jumps at no change is classified as that of a Bob or a Place method, in whatever order the hash set
    is iterated over, exactly when some hunt bell hunts between two places (or dodges as above).  If it is not little, it has two rows for each bell. *)
Theorem C135_plain_methods :
  forall A (b : block A) s ars lo hash_order fc, block_holds b s ars lo -> ars <> [] ->
    is_identity (hd [] (map fst ars)) ->
    (forall i r1 r2, change_at (map fst ars) lo i r1 r2 -> no_jump r1 r2) ->
    (forall l, collected_set l (hash_order l)) -> classify hash_order b = Ret fc ->
    ((fc_class fc = Bob \/ fc_class fc = Place) <->
     exists x a, hunt_bell lo x /\
       ((exists h, 2 <= h /\ hunts_between (path_in (map fst ars) x) a h) \/ dodges_between (path_in (map fst ars) x) a)) /\
    (fc_class fc = Bob \/ fc_class fc = Place -> is_little fc = false -> length ars = 2 * s).
Proof.
  intros A b s ars lo ho fc H Na I NJ HO E.
  destruct (pf_C62_classification A b s ars lo ho H Na I NJ HO) as (fc' & E' & _ & _ & Pr & _ & Ex & Dm). rewrite E in E'. injection E' as <-.
  pose proof (holds_brep _ _ _ _ H) as B. pose proof (brep_vrows _ _ _ _ B) as [Va Vl]. set (rows := map fst ars) in *.
  assert (Nr : rows <> []). { unfold rows. destruct ars; [congruence|discriminate]. }
  assert (R0 : exists r0 rest, rows = r0 :: rest) by (destruct rows as [|r0 rest]; [congruence|eauto]). destruct R0 as (r0 & rest & R0).
  assert (CP : forall x, hunt_bell lo x -> closed_path (path_in rows x)) by (intros x Hx; eapply hunt_closed; eauto).
  assert (NP : forall x, path_in rows x <> []). { intros x. unfold path_in. rewrite R0. discriminate. }
  assert (PC : forall x, hunt_bell lo x -> (path_class (path_in rows x) HPlain <->
     (exists a h, 2 <= h /\ hunts_between (path_in rows x) a h) \/ (exists a, dodges_between (path_in rows x) a))).
  { intros x Hx. apply pf_C135_plain_paths; auto. }
  assert (K : fc_class fc = Bob \/ fc_class fc = Place -> exists x, dominant rows lo x HPlain).
  { intros Cl. assert (Dec : (exists x, hunt_bell lo x) \/ forall x, ~ hunt_bell lo x).
    { destruct (fixed_bells lo) as [|x l] eqn:Ef; [right|left; exists x]; [intros x Hx|]; pose proof (proj1 (fixed_bells_spec lo) x) as F; rewrite Ef in F.
      - apply F in Hx. destruct Hx.
      - apply F. left; auto. }
    destruct Dec as [Dec|Dec]; [|apply Pr in Dec; rewrite Dec in Cl; destruct Cl; discriminate].
    destruct (Ex Dec) as (x & h & D). destruct (Dm x h D) as [M _]. destruct h; eauto; exfalso; inversion M; subst; destruct Cl; congruence. }
  split.
  - split.
    + intros Cl. destruct (K Cl) as (x & Hx & Px & _). exists x. apply (PC x Hx) in Px as [(a & h & Q)|(a & Q)]; exists a; eauto.
    + intros (x & a & Hx & Q). assert (Px : path_class (path_in rows x) HPlain). { apply (PC x Hx). destruct Q as [(h & Q)|Q]; eauto. }
      assert (D : dominant rows lo x HPlain). { split; [auto|split; [auto|]]. intros y h' _ _. destruct h'; cbn; lia. }
      destruct (Dm x HPlain D) as [M _]. inversion M; auto.
  - intros Cl Li. destruct (K Cl) as (x & D). destruct (Dm x HPlain D) as [_ Lt].
    assert (Pl : forall y q, In q (path_in rows y) -> y < s -> q < s).
    { intros y q Iq Y. eapply path_lt; eauto. }
    assert (Lr : forall y, length (path_in rows y) = length ars). { intros y. unfold path_in, rows. rewrite !map_length. auto. }
    destruct (Nat.eq_dec (length ars) (2 * s)) as [|Ne]; auto. exfalso. assert (is_little fc = true); [|congruence]. apply Lt. intros y Dy.
    pose proof (proj1 Dy) as Hy. assert (Y : y < s) by (rewrite <- (proj2 Vl); apply nth_error_Some; unfold hunt_bell in Hy; congruence).
    destruct (proj1 (PC y Hy) (proj1 (proj2 Dy))) as [(a & h & Hh & Q)|(a & Q)].
    + pose proof (fun q => hunts_in _ a h q ltac:(lia) Q) as In_. pose proof (proj1 Q) as Lq. rewrite Lr in Lq.
      assert (a + h - 1 < s) by (apply (Pl y); auto; apply In_; lia).
      destruct (Nat.eq_dec a 0) as [->|Az]; [exists h|exists 0]; rewrite In_; lia.
    + assert (In_ : forall q, In q (path_in rows y) -> q = a \/ q = a + 1) by (intros q Iq; destruct Q as [Q|Q]; rewrite Q in Iq; cbn in Iq; intuition).
      assert (L4 : length ars = 4) by (rewrite <- (Lr y); destruct Q as [Q|Q]; rewrite Q; auto).
      assert (a + 1 < s) by (apply (Pl y); auto; destruct Q as [Q|Q]; rewrite Q; cbn; auto).
      destruct (Nat.eq_dec a 0) as [->|Az]; [exists 2|exists 0]; (split; [lia|intros F; apply In_ in F; lia]).
Qed.

(** Plain Bob Minor: the treble hunts between the places 0 and 5; a little method in which it hunts between the places 0 and 3. *)
Example C135_example :
  exists pns lead pns' lead', pn_block_parse (s2l "-16-16-16,12") 6 = Ret (Ok pns) /\ pn_block_to_block_from_rounds tt pns = Ret lead /\
    block_path_of lead 0 = Ret (Some ([0; 1; 2; 3; 4; 5; 5; 4; 3; 2; 1; 0], 0)) /\ hunts_between [0; 1; 2; 3; 4; 5; 5; 4; 3; 2; 1; 0] 0 6 /\
    classify (nodup Nat.eq_dec) lead = Ret (FullClass false false false Bob) /\
    pn_block_parse (s2l "-16-14,12") 6 = Ret (Ok pns') /\ pn_block_to_block_from_rounds tt pns' = Ret lead' /\
    block_path_of lead' 0 = Ret (Some ([0; 1; 2; 3; 3; 2; 1; 0], 0)) /\ hunts_between [0; 1; 2; 3; 3; 2; 1; 0] 0 4 /\
    classify (nodup Nat.eq_dec) lead' = Ret (FullClass false true false Bob).
Proof.
  do 4 eexists. splits; try (vm_compute; reflexivity).
  - split; auto. exists 0. intros i Hi. cbn [Nat.add]. rewrite Nat.mod_small by auto. do 12 (destruct i as [|i]; [reflexivity|]). lia.
  - split; auto. exists 0. intros i Hi. cbn [Nat.add]. rewrite Nat.mod_small by auto. do 8 (destruct i as [|i]; [reflexivity|]). lia.
Qed.
