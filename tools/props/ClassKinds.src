(** Property theorems C102: what the predicates on classes say about the hunt bells. *)
(*IMPORTS*)
From Verif Require Import Base Bell Stage Row Utils SameStageVec Block PlaceNot Class Spec SpecVec SpecBlock SpecPn SpecClass ListFacts
  BellFacts RowFacts MulFacts GroupFacts SsvFacts BlockFacts PnFacts PnFacts2 PnFacts3 ClassFacts ClassFacts2 ClassFacts3 SymFacts SymFacts2 PathFacts.
From Verif Require Import PnThms ClassThms.
Local Open Scope list_scope.
(*BODY*)

(** C102: for a lead which starts at rounds and jumps at no change, [hunt_bell_class] of the class found is the
    class of the paths of the dominant hunt bells, and nothing exactly when there is no hunt bell; [is_plain] and
    [is_treble_dodging] say whether these bells plain hunt or treble dodge. *)
Theorem C102_class_of_the_dominant_hunt_bells :
  forall A (b : block A) s ars lo hash_order fc, block_holds b s ars lo -> ars <> [] ->
    is_identity (hd [] (map fst ars)) ->
    (forall i r1 r2, change_at (map fst ars) lo i r1 r2 -> no_jump r1 r2) ->
    (forall l, collected_set l (hash_order l)) -> classify hash_order b = Ret fc ->
    (forall h, class_hunt_bell_class (fc_class fc) = Some h <-> exists x, dominant (map fst ars) lo x h) /\
    (class_hunt_bell_class (fc_class fc) = None <-> forall x, ~ hunt_bell lo x) /\
    (is_plain (fc_class fc) = true <-> exists x, dominant (map fst ars) lo x HPlain) /\
    (is_treble_dodging (fc_class fc) = true <-> exists x, dominant (map fst ars) lo x HTrebleDodging).
Proof.
  intros A b s ars lo o fc B Na I J Ho E.
  destruct (pf_C62_classification A b s ars lo o B Na I J Ho) as (fc' & E' & _ & _ & Ep & _ & Ex & Em).
  rewrite E in E'. injection E' as <-.
  assert (K : forall x h, dominant (map fst ars) lo x h -> class_hunt_bell_class (fc_class fc) = Some h).
  { intros x h D. destruct (Em x h D) as [M _]. inversion M; reflexivity. }
  assert (Z : class_hunt_bell_class (fc_class fc) = None <-> forall x, ~ hunt_bell lo x).
  { rewrite <- Ep. destruct (fc_class fc); cbn; split; congruence. }
  assert (H : forall h, class_hunt_bell_class (fc_class fc) = Some h <-> exists x, dominant (map fst ars) lo x h).
  { intros h. split; [|intros (x & D); eauto]. intros Ec.
    assert (Hh : exists x h', dominant (map fst ars) lo x h').
    { apply Ex. assert (V : vrow s lo) by (eapply brep_vrows; apply holds_brep; eauto).
      destruct (existsb (fun x => nth x lo (S x) =? x) (seq 0 s)) eqn:Eh.
      - apply existsb_exists in Eh as (x & Hx & Q). apply in_seq in Hx. apply Nat.eqb_eq in Q. exists x. unfold hunt_bell.
        rewrite (nth_error_nth' lo (S x)) by (rewrite (proj2 V); lia). congruence.
      - exfalso. assert (class_hunt_bell_class (fc_class fc) = None); [|congruence]. apply Z. intros x Hx. assert (Lx : x < s) by (rewrite <- (proj2 V); apply nth_error_Some; unfold hunt_bell in Hx; congruence).
        assert (existsb (fun x => nth x lo (S x) =? x) (seq 0 s) = true); [|congruence]. apply existsb_exists. exists x.
        split; [apply in_seq; lia|]. apply Nat.eqb_eq. apply nth_error_nth. exact Hx. }
    destruct Hh as (x & h' & D). pose proof (K x h' D) as Q. rewrite Ec in Q. injection Q as <-. eauto. }
  splits; auto.
  - rewrite <- H. destruct (fc_class fc); cbn; split; congruence.
  - rewrite <- H. destruct (fc_class fc); cbn; split; congruence.
Qed.

(** C102: if [is_symmetric_hunter] says so, the path of each dominant hunt bell is symmetric.  (For plain hunting
    this is a fact about paths: one which moves by steps and is in each of its places twice is symmetric.) *)
Theorem C102_symmetric_hunters_partial :
  forall A (b : block A) s ars lo hash_order fc, block_holds b s ars lo -> ars <> [] ->
    is_identity (hd [] (map fst ars)) ->
    (forall i r1 r2, change_at (map fst ars) lo i r1 r2 -> no_jump r1 r2) ->
    (forall l, collected_set l (hash_order l)) -> classify hash_order b = Ret fc ->
    is_symmetric_hunter (fc_class fc) = true ->
    forall x h, dominant (map fst ars) lo x h -> symmetric (path_in (map fst ars) x).
Proof.
  intros A b s ars lo o fc B Na I J Ho E Sy x h D.
  destruct (pf_C102_class_of_the_dominant_hunt_bells A b s ars lo o fc B Na I J Ho E) as (H & _).
  assert (Ec : class_hunt_bell_class (fc_class fc) = Some h) by (apply H; eauto).
  pose proof (holds_brep _ _ _ _ B) as Br. destruct (brep_vrows _ _ _ _ Br) as [Vr V].
  assert (Hx : x < s) by (rewrite <- (proj2 V); apply nth_error_Some; rewrite (proj1 D : nth_error lo x = Some x); discriminate). set (rows := map fst ars) in *.
  assert (Nr : rows <> []) by (unfold rows; destruct ars; [congruence|discriminate]).
  assert (Lp : length (path_in rows x) = length rows) by apply path_len.
  assert (Np : path_in rows x <> []) by (intros Q; rewrite Q in Lp; destruct rows; [congruence|discriminate]).
  assert (St : by_steps (path_in rows x)).
  { intros i Hi. rewrite Lp in *.
    assert (P : forall j, j < length rows -> exists r, nth_error rows j = Some r /\ vrow s r /\ nth j (path_in rows x) 0 = place_in r x /\ nth_error r (place_in r x) = Some x).
    { intros j Hj. destruct (nth_error rows j) as [r|] eqn:Er; [|apply nth_error_None in Er; lia]. exists r.
      assert (Vj : vrow s r) by (rewrite Forall_forall in Vr; apply Vr; eapply nth_error_In; eauto). splits; auto.
      - apply nth_error_nth. unfold path_in. rewrite nth_error_map, Er. reflexivity.
      - apply place_in_ok; [apply Vj|rewrite (proj2 Vj); auto]. }
    destruct (P i Hi) as (r & Er & _ & -> & Xr). assert (Hn : 0 < length rows) by lia.
    destruct (P ((i + 1) mod length rows) ltac:(apply modlt; auto)) as (r' & Er' & _ & -> & Xr').
    destruct (mod_cases (i + 1) (length rows) Hn ltac:(lia)) as [[L Q]|[L Q]]; rewrite Q in Er'.
    - assert (Hl : no_jump r r').
      { apply (J i r r'). split; rewrite nth_error_app1 by lia; auto. }
      exact (Hl x _ _ Xr Xr').
    - (* the lead head *)
      replace (i + 1 - length rows) with 0 in Er' by lia.
      assert (Hr' : r' = hd [] rows) by (destruct rows; [congruence|cbn in *; congruence]).
      assert (Ex : place_in r' x = x).
      { assert (V' : vrow s r') by (rewrite Forall_forall in Vr; apply Vr; eapply nth_error_In; eauto).
        apply place_in_unique; [apply V'|]. rewrite Hr' in *. apply identity_rounds in I. rewrite I. rewrite rounds_seq.
        rewrite (proj2 V'). rewrite (nth_error_nth' _ 0) by (rewrite seq_length; auto). rewrite seq_nth; auto. }
      rewrite Ex. assert (Hl : no_jump r lo).
      { apply (J i r lo). split; [rewrite nth_error_app1 by lia; auto|]. rewrite nth_error_app2 by lia.
        replace (i + 1 - length rows) with 0 by lia. reflexivity. }
      exact (Hl x _ _ Xr (proj1 D)). }
  destruct D as (_ & Pc & _). inversion Pc; subst; auto.
  - apply stationary_symmetric; auto.
  - apply plain_symmetric; auto.
  - exfalso. destruct (fc_class fc); cbn in *; congruence.
Qed.

(** C102: exactly when [is_symmetric_hunter] holds: the dominant hunt bells are there and their paths are not hybrid, that is,
    each plain hunts, treble dodges, or follows a path of one of the two symmetric kinds. *)
Theorem C102_symmetric_hunters_are_those_not_hybrid :
  forall A (b : block A) s ars lo hash_order fc, block_holds b s ars lo -> ars <> [] ->
    is_identity (hd [] (map fst ars)) ->
    (forall i r1 r2, change_at (map fst ars) lo i r1 r2 -> no_jump r1 r2) ->
    (forall l, collected_set l (hash_order l)) -> classify hash_order b = Ret fc ->
    (is_symmetric_hunter (fc_class fc) = true <-> exists x h, dominant (map fst ars) lo x h /\ h <> HHybrid).
Proof.
  intros A b s ars lo o fc B Na I J Ho E.
  destruct (pf_C102_class_of_the_dominant_hunt_bells A b s ars lo o fc B Na I J Ho E) as (H & _).
  split.
  - intros Sy. destruct (class_hunt_bell_class (fc_class fc)) as [h|] eqn:Ec; [|destruct (fc_class fc); cbn in *; discriminate].
    destruct (proj1 (H h) eq_refl) as (x & D). exists x, h. split; auto. intros ->. destruct (fc_class fc); cbn in *; discriminate.
  - intros (x & h & D & N). assert (Ec : class_hunt_bell_class (fc_class fc) = Some h) by (apply H; eauto).
    destruct (fc_class fc); cbn in *; congruence.
Qed.

(** The documentation has it the other way round as well: "Returns `true` if `self` denotes a method who's dominant
    hunt bell follows a symmetric path".  The class of a lead whose only hunt bell follows a symmetric path
    with fewer than two places made is not said to be one. *)
Theorem C102_symmetric_hunters_refuted :
  ~ (forall (b : block unit) s ars lo hash_order fc, block_holds b s ars lo -> ars <> [] ->
       is_identity (hd [] (map fst ars)) ->
       (forall i r1 r2, change_at (map fst ars) lo i r1 r2 -> no_jump r1 r2) ->
       (forall l, collected_set l (hash_order l)) -> classify hash_order b = Ret fc ->
       (exists x, hunt_bell lo x) -> (forall x h, dominant (map fst ars) lo x h -> symmetric (path_in (map fst ars) x)) ->
       is_symmetric_hunter (fc_class fc) = true).
Proof.
  intros H.
  set (rows := [[0; 1]; [1; 0]; [0; 1]; [1; 0]; [0; 1]; [1; 0]]).
  assert (V0 : valid_row [0; 1]) by vr. assert (V1 : valid_row [1; 0]) by vr.
  assert (exists b, block_build (BlockArg 2 (rows ++ [[0; 1]]) (fun _ => tt)) = Ret (Some b) /\
    block_holds b 2 (map (fun r => (r, tt)) rows) [0; 1]) as (b & Eb & Hb).
  { eexists. split; [vm_compute; reflexivity|]. unfold block_holds. splits; auto.
    cbn. repeat (apply Forall_cons; [split; auto|]). apply Forall_nil. }
  assert (HO : forall l, collected_set l (nodup Nat.eq_dec l)).
  { intros l. split; [apply NoDup_nodup|]. intros x. apply nodup_In. }
  assert (false = true); [|discriminate].
  change false with (is_symmetric_hunter (fc_class (FullClass false false false Hybrid))).
  apply (H b 2 _ [0; 1] (nodup Nat.eq_dec) (FullClass false false false Hybrid) Hb).
  - discriminate.
  - apply identity_rounds. reflexivity.
  - intros i r1 r2 [H1 H2] x p q Hp Hq.
    assert (G : forall k r, nth_error (map fst (map (fun r => (r, tt)) rows) ++ [[0; 1]]) k = Some r -> length r = 2).
    { intros k r Hk. apply nth_error_In in Hk. cbn in Hk. intuition subst; auto. }
    assert (p < length r1) by (apply nth_error_Some; congruence). assert (q < length r2) by (apply nth_error_Some; congruence).
    rewrite (G _ _ H1) in *. rewrite (G _ _ H2) in *. lia.
  - exact HO.
  - vm_compute in Eb. injection Eb as <-. vm_compute. reflexivity.
  - exists 0. reflexivity.
  - intros x h (Hx & _). unfold hunt_bell in Hx. destruct x as [|[|x]]; [| |destruct x; discriminate].
    + exists [0], [1; 0; 1; 0; 1]. split; reflexivity.
    + exists [1], [0; 1; 0; 1; 0]. split; reflexivity.
Qed.

Example C102_example :
  forall text s h p t y, In (text, s, h, p, t, y)
    [(s2l "-16-16-16,12", 6, Some HPlain, true, false, true);                       (* Plain Bob Minor *)
     (s2l "-36-14-12-36-14-56,12", 6, Some HTrebleDodging, false, true, true);      (* Cambridge Surprise Minor *)
     (s2l "3.1.5.3.1.3.1.3.5.1.3.1", 5, None, false, false, false);                 (* Stedman Doubles *)
     (s2l "-14-36-16-36-14-36,12", 6, Some HAlliance, false, false, true)] ->
    exists pns lead fc, pn_block_parse text s = Ret (Ok pns) /\ pn_block_to_block_from_rounds tt pns = Ret lead /\
      classify (nodup Nat.eq_dec) lead = Ret fc /\ class_hunt_bell_class (fc_class fc) = h /\
      is_plain (fc_class fc) = p /\ is_treble_dodging (fc_class fc) = t /\ is_symmetric_hunter (fc_class fc) = y.
Proof.
  intros text s h p t y H. repeat (destruct H as [E|H]; [injection E as <- <- <- <- <- <-; do 3 eexists;
    split; [vm_compute; reflexivity|]; split; [vm_compute; reflexivity|]; split; [vm_compute; reflexivity|]; splits; reflexivity|]).
  destruct H.
Qed.
