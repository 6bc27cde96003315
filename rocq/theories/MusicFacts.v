(** Proofs about regexes: normalisation and matching. *)
From Verif Require Import Base Bell Stage Row Utils Music Spec SpecMask ListFacts BellFacts RowFacts MulFacts.
From Coq Require Import Sorted.
Local Open Scope list_scope.

Definition glob_if (g : bool) : list regex_elem := if g then [RGlob] else [].

(** The normal form, computed element by element: [k] wildcards and perhaps a glob are pending. *)
Fixpoint norm (es : list regex_elem) (k : nat) (g : bool) : list regex_elem :=
  match es with
  | [] => repeat RAny k ++ glob_if g
  | RBell b :: t => repeat RAny k ++ glob_if g ++ RBell b :: norm t 0 false
  | RAny :: t => norm t (S k) g
  | RGlob :: t => norm t k true
  end.

Definition non_bell (e : regex_elem) : Prop := match e with RBell _ => False | _ => True end.

Lemma normalise_slice_ok cur b :
  normalise_slice (cur ++ [RBell b]) = Ret (repeat RAny (length (filter is_rany cur)) ++ glob_if (existsb is_rglob cur) ++ [RBell b]).
Proof.
  unfold normalise_slice. destruct (cur ++ [RBell b]) eqn:E; [destruct cur; discriminate|]. cbn [assert_ bind].
  rewrite <- E, removelast_last, app_length. cbn [length].
  replace (length cur + 1 - 1) with (length cur) by lia.
  assert (idx (cur ++ [RBell b]) (length cur) = Ret (RBell b)) as ->.
  { apply idx_some. rewrite nth_error_app2, Nat.sub_diag by lia. reflexivity. }
  reflexivity.
Qed.

Lemma norm_parts es cur z : 
  exists parts, mapM normalise_slice (split_inclusive is_rbell cur (es ++ [RBell z])) = Ret parts /\
    concat parts = norm es (length (filter is_rany cur)) (existsb is_rglob cur) ++ [RBell z].
Proof.
  revert cur; induction es as [|[b| |] es IH]; intros cur; cbn [app split_inclusive is_rbell norm].
  - cbn [mapM]. rewrite normalise_slice_ok. eexists. split; [reflexivity|]. cbn. rewrite app_nil_r, <- app_assoc. reflexivity.
  - destruct (IH []) as (parts & E & C). cbn [mapM]. rewrite normalise_slice_ok. cbn [bind].
    rewrite E. cbn [bind]. eexists. split; [reflexivity|]. cbn [concat]. rewrite C. cbn.
    rewrite <- !app_assoc. reflexivity.
  - destruct (IH (cur ++ [RAny])) as (parts & E & C). exists parts. split; auto. rewrite C.
    rewrite filter_app, existsb_app, app_length. cbn. rewrite orb_false_r, Nat.add_1_r. reflexivity.
  - destruct (IH (cur ++ [RGlob])) as (parts & E & C). exists parts. split; auto. rewrite C.
    rewrite filter_app, existsb_app, app_length. cbn. rewrite orb_true_r, Nat.add_0_r. reflexivity.
Qed.

Lemma normalise_ok es : normalise es = Ret (norm es 0 false).
Proof.
  unfold normalise. destruct (norm_parts es [] TREBLE) as (parts & -> & C). cbn [bind].
  rewrite C. cbn. rewrite rev_app_distr. cbn. rewrite removelast_last. reflexivity.
Qed.

(** ** The language *)

Lemma described_app a b l : described (a ++ b) l <-> exists l1 l2, l = l1 ++ l2 /\ described a l1 /\ described b l2.
Proof.
  revert l; induction a as [|e a IH]; intros l; cbn.
  - split; [intros H; exists [], l; repeat split; auto; constructor|]. intros (l1 & l2 & -> & H & H2). inversion H; subst; auto.
  - split.
    + intros H. inversion H as [|? ? bs H'|? ? bs H'|? ? bs H']; subst; apply IH in H' as (l1 & l2 & -> & H1 & H2).
      * exists (b0 :: l1), l2. repeat split; auto. constructor; auto.
      * exists (x :: l1), l2. repeat split; auto. constructor; auto.
      * exists (xs ++ l1), l2. rewrite app_assoc. repeat split; auto. constructor; auto.
    + intros (l1 & l2 & -> & H1 & H2). inversion H1; subst; cbn; try rewrite <- app_assoc; constructor; apply IH; eauto.
Qed.

Lemma described_cong c a b : (forall l, described a l <-> described b l) ->
  forall l, described (c ++ a) l <-> described (c ++ b) l.
Proof.
  intros H l. rewrite !described_app. split; intros (l1 & l2 & E & H1 & H2); exists l1, l2; repeat split; auto; apply H; auto.
Qed.

Lemma described_glob_inv es l : described (RGlob :: es) l <-> exists xs bs, l = xs ++ bs /\ described es bs.
Proof. split; [intros H; inversion H; subst; eauto|intros (xs & bs & -> & H); constructor; auto]. Qed.
Lemma described_any_inv es l : described (RAny :: es) l <-> exists x bs, l = x :: bs /\ described es bs.
Proof. split; [intros H; inversion H; subst; eauto|intros (xs & bs & -> & H); constructor; auto]. Qed.
Lemma described_bell_inv b es l : described (RBell b :: es) l <-> exists bs, l = b :: bs /\ described es bs.
Proof. split; [intros H; inversion H; subst; eauto|intros (bs & -> & H); constructor; auto]. Qed.
Lemma described_nil_inv l : described [] l <-> l = [].
Proof. split; [intros H; inversion H; auto|intros ->; constructor]. Qed.

Lemma described_swap t l : described (RAny :: RGlob :: t) l <-> described (RGlob :: RAny :: t) l.
Proof.
  rewrite described_any_inv, described_glob_inv. split.
  - intros (x & bs & -> & H). apply described_glob_inv in H as (xs & bs' & -> & H).
    destruct (exists_last (l := x :: xs)) as (ys & y & E); [discriminate|].
    exists ys, (y :: bs'). split; [|constructor; auto].
    rewrite app_comm_cons, E, <- app_assoc. reflexivity.
  - intros (xs & bs & -> & H). apply described_any_inv in H as (x & bs' & -> & H).
    destruct xs as [|y ys]; cbn.
    + exists x, bs'. split; auto. apply described_glob_inv. exists [], bs'; auto.
    + exists y, (ys ++ x :: bs'). split; auto. apply described_glob_inv. exists (ys ++ [x]), bs'.
      rewrite <- app_assoc. auto.
Qed.

Lemma described_globs t l : described (RGlob :: RGlob :: t) l <-> described (RGlob :: t) l.
Proof.
  rewrite !described_glob_inv. split.
  - intros (xs & bs & -> & H). apply described_glob_inv in H as (ys & cs & -> & H).
    exists (xs ++ ys), cs. rewrite app_assoc. auto.
  - intros (xs & bs & -> & H). exists xs, bs. split; auto. apply described_glob_inv. exists [], bs. auto.
Qed.

Lemma norm_described es k g l : described (norm es k g) l <-> described (repeat RAny k ++ glob_if g ++ es) l.
Proof.
  revert k g l; induction es as [|[b| |] es IH]; intros k g l; cbn [norm].
  - rewrite app_nil_r. reflexivity.
  - apply described_cong. intros l1. apply described_cong. intros l2.
    rewrite !described_bell_inv. split; intros (bs & -> & H); exists bs; split; auto; apply (IH 0 false); auto.
  - rewrite IH. cbn [repeat].
    replace (RAny :: repeat RAny k) with (repeat RAny k ++ [RAny]) by (symmetry; apply repeat_cons).
    rewrite <- app_assoc. apply described_cong. intros l1. destruct g; cbn; [apply described_swap|reflexivity].
  - rewrite IH. apply described_cong. intros l1. destruct g; cbn; [symmetry; apply described_globs|reflexivity].
Qed.

(** ** Normal forms *)

Fixpoint nf (es : list regex_elem) : Prop :=
  match es with
  | [] => True
  | RGlob :: t => match t with [] => True | RBell _ :: _ => nf t | _ => False end
  | _ :: t => nf t
  end.

Lemma nf_spec es : nf es <-> normal_form es.
Proof.
  induction es as [|e es IH].
  - split; [intros _ [|i] e; discriminate|intros _; exact I].
  - assert (S : normal_form (e :: es) <-> (e = RGlob -> match es with [] => True | RBell _ :: _ => True | _ => False end) /\ normal_form es).
    { unfold normal_form. split.
      - intros H. split.
        + intros ->. destruct es as [|e' es]; auto. destruct (H 0 e' eq_refl eq_refl) as [b ->]. auto.
        + intros i e' H1 H2. apply (H (S i) e'); auto.
      - intros [H1 H2] [|i] e' E1 E2; [|eapply H2; eauto]. cbn in E1. injection E1 as ->.
        specialize (H1 eq_refl). destruct es as [|[b| |] es]; try contradiction; try discriminate. cbn in E2. injection E2 as <-. eauto. }
    rewrite S, <- IH. destruct e; cbn.
    + split; [intros H; split; [discriminate|auto]|tauto].
    + split; [intros H; split; [discriminate|auto]|tauto].
    + destruct es as [|[b| |] es]; cbn; intuition.
Qed.

Lemma nf_repeat k es : nf (repeat RAny k ++ es) <-> nf es.
Proof. induction k; cbn; auto. tauto. Qed.

Lemma nf_norm es k g : nf (norm es k g).
Proof.
  revert k g; induction es as [|[b| |] es IH]; intros k g; cbn [norm]; auto.
  - apply nf_repeat. destruct g; cbn; auto.
  - apply nf_repeat. destruct g; cbn; auto.
Qed.

Lemma norm_id es k : nf es -> norm es k false = repeat RAny k ++ es.
Proof.
  assert (K : forall n es k, length es <= n -> nf es -> norm es k false = repeat RAny k ++ es).
  { clear es k. induction n as [|n IH]; intros [|[b| |] es] k L H; cbn in L; try lia; cbn [norm]; auto.
    - cbn. rewrite (IH es 0); auto; try lia.
    - rewrite IH by (auto; lia). change (RAny :: es) with ([RAny] ++ es). rewrite app_assoc. f_equal. apply repeat_cons.
    - destruct es as [|[b| |] es]; try contradiction; cbn; auto. rewrite (IH es 0); auto; cbn in L; lia. }
  eapply K; eauto.
Qed.

Lemma bells_app a b : bells_written (a ++ b) = bells_written a ++ bells_written b.
Proof. induction a as [|[x| |] a IH]; cbn; auto. f_equal; auto. Qed.
Lemma any_app a b : count_any (a ++ b) = count_any a + count_any b.
Proof. induction a as [|[x| |] a IH]; cbn; auto. Qed.
Lemma glob_app a b : count_glob (a ++ b) = count_glob a + count_glob b.
Proof. induction a as [|[x| |] a IH]; cbn; auto. Qed.
Lemma bells_repeat k : bells_written (repeat RAny k) = []. Proof. induction k; auto. Qed.
Lemma any_repeat k : count_any (repeat RAny k) = k. Proof. induction k; cbn; auto. Qed.
Lemma glob_repeat k : count_glob (repeat RAny k) = 0. Proof. induction k; cbn; auto. Qed.
Lemma bells_glob g : bells_written (glob_if g) = []. Proof. destruct g; auto. Qed.
Lemma any_glob g : count_any (glob_if g) = 0. Proof. destruct g; auto. Qed.

Lemma norm_bells es k g : bells_written (norm es k g) = bells_written es.
Proof.
  revert k g; induction es as [|[b| |] es IH]; intros k g; cbn [norm bells_written]; auto;
    rewrite !bells_app, bells_repeat, bells_glob; auto. cbn. f_equal; auto.
Qed.

Lemma norm_any es k g : count_any (norm es k g) = k + count_any es.
Proof.
  revert k g; induction es as [|[b| |] es IH]; intros k g; cbn [norm count_any]; auto;
    try (rewrite !any_app, any_repeat, any_glob; cbn; rewrite ?IH; lia). rewrite IH. lia.
Qed.

Lemma norm_glob es k g : count_glob (norm es k g) <= count_glob (glob_if g) + count_glob es.
Proof.
  revert k g; induction es as [|[b| |] es IH]; intros k g; cbn [norm count_glob]; auto;
    try (rewrite !glob_app, glob_repeat; cbn; try specialize (IH 0 false); cbn in *; lia).
  rewrite IH. cbn. lia.
Qed.

(** ** Matching *)

Lemma Forall2_impl {A B} (P Q : A -> B -> Prop) l m :
  (forall a b, P a b -> Q a b) -> Forall2 P l m -> Forall2 Q l m.
Proof. intros H; induction 1; constructor; auto. Qed.

Lemma skip_to_ok b bells :
  (forall i t, skip_to b bells = Some (i, t) -> exists pre, bells = pre ++ (i, b) :: t /\ ~ In b (map snd pre)) /\
  (skip_to b bells = None -> ~ In b (map snd bells)).
Proof.
  induction bells as [|[i x] bells IH]; cbn.
  - split; [discriminate|auto].
  - destruct (Nat.eqb_spec x b) as [->|D].
    + split; [|discriminate]. intros i' t [= <- <-]. exists []. auto.
    + destruct IH as [I1 I2]. split.
      * intros i' t E. apply I1 in E as (pre & -> & N). exists ((i, x) :: pre). cbn. intuition.
      * intros E. apply I2 in E. intuition.
Qed.

Lemma split_unique (b : nat) l1 l2 k1 k2 : NoDup (l1 ++ b :: l2) -> l1 ++ b :: l2 = k1 ++ b :: k2 -> l1 = k1 /\ l2 = k2.
Proof.
  revert k1; induction l1 as [|x l1 IH]; intros [|y k1] N E; cbn in *.
  - injection E; auto.
  - injection E as -> E. exfalso. inversion N as [|? ? K _]; subst. apply K. apply in_or_app; right; left; auto.
  - injection E as -> E. exfalso. inversion N as [|? ? K _]; subst. apply K. apply in_or_app; right; left; auto.
  - injection E as -> E. inversion N; subst. destruct (IH k1) as [-> ->]; auto.
Qed.

Lemma SS_app_r (l1 l2 : list nat) : StronglySorted lt (l1 ++ l2) -> StronglySorted lt l2.
Proof. induction l1 as [|x l1 IH]; cbn; auto. intros H; inversion H; auto. Qed.

Lemma run_match_ok es bells ms : nf es -> NoDup (map snd bells) -> StronglySorted lt (map fst bells) ->
  exists v ms', run_match es bells ms = Ret (v, ms ++ ms') /\
    (v = true <-> described es (map snd bells)) /\
    (v = true -> Forall2 (fun i b => In (i, b) bells) ms' (bells_written es) /\ StronglySorted lt ms').
Proof.
  assert (K : forall n es bells ms, length es <= n -> nf es -> NoDup (map snd bells) -> StronglySorted lt (map fst bells) ->
    exists v ms', run_match es bells ms = Ret (v, ms ++ ms') /\
      (v = true <-> described es (map snd bells)) /\
      (v = true -> Forall2 (fun i b => In (i, b) bells) ms' (bells_written es) /\ StronglySorted lt ms')).
  { clear es bells ms.
    assert (Cons : forall i b (t : list (nat * nat)) es ms', StronglySorted lt (i :: map fst t) ->
      Forall2 (fun i b => In (i, b) t) ms' (bells_written es) -> StronglySorted lt ms' ->
      Forall2 (fun j c => In (j, c) ((i, b) :: t)) (i :: ms') (b :: bells_written es) /\ StronglySorted lt (i :: ms')).
    { intros i b t es ms' S F SS. split.
      - constructor; [left; auto|]. eapply Forall2_impl; [|exact F]. intros; right; auto.
      - constructor; auto. apply Forall_forall. intros j Hj. inversion S as [|? ? _ Fo]; subst. rewrite Forall_forall in Fo.
        apply Fo. clear - F Hj. induction F as [|a c l l' H F IH]; [destruct Hj|]. destruct Hj as [->|Hj]; auto.
        apply in_map_iff. exists (j, c). auto. }
    assert (Bell : forall n, (forall es bells ms, length es <= n -> nf es -> NoDup (map snd bells) -> StronglySorted lt (map fst bells) ->
      exists v ms', run_match es bells ms = Ret (v, ms ++ ms') /\
        (v = true <-> described es (map snd bells)) /\
        (v = true -> Forall2 (fun i b => In (i, b) bells) ms' (bells_written es) /\ StronglySorted lt ms')) ->
      forall es i b t ms, length es <= n -> nf es -> NoDup (b :: map snd t) -> StronglySorted lt (i :: map fst t) ->
      exists v ms', run_match es t (ms ++ [i]) = Ret (v, ms ++ ms') /\
        (v = true <-> described es (map snd t)) /\
        (v = true -> Forall2 (fun j c => In (j, c) ((i, b) :: t)) ms' (b :: bells_written es) /\ StronglySorted lt ms')).
    { intros n IH es i b t ms L H N S. inversion N; subst. inversion S; subst.
      destruct (IH es t (ms ++ [i])) as (v & ms' & E & D & P); auto.
      exists v, (i :: ms'). split; [rewrite E, <- app_assoc; reflexivity|]. split; auto.
      intros Hv. destruct (P Hv). apply Cons; auto. }
    induction n as [|n IH]; intros es bells ms L H N S.
    - destruct es; [|cbn in L; lia]. cbn. exists (match bells with [] => true | _ => false end), [].
      split; [destruct bells; rewrite app_nil_r; auto|]. rewrite described_nil_inv. split; [|intros; split; constructor].
      destruct bells; cbn; split; congruence.
    - destruct es as [|[b| |] es]; cbn in L.
      + apply (IH [] bells ms); cbn; auto; lia.
      + cbn [run_match nf] in *. destruct bells as [|[i x] t].
        * exists false, []. rewrite app_nil_r. split; auto. split; [|discriminate]. cbn. rewrite described_bell_inv.
          split; [discriminate|]. intros (bs & E & _); discriminate.
        * cbn [map fst snd] in *. destruct (Nat.eqb_spec x b) as [->|D].
          -- destruct (Bell n IH es i b t ms) as (v & ms' & E & D & P); auto; try lia.
             exists v, ms'. split; auto. split; auto. rewrite D, described_bell_inv. split; [eauto|].
             intros (bs & [= <-] & Hd); auto.
          -- exists false, []. rewrite app_nil_r. split; auto. split; [|discriminate]. rewrite described_bell_inv.
             split; [discriminate|]. intros (bs & E & _). congruence.
      + cbn [run_match nf] in *. destruct bells as [|[i x] t].
        * exists false, []. rewrite app_nil_r. split; auto. split; [|discriminate]. cbn. rewrite described_any_inv.
          split; [discriminate|]. intros (x & bs & E & _); discriminate.
        * cbn [map fst snd] in *. inversion N; subst. inversion S; subst.
          destruct (IH es t ms) as (v & ms' & E & D & P); auto; try lia.
          exists v, ms'. split; auto. split.
          -- rewrite D, described_any_inv. split; [eauto|]. intros (y & bs & [= _ <-] & Hd); auto.
          -- intros Hv. destruct (P Hv) as [F SS]. split; auto. eapply Forall2_impl; [|exact F]. intros; right; auto.
      + cbn [run_match nf] in *. destruct es as [|[b| |] es]; try contradiction.
        * exists true, []. rewrite app_nil_r. split; auto. split; [|intros; split; constructor]. split; auto. intros _.
          rewrite described_glob_inv. exists (map snd bells), []. rewrite app_nil_r. split; auto. constructor.
        * cbn [nf] in H. destruct (skip_to b bells) as [[i t]|] eqn:E.
          -- apply skip_to_ok in E as (pre & -> & Np). rewrite map_app in N, S. cbn [map fst snd] in *.
             pose proof (NoDup_app_elim _ _ N) as (_ & N2 & _). pose proof (SS_app_r _ _ S) as S2. cbn in L.
             destruct (Bell n IH es i b t ms) as (v & ms' & E & D & P); auto; try lia.
             exists v, ms'. split; auto. split.
             ++ rewrite D, map_app. cbn [map snd]. rewrite described_glob_inv. split.
                ** intros Hd. exists (map snd pre), (b :: map snd t). split; auto. constructor; auto.
                ** intros (xs & bs & E2 & Hd). apply described_bell_inv in Hd as (bs' & -> & Hd).
                   apply split_unique in E2 as [_ ->]; auto.
             ++ intros Hv. destruct (P Hv) as [F SS]. split; auto. cbn [bells_written].
                eapply Forall2_impl; [|exact F]. intros; apply in_or_app; right; auto.
          -- apply skip_to_ok in E. exists false, []. rewrite app_nil_r. split; auto. split; [|discriminate]. rewrite described_glob_inv.
             split; [discriminate|]. intros (xs & bs & E2 & Hd). apply described_bell_inv in Hd as (bs' & -> & Hd).
             exfalso. apply E. rewrite E2. apply in_or_app; right; left; auto. }
  intros; eapply K; eauto.
Qed.

Lemma enumerate_snd {A} n (l : list A) : map snd (enumerate_from n l) = l.
Proof. revert n; induction l; intros n; cbn; f_equal; auto. Qed.
Lemma enumerate_fst {A} n (l : list A) : map fst (enumerate_from n l) = seq n (length l).
Proof. revert n; induction l; intros n; cbn; f_equal; auto. Qed.
Lemma SS_seq a n : StronglySorted lt (seq a n).
Proof.
  revert a; induction n as [|n IH]; intros a; cbn; constructor; auto. apply Forall_forall. intros x Hx. apply in_seq in Hx. lia.
Qed.

Lemma SS_ascending l : StronglySorted lt l -> ascending l.
Proof.
  induction 1 as [|x l H IH F]; intros i j a b Hij Ha Hb; [destruct i; discriminate|].
  destruct j as [|j]; [lia|]. cbn in Hb. destruct i as [|i]; cbn in Ha.
  - injection Ha as <-. rewrite Forall_forall in F. apply F. eapply nth_error_In; eauto.
  - eapply (IH i j); eauto. lia.
Qed.

Lemma regex_run_row es r : nf es -> NoDup r ->
  exists v ms, run_match es (enumerate r) [] = Ret (v, ms) /\ (v = true <-> described es r) /\
    (v = true -> ascending ms /\ Forall2 (fun i b => nth_error r i = Some b) ms (bells_written es)).
Proof.
  intros H N. destruct (run_match_ok es (enumerate r) [] H) as (v & ms & E & D & P).
  - unfold enumerate; rewrite enumerate_snd; auto.
  - unfold enumerate; rewrite enumerate_fst. apply SS_seq.
  - unfold enumerate in D at 1. rewrite enumerate_snd in D. exists v, ms. split; auto. split; auto.
    intros Hv. destruct (P Hv) as [F SS]. split; [apply SS_ascending; auto|].
    eapply Forall2_impl; [|exact F]. intros i b Hi. apply In_enumerate in Hi. auto.
Qed.

Lemma regex_matches_ok es r : nf es -> NoDup r -> exists v, regex_matches es r = Ret v /\ (v = true <-> described es r).
Proof.
  intros H N. destruct (regex_run_row es r H N) as (v & ms & E & D & _). unfold regex_matches. rewrite E. cbn. eauto.
Qed.

Lemma match_pattern_ok es r : nf es -> NoDup r ->
  exists o, match_pattern es r = Ret o /\
    (forall ms, o = Some ms <-> described es r /\ ascending ms /\ Forall2 (fun i b => nth_error r i = Some b) ms (bells_written es)).
Proof.
  intros H N. destruct (regex_run_row es r H N) as (v & ms & E & D & P). unfold match_pattern. rewrite E. cbn [bind].
  eexists; split; [reflexivity|]. intros ms'. destruct v.
  - split; [intros [= <-]; split; [apply D; auto|apply P; auto]|].
    intros (_ & _ & F). f_equal. destruct (P eq_refl) as [_ F2]. clear - F F2 N. revert ms F2.
    induction F as [|i b l l' Hi F IH]; intros ms F2; inversion F2; subst; auto. f_equal; auto.
    eapply NoDup_nth_error_inj; eauto.
  - split; [discriminate|]. intros [Hd _]. apply D in Hd. discriminate.
Qed.

(** ** Parsing *)

Lemma regex_char_ok c e : regex_char c = Some e <-> char_elem c e.
Proof.
  unfold regex_char. split.
  - destruct (N.eqb_spec c 120) as [->|D1]; cbn [orb]; [intros [= <-]; constructor|].
    destruct (N.eqb_spec c 46) as [->|D2]; [intros [= <-]; constructor|].
    destruct (N.eqb_spec c 42) as [->|D3]; [intros [= <-]; constructor|].
    destruct (bell_from_name c) as [b|] eqn:E; [|discriminate]. intros [= <-]. constructor. apply from_name_to_char in E. exact E.
  - intros H. inversion H as [| | |c' b Hb]; subst; auto.
    assert (E : bell_from_name c = Some b) by (apply from_name_to_char; exact Hb).
    rewrite E. assert (K : In c (s2l "1234567890ETABCDFGHJKLMNPQRSUVWYZ")) by (eapply nth_error_In; eauto).
    destruct (N.eqb_spec c 120) as [->|D1]; [exfalso; vm_compute in K; intuition discriminate|].
    destruct (N.eqb_spec c 46) as [->|D2]; [exfalso; vm_compute in K; intuition discriminate|].
    destruct (N.eqb_spec c 42) as [->|D3]; [exfalso; vm_compute in K; intuition discriminate|]. reflexivity.
Qed.

Lemma regex_text_ok t es : regex_text t es <-> filter_map regex_char t = es.
Proof.
  split.
  - induction 1 as [|c e t es H _ IH|c t es H _ IH]; cbn; auto.
    + apply regex_char_ok in H. rewrite H, IH; auto.
    + destruct (regex_char c) as [e|] eqn:E; auto. apply regex_char_ok in E. exfalso; eapply H; eauto.
  - intros <-. induction t as [|c t IH]; cbn; [constructor|].
    destruct (regex_char c) as [e|] eqn:E.
    + constructor; auto. apply regex_char_ok; auto.
    + apply rt_skip; auto. intros e H. apply regex_char_ok in H. congruence.
Qed.
