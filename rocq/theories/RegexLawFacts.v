(** Proofs for the laws of regexes: regexes in normal form which describe the same lists are equal. *)
From Verif Require Import Base Bell Stage Row Utils Music Spec SpecMask ListFacts BellFacts RowFacts MulFacts MusicFacts.
Local Open Scope list_scope.

(** The elements without the globs. *)
Fixpoint erase (es : list regex_elem) : list regex_elem :=
  match es with
  | [] => []
  | RGlob :: t => erase t
  | e :: t => e :: erase t
  end.

(** A list of bells for elements without globs, with [z] for each [x]. *)
Definition put (z : nat) (e : regex_elem) : nat := match e with RBell b => b | _ => z end.

(** The bell [z] inserted before the [i]-th bell, or at the end. *)
Fixpoint ins (i z : nat) (w : list nat) : list nat :=
  match i, w with
  | S i', x :: w' => x :: ins i' z w'
  | _, _ => z :: w
  end.

(** There is a glob before the [i]-th element which is no glob. *)
Fixpoint gap (es : list regex_elem) (i : nat) : Prop :=
  match es, i with
  | [], _ => False
  | RGlob :: t, _ => i = 0 \/ gap t i
  | _ :: t, O => False
  | _ :: t, S i' => gap t i'
  end.

Lemma length_ins i z w : length (ins i z w) = S (length w).
Proof. revert w; induction i as [|i IH]; intros [|x w]; cbn; auto. Qed.

Lemma described_length es l : described es l -> length (erase es) <= length l.
Proof. induction 1; cbn in *; try lia. rewrite app_length. lia. Qed.

Lemma described_erase es l : described (erase es) l -> described es l.
Proof.
  revert l; induction es as [|[b| |] es IH]; cbn; intros l H; auto.
  - apply described_bell_inv in H as (bs & -> & H). constructor; auto.
  - apply described_any_inv in H as (x & bs & -> & H). constructor; auto.
  - apply (described_glob [] es l); auto.
Qed.

Lemma described_least es l : described es l -> length l = length (erase es) -> described (erase es) l.
Proof.
  induction 1 as [|b es bs D IH|x es bs D IH|xs es bs D IH]; cbn [erase length]; intros L.
  - constructor.
  - constructor. apply IH. lia.
  - constructor. apply IH. lia.
  - pose proof (described_length _ _ D). rewrite app_length in L. destruct xs; [|cbn in L; lia]. apply IH. cbn in L; lia.
Qed.

Lemma no_globs es : ~ In RGlob (erase es).
Proof. induction es as [|[b| |] es IH]; cbn; auto; intros [H|H]; auto; discriminate. Qed.

Lemma described_put z es : ~ In RGlob es -> described es (map (put z) es).
Proof.
  induction es as [|[b| |] es IH]; cbn; intros N; [constructor|constructor; auto|constructor; auto|tauto].
Qed.

Lemma described_length_eq es l : ~ In RGlob es -> described es l -> length l = length es.
Proof. intros N D. revert N. induction D; cbn in *; intros N; try tauto; f_equal; tauto. Qed.

(** Elements without globs are determined by the lists they describe. *)
Lemma plain_unique (y z : nat) es fs : y <> z -> ~ In RGlob es -> ~ In RGlob fs ->
  (forall l, described es l -> described fs l) -> (forall l, described fs l -> described es l) -> es = fs.
Proof.
  intros D. revert fs; induction es as [|e es IH]; intros fs Ne Nf H G.
  - specialize (H [] (described_nil)). inversion H; subst; auto. exfalso; apply Nf; left; auto.
  - pose proof (described_put z _ Ne) as P. apply H in P.
    destruct fs as [|f fs]; [inversion P|].
    assert (Ne' : ~ In RGlob es) by (intros K; apply Ne; right; auto).
    assert (Nf' : ~ In RGlob fs) by (intros K; apply Nf; right; auto).
    assert (Te : exists w, described es w) by (eexists; apply (described_put z); auto).
    assert (Tf : exists w, described fs w) by (eexists; apply (described_put z); auto).
    destruct Te as (we & We), Tf as (wf & Wf).
    destruct e as [b| |]; [| |exfalso; apply Ne; left; auto]; (destruct f as [c| |]; [| |exfalso; apply Nf; left; auto]).
    + assert (b = c).
      { specialize (H (b :: we) ltac:(constructor; auto)). apply described_bell_inv in H as (? & [= -> _] & _). auto. }
      subst c. f_equal. apply IH; auto.
      * intros l Hl. specialize (H (b :: l) ltac:(constructor; auto)). apply described_bell_inv in H as (bs & [= ->] & K). auto.
      * intros l Hl. specialize (G (b :: l) ltac:(constructor; auto)). apply described_bell_inv in G as (bs & [= ->] & K). auto.
    + exfalso. pose proof (G (z :: wf) ltac:(constructor; auto)) as G1. pose proof (G (y :: wf) ltac:(constructor; auto)) as G2.
      apply described_bell_inv in G1 as (? & [= <- _] & _). apply described_bell_inv in G2 as (? & [= <- _] & _). congruence.
    + exfalso. pose proof (H (z :: we) ltac:(constructor; auto)) as G1. pose proof (H (y :: we) ltac:(constructor; auto)) as G2.
      apply described_bell_inv in G1 as (? & [= <- _] & _). apply described_bell_inv in G2 as (? & [= <- _] & _). congruence.
    + f_equal. apply IH; auto.
      * intros l Hl. specialize (H (z :: l) ltac:(constructor; auto)). apply described_any_inv in H as (x & bs & [= _ ->] & K). auto.
      * intros l Hl. specialize (G (z :: l) ltac:(constructor; auto)). apply described_any_inv in G as (x & bs & [= _ ->] & K). auto.
Qed.

Lemma erase_id es : ~ In RGlob es -> erase es = es.
Proof. induction es as [|[b| |] es IH]; cbn; intros N; auto; [f_equal; auto|f_equal; auto|tauto]. Qed.

Lemma erase_unique es fs : (forall l, described es l <-> described fs l) -> erase es = erase fs.
Proof.
  intros H. apply (plain_unique 0 1); auto using no_globs.
  - intros l Hl. apply described_least.
    + apply H, described_erase, Hl.
    + apply described_length_eq in Hl as L; [|apply no_globs].
      apply described_erase, H, described_length in Hl.
      assert (W : described fs (map (put 0) (erase fs))) by apply described_erase, described_put, no_globs.
      apply H, described_length in W. rewrite map_length in W. lia.
  - intros l Hl. apply described_least.
    + apply H, described_erase, Hl.
    + apply described_length_eq in Hl as L; [|apply no_globs].
      apply described_erase, H, described_length in Hl.
      assert (W : described es (map (put 0) (erase es))) by apply described_erase, described_put, no_globs.
      apply H, described_length in W. rewrite map_length in W. lia.
Qed.

Lemma gap_described z es i : gap es i -> described es (ins i z (map (put z) (erase es))).
Proof.
  revert i; induction es as [|e es IH]; intros i G; [destruct G|].
  assert (W : forall fs, described fs (map (put z) (erase fs))) by (intros fs; apply described_erase, described_put, no_globs).
  destruct e as [b| |]; cbn in G |- *.
  - destruct i as [|i]; [destruct G|]. cbn. constructor. auto.
  - destruct i as [|i]; [destruct G|]. cbn. constructor. auto.
  - destruct G as [->|G]; [|apply (described_glob [] es); auto].
    cbn. apply (described_glob [z] es). auto.
Qed.

Lemma gap_le es i : gap es i -> i <= length (erase es).
Proof.
  revert i; induction es as [|e es IH]; intros i G; [destruct G|]. destruct e as [b| |]; cbn in *.
  - destruct i; [lia|]. apply IH in G. lia.
  - destruct i; [lia|]. apply IH in G. lia.
  - destruct G as [->|G]; [lia|auto].
Qed.

(** A list with [z] inserted is not one with [b] before it. *)
Lemma shifted (b z : nat) i es : b <> z -> ~ In RGlob es -> (forall c, In (RBell c) es -> c <> z) ->
  ~ described (RBell b :: es) (ins i z (map (put z) es)).
Proof.
  intros D. revert b i D. induction es as [|e es IH]; intros b i D N F H.
  - destruct i; cbn in H; apply described_bell_inv in H as (? & [= ? _] & _); congruence.
  - destruct i as [|i]; cbn in H; [apply described_bell_inv in H as (? & [= ? _] & _); congruence|].
    apply described_bell_inv in H as (bs & E & H). injection E as E <-.
    destruct e as [c| |]; cbn in E; [|congruence|congruence]. subst c.
    apply (IH b i D) in H; auto.
    + intros K; apply N; right; auto.
    + intros c Hc. apply F. right; auto.
Qed.

Lemma bells_erase es c : In (RBell c) (erase es) <-> In (RBell c) es.
Proof.
  induction es as [|[b| |] es IH]; cbn; [tauto|rewrite IH; tauto| |]; rewrite IH; (split; [auto|]);
    intros [H|H]; auto; discriminate.
Qed.

Lemma described_gap z es i : nf es -> (forall c, In (RBell c) es -> c <> z) ->
  i <= length (erase es) -> (forall e, nth_error (erase es) i = Some e -> exists b, e = RBell b) ->
  described es (ins i z (map (put z) (erase es))) -> gap es i.
Proof.
  revert i; induction es as [|e es IH]; intros i N F L B H.
  - cbn in H. destruct i; inversion H.
  - destruct e as [b| |]; cbn [erase map put] in *.
    + destruct i as [|i].
      * cbn in H. apply described_bell_inv in H as (bs & [= E _] & _). exfalso. apply (F b); [left; auto|congruence].
      * cbn in H. apply described_bell_inv in H as (bs & E & H). injection E as <-. cbn. apply IH; auto.
        -- intros c Hc. apply F. right; auto.
        -- cbn in L. lia.
    + destruct i as [|i]; [destruct (B RAny eq_refl) as (b & E); discriminate|].
      cbn in H. apply described_any_inv in H as (x & bs & E & H). injection E as _ <-. cbn. apply IH; auto.
      -- intros c Hc. apply F. right; auto.
      -- cbn in L. lia.
    + cbn. destruct i as [|i]; auto. right. cbn in N. destruct es as [|e es]; [cbn in L; lia|].
      destruct e as [b| |]; [|destruct N|destruct N]. apply IH; auto.
      * intros c Hc. apply F. right; auto.
      * apply described_glob_inv in H as (xs & bs & E & H). destruct xs as [|x xs]; [cbn [app] in E; rewrite E; auto|].
        exfalso. assert (Le := f_equal (@length nat) E). rewrite length_ins, map_length, app_length in Le. cbn in Le.
        apply described_length in H as Lb. cbn in Lb. destruct xs; [|cbn in Le; lia]. cbn [app] in E.
        assert (Pl : described (erase (RBell b :: es)) bs) by (apply described_least; auto; cbn; lia). cbn [erase] in Pl.
        cbn [erase map ins app] in E. injection E as _ E. rewrite <- E in Pl. apply shifted in Pl; auto.
        -- intros ->. apply (F z); auto. right; left; auto.
        -- apply no_globs.
        -- intros c Hc. apply F. right; right. apply bells_erase; auto.
Qed.

Lemma gap_bell es i : nf es -> gap es i -> forall e, nth_error (erase es) i = Some e -> exists b, e = RBell b.
Proof.
  revert i; induction es as [|e es IH]; intros i N G e0 E; [destruct G|]. destruct e as [b| |]; cbn in *.
  - destruct i; [destruct G|]. eapply IH; eauto.
  - destruct i; [destruct G|]. eapply IH; eauto.
  - destruct es as [|[b| |] es]; try destruct N.
    + destruct i; discriminate.
    + destruct G as [->|G]; [injection E as <-; eauto|]. eapply (IH i); eauto.
Qed.

Lemma nf_tail e es : nf (e :: es) -> nf es.
Proof. destruct e as [b| |]; cbn; auto. destruct es as [|[c| |] es]; cbn; auto; intros []. Qed.

Lemma same_gaps es fs : nf es -> nf fs -> erase es = erase fs -> (forall i, gap es i <-> gap fs i) -> es = fs.
Proof.
  revert fs; induction es as [|e es IH]; intros fs Ne Nf E G.
  - destruct fs as [|[b| |] fs]; auto; try discriminate. exfalso. apply (G 0). cbn. auto.
  - pose proof (nf_tail _ _ Ne) as Ne'.
    destruct e as [b| |].
    + destruct fs as [|[c| |] fs]; try discriminate.
      * cbn in E. injection E as <- E. f_equal. apply IH; auto. intros i. apply (G (S i)).
      * exfalso. apply (G 0). cbn. auto.
    + destruct fs as [|[c| |] fs]; try discriminate.
      * cbn in E. injection E as E. f_equal. apply IH; auto. intros i. apply (G (S i)).
      * exfalso. apply (G 0). cbn. auto.
    + destruct fs as [|[c| |] fs].
      * exfalso. apply (G 0). cbn. auto.
      * exfalso. apply (G 0). cbn. auto.
      * exfalso. apply (G 0). cbn. auto.
      * f_equal. apply IH; auto; [apply (nf_tail RGlob); auto|]. intros i. pose proof (G i) as Gi. cbn in Gi.
        destruct i as [|i].
        -- assert (K : forall gs, nf (RGlob :: gs) -> ~ gap gs 0).
           { intros gs K. cbn in K. destruct gs as [|[b| |] gs]; cbn; auto; destruct K. }
           split; intros H; exfalso; eapply K; [|exact H| |exact H]; eauto.
        -- split; intros H; [destruct (proj1 Gi (or_intror H)) as [?|?]|destruct (proj2 Gi (or_intror H)) as [?|?]]; auto; discriminate.
Qed.

Lemma fresh_bell (es : list regex_elem) : exists z, forall c, In (RBell c) es -> c < z.
Proof.
  induction es as [|e es (z & H)]; [exists 0; intros c []|].
  destruct e as [b| |].
  - exists (S (Nat.max b z)). intros c [[= ->]|K]; [lia|]. specialize (H _ K). lia.
  - exists z. intros c [K|K]; [discriminate|auto].
  - exists z. intros c [K|K]; [discriminate|auto].
Qed.

Lemma nf_unique es fs : nf es -> nf fs -> (forall l, described es l <-> described fs l) -> es = fs.
Proof.
  intros Ne Nf H. pose proof (erase_unique es fs H) as E. apply same_gaps; auto.
  destruct (fresh_bell (es ++ fs)) as (z & Fz).
  assert (Fe : forall c, In (RBell c) es -> c <> z) by (intros c K; assert (c < z) by (apply Fz, in_or_app; auto); lia).
  assert (Ff : forall c, In (RBell c) fs -> c <> z) by (intros c K; assert (c < z) by (apply Fz, in_or_app; auto); lia).
  intros i. split; intros G.
  - apply (described_gap z); auto.
    + rewrite <- E. apply gap_le; auto.
    + rewrite <- E. apply gap_bell; auto.
    + rewrite <- E. apply H, gap_described, G.
  - apply (described_gap z); auto.
    + rewrite E. apply gap_le; auto.
    + rewrite E. apply gap_bell; auto.
    + rewrite E. apply H, gap_described, G.
Qed.

Lemma length_elems es : length es = length (bells_written es) + count_any es + count_glob es.
Proof. induction es as [|[b| |] es IH]; cbn; lia. Qed.
