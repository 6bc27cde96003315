(** Proofs about the model of methods. *)
From Verif Require Import Base Spec ListFacts Bell Stage Row RowFacts MulFacts GroupFacts
  Utils SameStageVec SpecVec SsvFacts Block SpecBlock BlockFacts PlaceNot SpecPn PnFacts PnFacts2 Class Method.
Local Open Scope list_scope.

Lemma brep_index_annots {A B} s (ars : list (row * A)) lo b (f : nat -> A -> B) : brep s ars lo b ->
  brep s (map (fun ira => (fst (snd ira), f (fst ira) (snd (snd ira)))) (combine (seq 0 (length ars)) ars)) lo
    (block_map_annots_with_index b f).
Proof.
  intros H. unfold block_map_annots_with_index. split; cbn [blk_rows blk_annots].
  - rewrite map_map. cbn [fst]. assert (E : map (fun x => fst (snd x)) (combine (seq 0 (length ars)) ars) = map fst ars).
    { generalize 0. clear. induction ars as [|x ars IH]; intros k; cbn; auto. f_equal; auto. }
    rewrite E. apply H.
  - rewrite (proj2 H), map_map. cbn [snd]. unfold enumerate. generalize 0. clear.
    induction ars as [|x ars IH]; intros k; cbn; auto. f_equal; auto.
Qed.

(** ** The plain course *)

Section Course.
Context {A : Type}.

(** [k] leads, each moved by a power of [t]. *)
Definition course (t : row) (ars : list (row * A)) (k : nat) : list (row * A) :=
  flat_map (fun j => map (fun ra => (rmul (rpow t j) (fst ra), snd ra)) ars) (seq 0 k).

Lemma course_S t ars k :
  course t ars (S k) = course t ars k ++ map (fun ra => (rmul (rpow t k) (fst ra), snd ra)) ars.
Proof. unfold course. rewrite seq_S, flat_map_app. cbn [flat_map seq]. rewrite app_nil_r. reflexivity. Qed.

Lemma course_length t ars k : length (course t ars k) = k * length ars.
Proof. induction k as [|k IH]; auto. rewrite course_S, app_length, map_length, IH. lia. Qed.

Lemma course_prefix t ars k j : k <= j -> exists l, course t ars j = course t ars k ++ l.
Proof.
  intros H. induction H as [|j H (l & IH)]; [exists []; rewrite app_nil_r; auto|].
  rewrite course_S, IH, <- app_assoc. eauto.
Qed.

Lemma course_1 s t ars : vrow s t -> Forall (vrow s) (map fst ars) -> course t ars 1 = ars.
Proof.
  intros Ht F. unfold course. cbn [seq flat_map]. rewrite app_nil_r.
  rewrite <- (map_id ars) at 2. apply map_ext_in. intros (r, a) Hin. cbn [fst snd]. f_equal.
  change (rpow t 0) with (row_rounds (length t)). rewrite (proj2 Ht).
  apply rmul_rounds_l_vrow. rewrite Forall_map in F. rewrite Forall_forall in F. apply (F _ Hin).
Qed.

Lemma nth_course t ars k j i : j < k -> i < length ars ->
  nth_error (course t ars k) (j * length ars + i) =
  option_map (fun ra => (rmul (rpow t j) (fst ra), snd ra)) (nth_error ars i).
Proof.
  intros Hj Hi. destruct (course_prefix t ars (S j) k ltac:(lia)) as (l & ->).
  rewrite nth_error_app1 by (rewrite course_length; cbn; lia).
  rewrite course_S, nth_error_app2 by (rewrite course_length; lia).
  rewrite course_length. replace (j * length ars + i - j * length ars) with i by lia.
  rewrite nth_error_map. reflexivity.
Qed.
End Course.

Lemma hd_all_rows {A} (ars : list (row * A)) lo : hd [] (all_rows_of ars lo) = nth 0 (all_rows_of ars lo) [].
Proof. unfold all_rows_of. destruct ars; reflexivity. Qed.

Section Loop.
Context (s : nat) (ars : list (row * row_annot)) (lo f t : row).
Hypothesis Vf : vrow s f.
Hypothesis Vt : vrow s t.
Hypothesis F : Forall (vrow s) (map fst ars).
Hypothesis Hlo : lo = rmul t f.
Hypothesis Hf : hd [] (all_rows_of ars lo) = f.

Lemma course_vrow k : Forall (vrow s) (map fst (course t ars k)).
Proof.
  rewrite Forall_map. apply Forall_forall. intros x Hx. unfold course in Hx. apply in_flat_map in Hx as (j & _ & Hx).
  apply in_map_iff in Hx as (ra & <- & Hra). cbn [fst]. apply valid_rmul; [apply vrow_rpow; auto|].
  rewrite Forall_map, Forall_forall in F. auto.
Qed.

Lemma course_row k i : 0 < k -> i <= length ars ->
  nth i (all_rows_of (course t ars k) (rmul (rpow t k) f)) [] = nth i (all_rows_of ars lo) [].
Proof.
  intros Hk Hi. assert (P : rpow t 1 = t) by (eapply rpow_1; eauto).
  destruct k as [|k]; [lia|]. clear Hk.
  destruct (course_prefix t ars 1 (S k) ltac:(lia)) as (l & E). rewrite (course_1 s) in E by auto.
  unfold all_rows_of. rewrite E, map_app, <- app_assoc.
  destruct (Nat.eq_dec i (length ars)) as [->|N].
  - rewrite (app_nth2 _ [lo]) by (rewrite map_length; lia).
    rewrite app_nth2 by (rewrite map_length; lia). rewrite map_length, Nat.sub_diag. cbn [nth].
    destruct k as [|k].
    + assert (l = []) as ->.
      { apply (f_equal (@length _)) in E. rewrite course_length, app_length in E. destruct l; auto. cbn in E. lia. }
      cbn [map app nth]. rewrite P. symmetry. exact Hlo.
    + destruct ars as [|ra ars'] eqn:Ea.
      * assert (course t ([] : list (row * row_annot)) (S (S k)) = []) as El.
        { apply length_zero_iff_nil. rewrite course_length. cbn. lia. }
        rewrite El in E. destruct l; [|discriminate]. cbn [map app nth].
        assert (Et : t = row_rounds s).
        { unfold all_rows_of in Hf. cbn in Hf. apply (rmul_cancel_r s f t (row_rounds s)); auto.
          - apply valid_rounds. destruct Vt as [V L]. rewrite <- L. apply valid_row_pos; auto.
          - rewrite <- Hlo, rmul_rounds_l_vrow by auto. auto. }
        rewrite Hlo. f_equal. rewrite Et. clear. generalize (S (S k)) as n. intros n.
        induction n as [|n IH]; [cbn; rewrite length_rounds; reflexivity|].
        cbn [rpow]. rewrite IH. apply rmul_rounds_r. apply length_rounds.
      * rewrite <- Ea in *.
        assert (Hn : nth_error (course t ars (S (S k))) (1 * length ars + 0) = Some (rmul t (fst ra), snd ra)).
        { rewrite nth_course by (rewrite ?Ea; cbn; lia). rewrite Ea. cbn [nth_error option_map]. rewrite P. reflexivity. }
        rewrite E in Hn. rewrite nth_error_app2 in Hn by lia. replace (1 * length ars + 0 - length ars) with 0 in Hn by lia.
        destruct l as [|x l]; [discriminate|]. cbn in Hn. injection Hn as ->. cbn [map app nth fst].
        unfold all_rows_of in Hf. rewrite Ea in Hf. cbn in Hf. subst f. symmetry. exact Hlo.
  - rewrite !app_nth1 by (rewrite map_length; lia). reflexivity.
Qed.

Lemma course_step b k : 0 < k -> brep s (course t ars k) (rmul (rpow t k) f) b ->
  exists b', block_extend_from_within b (Included 0) (Excluded (length ars)) = Ret b' /\
    brep s (course t ars (S k)) (rmul (rpow t (S k)) f) b'.
Proof.
  intros Hk H. destruct (brep_from_within s _ _ b (Included 0) (Excluded (length ars)) H) as (b' & E & R).
  - cbn; lia.
  - cbn [range_end]. rewrite course_length. nia.
  - exists b'. split; auto. cbn [range_start range_end] in R.
    rewrite !course_row in R by lia. rewrite <- hd_all_rows, Hf in R.
    assert (El : nth (length ars) (all_rows_of ars lo) [] = lo).
    { unfold all_rows_of. rewrite app_nth2 by (rewrite map_length; lia). rewrite map_length, Nat.sub_diag. reflexivity. }
    rewrite El in R.
    assert (Vp : vrow s (rpow t k)) by (apply vrow_rpow; auto).
    assert (M : forall r, vrow s r -> moved f (rmul (rpow t k) f) r = rmul (rpow t k) r).
    { intros r Hr. rewrite <- row_product_rmul. apply (moved_unique s); auto.
      - apply valid_rmul; auto.
      - apply (composition_vrow s); auto. }
    assert (Sl : sublist 0 (length ars) (course t ars k) = ars).
    { destruct (course_prefix t ars 1 k Hk) as (l & ->). rewrite (course_1 s) by auto.
      unfold sublist. cbn [skipn]. rewrite Nat.sub_0_r, firstn_app, Nat.sub_diag, firstn_all, firstn_O, app_nil_r. reflexivity. }
    rewrite Sl in R. rewrite M in R by (rewrite Hlo; apply valid_rmul; auto).
    rewrite Hlo in R. rewrite <- (rmul_assoc_vrow s) in R by auto.
    rewrite course_S. cbn [rpow].
    erewrite map_ext_in in R; [exact R|]. intros ra Hra. cbn beta. rewrite M; auto.
    rewrite Forall_map, Forall_forall in F. auto.
Qed.

Lemma loop_ok m : rmul (rpow t m) f = row_rounds s -> forall fuel k b, 0 < k <= m ->
  (forall j, k <= j < m -> rmul (rpow t j) f <> row_rounds s) ->
  brep s (course t ars k) (rmul (rpow t k) f) b -> m < k + fuel ->
  exists b', plain_course_loop fuel (length ars) b = Ret b' /\ brep s (course t ars m) (row_rounds s) b'.
Proof.
  intros Em. induction fuel as [|fuel IH]; intros k b Hk Hn H Hfu; [lia|].
  cbn [plain_course_loop]. erewrite brep_leftover by eauto. cbn [bind].
  assert (V : vrow s (rmul (rpow t k) f)) by (apply valid_rmul; auto; apply vrow_rpow; auto).
  destruct (is_rounds (rmul (rpow t k) f)) eqn:E.
  - apply is_rounds_iff in E. rewrite (proj2 V) in E.
    assert (k = m) as -> by (destruct (Nat.eq_dec k m); auto; exfalso; apply (Hn k); auto; lia).
    rewrite E in H. eauto.
  - destruct (course_step b k ltac:(lia) H) as (b' & E' & H'). rewrite E'. cbn [bind].
    assert (k <> m).
    { intros ->. rewrite Em in E. rewrite (proj2 (is_rounds_iff _)) in E; [discriminate|]. rewrite length_rounds. reflexivity. }
    apply (IH (S k)); auto; try lia. intros j Hj. apply Hn. lia.
Qed.

Lemma loop_diverges fuel : forall k b, 0 < k -> (forall j, k <= j -> rmul (rpow t j) f <> row_rounds s) ->
  brep s (course t ars k) (rmul (rpow t k) f) b -> plain_course_loop fuel (length ars) b = NoFuel.
Proof.
  induction fuel as [|fuel IH]; intros k b Hk Hn H; auto.
  cbn [plain_course_loop]. erewrite brep_leftover by eauto. cbn [bind].
  assert (V : vrow s (rmul (rpow t k) f)) by (apply valid_rmul; auto; apply vrow_rpow; auto).
  destruct (is_rounds (rmul (rpow t k) f)) eqn:E.
  - apply is_rounds_iff in E. rewrite (proj2 V) in E. exfalso. apply (Hn k); auto.
  - destruct (course_step b k ltac:(lia) H) as (b' & E' & H'). rewrite E'. cbn [bind].
    apply (IH (S k)); auto; try lia. intros j Hj. apply Hn. lia.
Qed.
End Loop.

(** ** Labels *)

Lemma positions_from {A} (p : A -> bool) l : forall k,
  Sorted.StronglySorted lt (map fst (filter (fun '(_, x) => p x) (enumerate_from k l))) /\
  forall i, In i (map fst (filter (fun '(_, x) => p x) (enumerate_from k l))) <->
    k <= i /\ exists x, nth_error l (i - k) = Some x /\ p x = true.
Proof.
  induction l as [|x l IH]; intros k; cbn [enumerate_from filter map].
  - split; [constructor|]. intros i. cbn. split; [tauto|]. intros (_ & x & E & _). destruct (i - k); discriminate.
  - destruct (IH (S k)) as [S1 S2].
    assert (T : forall i, S k <= i -> nth_error (x :: l) (i - k) = nth_error l (i - S k)).
    { intros i Hi. replace (i - k) with (S (i - S k)) by lia. reflexivity. }
    destruct (p x) eqn:E; cbn [map fst].
    + split.
      * constructor; auto. apply Forall_forall. intros i Hi. apply S2 in Hi. lia.
      * intros i. cbn [In]. rewrite S2. split.
        -- intros [<-|(Hi & y & Ey & Py)]; [split; auto; exists x; rewrite Nat.sub_diag; auto|].
           split; [lia|]. exists y. rewrite T by lia. auto.
        -- intros (Hi & y & Ey & Py). destruct (Nat.eq_dec k i) as [->|N]; auto. right. split; [lia|].
           exists y. rewrite T in Ey by lia. auto.
    + split; auto. intros i. rewrite S2. split.
      * intros (Hi & y & Ey & Py). split; [lia|]. exists y. rewrite T by lia. auto.
      * intros (Hi & y & Ey & Py). destruct (Nat.eq_dec k i) as [->|N].
        -- rewrite Nat.sub_diag in Ey. cbn in Ey. congruence.
        -- split; [lia|]. exists y. rewrite T in Ey by lia. auto.
Qed.

Lemma positions_ok {A} (p : A -> bool) l :
  Sorted.StronglySorted lt (positions p l) /\
  forall i, In i (positions p l) <-> exists x, nth_error l i = Some x /\ p x = true.
Proof.
  destruct (positions_from p l 0) as [S1 S2]. split; [exact S1|]. intros i. unfold positions, enumerate. rewrite S2.
  rewrite Nat.sub_0_r. intuition lia.
Qed.
