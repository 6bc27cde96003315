(** Property theorems C92: code of the caller which runs inside calls on blocks. *)

(* Generated from tools/props/Closures.src: the proofs behind PropsClosures.v. *)
From Verif Require Import Base Bell Stage Row Utils SameStageVec Block Program Unwind Closures Spec SpecVec SpecBlock SpecClosures
  ListFacts BellFacts RowFacts MulFacts GroupFacts SsvFacts SsvThms BlockFacts UnwindFacts ClosuresFacts.
Local Open Scope list_scope.

Lemma pf_C92_called_or_interrupted :
  forall W X Y (f : X -> W -> outcome W Y),
    (forall x w, exists w', f x w = Unwound w' \/ exists y, f x w = Done w' y) ->
    forall l w, exists ys w', called f l w ys w' \/ interrupted f l w ys w'.
Proof. intros W X Y f H. apply called_or_interrupted; auto. Qed.

Lemma pf_C92_constructors :
  forall W A (f : nat -> W -> outcome W A) (default : W -> outcome W A) v s rs w, holds v s rs ->
    (rs = [] -> with_annots_from_indices_u v f w = Done w None /\ with_default_annots_u default v w = Unwound w) /\
    (forall rows lo, rs = rows ++ [lo] -> forall ys w',
       (called f (seq 0 (length rows)) w ys w' ->
          exists b, with_annots_from_indices_u v f w = Done w' (Some b) /\ block_holds b s (combine rows ys) lo) /\
       (interrupted f (seq 0 (length rows)) w ys w' -> with_annots_from_indices_u v f w = Unwound w') /\
       (called (fun _ : unit => default) (repeat tt (length rows)) w ys w' ->
          exists b, with_default_annots_u default v w = Done w' b /\ block_holds b s (combine rows ys) lo) /\
       (interrupted (fun _ : unit => default) (repeat tt (length rows)) w ys w' ->
          with_default_annots_u default v w = Unwound w')).
Proof.
  intros W A f default v s rs w H. apply holds_rep in H. split.
  - intros ->. unfold with_annots_from_indices_u, with_default_annots_u. rewrite (ssv_len_ok _ _ _ H).
    destruct H as (_ & _ & _ & E). unfold ssv_is_empty. rewrite E. auto.
  - intros rows lo -> ys w'.
    assert (Q1 : with_annots_from_indices_u v f w = (annots <~ collect_map f (seq 0 (length rows));; give (Some (Block v annots))) w).
    { unfold with_annots_from_indices_u. rewrite (ssv_len_ok _ _ _ H), app_length. cbn [length]. rewrite Nat.add_1_r.
      unfold andthen at 1, reading. cbv beta iota. unfold range. rewrite Nat.sub_0_r. reflexivity. }
    assert (Q2 : with_default_annots_u default v w =
      (annots <~ collect_map (fun _ => default) (repeat tt (length rows));; give (Block v annots)) w).
    { unfold with_default_annots_u. rewrite (ssv_len_ok _ _ _ H), app_length. cbn [length].
      assert (E : ssv_is_empty v = false).
      { pose proof (ssv_len_ok _ _ _ H) as L. unfold ssv_is_empty. destruct (ssv_bells v) eqn:Eb; auto. exfalso.
        destruct H as (Hs & _ & F & E). rewrite Eb in E. rewrite concat_app in E. cbn in E. rewrite app_nil_r in E.
        symmetry in E. apply app_eq_nil in E as [_ ->]. apply Forall_app in F as [_ F]. inversion F as [|? ? V _]; subst.
        destruct V as [_ V]. cbn in V. lia. }
      rewrite E. cbn [negb]. unfold andthen at 1 2, reading, assert_. cbv beta iota.
      replace (length rows + 1 - 1) with (length rows) by lia. reflexivity. }
    splits; intros C; rewrite ?Q1, ?Q2.
    + rewrite (andthen_done _ _ _ _ _ (collect_called _ _ _ _ _ C)). eexists. split; [reflexivity|]. apply brep_holds.
      apply brep_combine; auto. rewrite (called_length _ _ _ _ _ C), seq_length. auto.
    + apply (andthen_unwound _ _ _ _ (collect_interrupted _ _ _ _ _ C)).
    + rewrite (andthen_done _ _ _ _ _ (collect_called _ _ _ _ _ C)). eexists. split; [reflexivity|]. apply brep_holds.
      apply brep_combine; auto. rewrite (called_length _ _ _ _ _ C), repeat_length. auto.
    + apply (andthen_unwound _ _ _ _ (collect_interrupted _ _ _ _ _ C)).
Qed.

Lemma pf_C92_maps :
  forall W A B (f : A -> W -> outcome W B) (g : nat -> A -> W -> outcome W B) (b : block A) s ars lo w ys w',
    block_holds b s ars lo ->
    (called f (map snd ars) w ys w' ->
       exists b', block_map_annots_u b f w = Done w' b' /\ block_holds b' s (combine (map fst ars) ys) lo) /\
    (interrupted f (map snd ars) w ys w' -> block_map_annots_u b f w = Unwound w') /\
    (called (fun ia => g (fst ia) (snd ia)) (combine (seq 0 (length ars)) (map snd ars)) w ys w' ->
       exists b', block_map_annots_with_index_u b g w = Done w' b' /\ block_holds b' s (combine (map fst ars) ys) lo) /\
    (interrupted (fun ia => g (fst ia) (snd ia)) (combine (seq 0 (length ars)) (map snd ars)) w ys w' ->
       block_map_annots_with_index_u b g w = Unwound w').
Proof.
  intros W A B f g b s ars lo w ys w' H. apply holds_brep in H. destruct H as [R Ea].
  assert (En : enumerate (blk_annots b) = combine (seq 0 (length ars)) (map snd ars)).
  { rewrite Ea. unfold enumerate. generalize 0. clear. induction ars as [|x ars IH]; intros k; cbn; auto. f_equal; auto. }
  assert (Q : block_map_annots_with_index_u b g w =
    (annots <~ collect_map (fun ia => g (fst ia) (snd ia)) (combine (seq 0 (length ars)) (map snd ars));;
     give (Block (blk_rows b) annots)) w).
  { unfold block_map_annots_with_index_u. rewrite En. unfold andthen.
    match goal with |- match ?x with _ => _ end = match ?y with _ => _ end => assert (E : x = y) end.
    { generalize (combine (seq 0 (length ars)) (map snd ars)). clear. intros l. revert w.
      induction l as [|[i a] l IH]; intros w; auto. cbn [collect_map]. unfold andthen. cbn [fst snd].
      destruct (g i a w); auto. rewrite IH. reflexivity. }
    rewrite E. reflexivity. }
  splits; intros C; rewrite ?Q; unfold block_map_annots_u; rewrite ?Ea.
  - rewrite (andthen_done _ _ _ _ _ (collect_called _ _ _ _ _ C)). eexists. split; [reflexivity|]. apply brep_holds.
    apply brep_combine; auto. rewrite (called_length _ _ _ _ _ C), !map_length. auto.
  - apply (andthen_unwound _ _ _ _ (collect_interrupted _ _ _ _ _ C)).
  - rewrite (andthen_done _ _ _ _ _ (collect_called _ _ _ _ _ C)). eexists. split; [reflexivity|]. apply brep_holds.
    apply brep_combine; auto. rewrite (called_length _ _ _ _ _ C), combine_length, seq_length, !map_length. lia.
  - apply (andthen_unwound _ _ _ _ (collect_interrupted _ _ _ _ _ C)).
Qed.

Lemma pf_C92_extend :
  forall W A (clone : A -> W -> outcome W A) (b other : block A) s ars lo s' ars' lo' w,
    block_holds b s ars lo -> block_holds other s' ars' lo' ->
    (s <> s' -> block_extend_u clone other (b, w) = Done (b, w) (Err (IncompatibleStages s s'))) /\
    (s = s' -> forall first ys w', hd_error (map fst ars' ++ [lo']) = Some first ->
       called clone (map snd ars') w ys w' ->
       exists b', block_extend_u clone other (b, w) = Done (b', w') (Ok tt) /\
         block_holds b' s (ars ++ combine (map (moved first lo) (map fst ars')) ys) (moved first lo lo')).
Proof.
  intros W A clone b o s ars lo s' ars' lo' w H Ho. apply holds_brep in H. apply holds_brep in Ho.
  unfold block_extend_u. rewrite extend_range_u_as. split.
  - intros N. pose proof (brep_extend_err s ars lo b s' ars' lo' o H Ho ltac:(auto)) as E.
    unfold block_extend in E. rewrite <- forget_block_extend_range in E. apply forget_done in E. rewrite E. reflexivity.
  - intros <- first ys w' Hf C. destruct (brep_extend s ars lo b ars' lo' o H Ho) as (b' & E & R).
    assert (Ef : nth 0 (all_rows_of ars' lo') [] = first).
    { unfold all_rows_of. destruct (map fst ars' ++ [lo']); cbn in *; congruence. }
    rewrite Ef in R. unfold block_extend in E. rewrite <- forget_block_extend_range in E. apply forget_done in E. rewrite E.
    destruct (extend_annots_held clone s ars (map (fun ra => (moved first lo (fst ra), snd ra)) ars') _ b' (blk_annots b) w (blk_annots o) ys w' R) as [K _].
    + apply H.
    + rewrite (proj2 Ho), !map_length. reflexivity.
    + rewrite (proj2 Ho) in K. destruct (K C) as [K1 K2]. rewrite (proj2 Ho). rewrite (andthen_done _ _ _ _ _ K2).
      eexists. split; [reflexivity|]. apply brep_holds. rewrite map_map. rewrite map_map in K1. exact K1.
Qed.

Lemma pf_C92_extend_from_within :
  forall W A (clone : A -> W -> outcome W A) (b : block A) s ars lo lo_ hi_ w first ys w',
    block_holds b s ars lo ->
    let a := range_start lo_ in let e := range_end hi_ (length ars) in
    a <= e -> e <= length ars -> nth_error (map fst ars ++ [lo]) a = Some first ->
    called clone (sublist a e (map snd ars)) w ys w' ->
    exists b', block_extend_from_within_u clone lo_ hi_ (b, w) = Done (b', w') tt /\
      block_holds b' s (ars ++ combine (map (moved first lo) (sublist a e (map fst ars))) ys)
        (moved first lo (nth e (map fst ars ++ [lo]) [])).
Proof.
  intros W A clone b s ars lo lo_ hi_ w first ys w' H a e Hae He Hf C. apply holds_brep in H.
  rewrite from_within_u_as. destruct (brep_from_within s ars lo b lo_ hi_ H Hae He) as (b' & E & R). fold a e in R.
  assert (Ef : nth a (all_rows_of ars lo) [] = first) by (apply nth_error_nth; auto). rewrite Ef in R.
  assert (E' : block_extend_from_within_b lo_ hi_ b = Done b' tt).
  { apply forget_done. rewrite forget_block_extend_from_within, E. reflexivity. }
  rewrite E'. unfold clamp_range. erewrite brep_len by eauto.
  change (match lo_ with Included y => y | Excluded z => z + 1 | Unbounded => 0 end) with a.
  change (match hi_ with Included y => y + 1 | Excluded z => z | Unbounded => length ars end) with e.
  rewrite (proj2 H).
  destruct (extend_annots_held clone s ars (map (fun ra => (moved first lo (fst ra), snd ra)) (sublist a e ars)) _ b' (map snd ars) w
    (sublist a e (map snd ars)) ys w' R eq_refl) as [K _].
  - unfold sublist. rewrite map_length, !firstn_length, !skipn_length, map_length. reflexivity.
  - destruct (K C) as [K1 K2]. eexists. split; [exact K2|]. apply brep_holds. rewrite map_map in K1. cbn [fst] in K1.
    unfold sublist in *. rewrite skipn_map, firstn_map, map_map. exact K1.
Qed.

Lemma pf_C92_interrupted_extend_refuted :
  forall W A (clone : A -> W -> outcome W A) (b other : block A) s ars lo ars' lo' w ys w' first,
    block_holds b s ars lo -> block_holds other s ars' lo' ->
    hd_error (map fst ars' ++ [lo']) = Some first ->
    interrupted clone (map snd ars') w ys w' ->
    exists b', block_extend_u clone other (b, w) = Unwound (b', w') /\
      block_all_rows b' = Ret (map fst ars ++ map (moved first lo) (map fst ars' ++ [lo'])) /\
      (forall i, block_get_annot b' i = nth_error (map snd ars ++ ys) i) /\
      block_annot_rows b' = Panic.
Proof.
  intros W A clone b o s ars lo ars' lo' w ys w' first H Ho Hf C. apply holds_brep in H. apply holds_brep in Ho.
  unfold block_extend_u. rewrite extend_range_u_as.
  destruct (brep_extend s ars lo b ars' lo' o H Ho) as (b' & E & R).
  assert (Ef : nth 0 (all_rows_of ars' lo') [] = first).
  { unfold all_rows_of. destruct (map fst ars' ++ [lo']); cbn in *; congruence. }
  rewrite Ef in R. unfold block_extend in E. rewrite <- forget_block_extend_range in E. apply forget_done in E. rewrite E.
  destruct (extend_annots_held clone s ars (map (fun ra => (moved first lo (fst ra), snd ra)) ars') _ b' (blk_annots b) w (blk_annots o) ys w' R) as [_ K].
  - apply H.
  - rewrite (proj2 Ho), !map_length. reflexivity.
  - rewrite (proj2 Ho), (proj2 H) in *. destruct (K C) as [K1 K2]. eexists. split; [apply (andthen_unwound _ _ _ _ K1)|]. splits.
    + unfold block_all_rows. cbn [blk_rows]. erewrite rep_rows by apply R. rewrite !map_app, !map_map, <- app_assoc. reflexivity.
    + intros i. reflexivity.
    + exact K2.
Qed.

Lemma pf_C92_interrupted_extend_from_within_refuted :
  forall W A (clone : A -> W -> outcome W A) (b : block A) s ars lo lo_ hi_ w first ys w',
    block_holds b s ars lo ->
    let a := range_start lo_ in let e := range_end hi_ (length ars) in
    a <= e -> e <= length ars -> nth_error (map fst ars ++ [lo]) a = Some first ->
    interrupted clone (sublist a e (map snd ars)) w ys w' ->
    exists b', block_extend_from_within_u clone lo_ hi_ (b, w) = Unwound (b', w') /\
      block_all_rows b' =
        Ret (map fst ars ++ map (moved first lo) (sublist a e (map fst ars) ++ [nth e (map fst ars ++ [lo]) []])) /\
      (forall i, block_get_annot b' i = nth_error (map snd ars ++ ys) i) /\
      block_annot_rows b' = Panic.
Proof.
  intros W A clone b s ars lo lo_ hi_ w first ys w' H a e Hae He Hf C. apply holds_brep in H.
  rewrite from_within_u_as. destruct (brep_from_within s ars lo b lo_ hi_ H Hae He) as (b' & E & R). fold a e in R.
  assert (Ef : nth a (all_rows_of ars lo) [] = first) by (apply nth_error_nth; auto). rewrite Ef in R.
  assert (E' : block_extend_from_within_b lo_ hi_ b = Done b' tt).
  { apply forget_done. rewrite forget_block_extend_from_within, E. reflexivity. }
  rewrite E'. unfold clamp_range. erewrite brep_len by eauto.
  change (match lo_ with Included y => y | Excluded z => z + 1 | Unbounded => 0 end) with a.
  change (match hi_ with Included y => y + 1 | Excluded z => z | Unbounded => length ars end) with e.
  rewrite (proj2 H).
  destruct (extend_annots_held clone s ars (map (fun ra => (moved first lo (fst ra), snd ra)) (sublist a e ars)) _ b' (map snd ars) w
    (sublist a e (map snd ars)) ys w' R eq_refl) as [_ K].
  - unfold sublist. rewrite map_length, !firstn_length, !skipn_length, map_length. reflexivity.
  - destruct (K C) as [K1 K2]. eexists. split; [exact K1|]. splits.
    + unfold block_all_rows. cbn [blk_rows]. erewrite rep_rows by apply R. rewrite !map_app, !map_map, <- app_assoc.
      unfold sublist. rewrite skipn_map, firstn_map, map_map. reflexivity.
    + intros i. reflexivity.
    + exact K2.
Qed.

Lemma pf_C92_same_functions :
  forall W A B (w : W) (b : block A) v,
    (forall f : nat -> A, forget (with_annots_from_indices_u v (fun i => give (f i)) w) =
       (r <- with_annots_from_indices v f;; Ret (w, r))) /\
    (forall d : A, forget (with_default_annots_u (give d) v w) = (r <- with_default_annots d v;; Ret (w, r))) /\
    (forall f : A -> B, block_map_annots_u b (fun a => give (f a)) w = Done w (block_map_annots b f)) /\
    (forall f : nat -> A -> B, block_map_annots_with_index_u b (fun i a => give (f i a)) w =
       Done w (block_map_annots_with_index b f)) /\
    (forall other lo hi, forget (block_extend_range_u (fun a => give a) other lo hi (b, w)) =
       ('(b', r) <- block_extend_range b other lo hi;; Ret ((b', w), r))) /\
    (forall lo hi, forget (block_extend_from_within_u (fun a => give a) lo hi (b, w)) =
       (b' <- block_extend_from_within b lo hi;; Ret ((b', w), tt))).
Proof.
  intros W A B w b v.
  assert (P : forall X Y (f : X -> Y) l, called (fun x => give (f x)) l w (map f l) w).
  { intros X Y f. induction l as [|x l IH]; [constructor|]. cbn [map]. econstructor; [reflexivity|auto]. }
  splits.
  - intros f. unfold with_annots_from_indices_u, with_annots_from_indices. rewrite forget_andthen, forget_reading.
    destruct (ssv_len v) as [[|n]| | |]; auto. cbn [bind fst snd].
    rewrite (andthen_done _ _ _ _ _ (collect_called _ _ _ _ _ (P _ _ f _))). reflexivity.
  - intros d. unfold with_default_annots_u, with_default_annots. rewrite forget_andthen, forget_reading.
    destruct (assert_ _) as [[]| | |]; auto. cbn [bind fst snd]. rewrite forget_andthen, forget_reading.
    destruct (ssv_len v) as [n| | |]; auto. cbn [bind fst snd].
    rewrite (andthen_done _ _ _ _ _ (collect_called _ _ _ _ _ (P _ _ (fun _ => d) _))). cbn [forget give]. do 3 f_equal.
    induction (n - 1) as [|k IH]; cbn; auto. f_equal. auto.
  - intros f. unfold block_map_annots_u. rewrite (andthen_done _ _ _ _ _ (collect_called _ _ _ _ _ (P _ _ f _))). reflexivity.
  - intros f. unfold block_map_annots_with_index_u.
    assert (C : called (fun '(i, a) => give (f i a)) (enumerate (blk_annots b)) w (map (fun '(i, a) => f i a) (enumerate (blk_annots b))) w).
    { generalize (enumerate (blk_annots b)). induction l as [|[i a] l IH]; [constructor|]. cbn [map]. econstructor; [reflexivity|auto]. }
    rewrite (andthen_done _ _ _ _ _ (collect_called _ _ _ _ _ C)). reflexivity.
  - intros other lo hi. rewrite extend_range_u_as. rewrite <- forget_block_extend_range.
    pose proof (P _ _ (fun a : A => a) (blk_annots other)) as C. rewrite map_id in C.
    assert (K : forall b', blk_annots b' = blk_annots b ++ blk_annots other ->
      Block (blk_rows b') (blk_annots b ++ blk_annots other) = b') by (intros [rv an] E; cbn in *; congruence).
    destruct (block_extend_range_b other lo hi b) as [b' [[]|e]|b'| |] eqn:E; auto.
    cbv zeta. cbn [fst snd]. rewrite (andthen_done _ _ _ _ _ (extend_annots_called _ _ _ _ _ C _ _)). cbn [forget give bind].
    rewrite K; auto. clear - E. unfold block_extend_range_b in E. destruct (clamp_range _ _ _) as [x y].
    unfold rows_of_block, inside, look, reading, give, update, andthen in E.
    destruct (unwrap (block_get_row other x)); try discriminate. destruct (block_leftover_row b); try discriminate.
    destruct (solve_xa_equals_b _ _) as [[t|]| | |]; try discriminate. destruct (ssv_pop_b _); try discriminate.
    cbn [blk_rows blk_annots] in E. destruct (ssv_extend_range_transposed_b _ _ _ _ _); try discriminate.
    cbn [blk_rows blk_annots] in E. destruct (unwrap_res _); try discriminate. injection E as <-. reflexivity.
  - intros lo hi. rewrite from_within_u_as.
    assert (F : forget (block_extend_from_within_b lo hi b) = (b' <- block_extend_from_within b lo hi;; Ret (b', tt)))
      by apply forget_block_extend_from_within.
    destruct (block_extend_from_within_b lo hi b) as [b' []|b'| |] eqn:E;
      destruct (block_extend_from_within b lo hi) as [b1| | |]; cbn [forget bind] in F; try discriminate; auto.
    injection F as ->. unfold block_extend_from_within_b, look, andthen in E. destruct (clamp_range _ _ _) as [x y].
    pose proof (P _ _ (fun a : A => a) (sublist x y (blk_annots b))) as C. rewrite map_id in C.
    rewrite (extend_annots_called _ _ _ _ _ C). cbn [forget bind]. do 3 f_equal.
    unfold rows_of_block, inside, reading, update in E.
    destruct (unwrap (block_get_row b x)); try discriminate. destruct (block_leftover_row b); try discriminate.
    destruct (solve_xa_equals_b _ _); try discriminate. destruct (unwrap_res _); try discriminate.
    destruct (ssv_extend_transposed_from_within_b _ _ _ _); try discriminate. cbn [blk_rows blk_annots] in E.
    destruct (unwrap_res _); try discriminate. destruct (slice _ _ _) eqn:Es; try discriminate. injection E as <-.
    unfold slice in Es. destruct (_ && _); [|discriminate]. injection Es as <-. reflexivity.
Qed.
