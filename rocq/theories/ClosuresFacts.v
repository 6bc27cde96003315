(** Proofs about code of the caller inside calls on blocks. *)
From Verif Require Import Base Bell Stage Row Utils SameStageVec Block Program Unwind Closures Spec SpecVec SpecBlock
  SpecClosures ListFacts BellFacts RowFacts MulFacts GroupFacts SsvFacts BlockFacts UnwindFacts.
Local Open Scope list_scope.

Lemma andthen_done {S A B} (m : borrow S A) (f : A -> borrow S B) s s' a : m s = Done s' a -> andthen m f s = f a s'.
Proof. intros E. unfold andthen. rewrite E. reflexivity. Qed.
Lemma andthen_unwound {S A B} (m : borrow S A) (f : A -> borrow S B) s s' : m s = Unwound s' -> andthen m f s = Unwound s'.
Proof. intros E. unfold andthen. rewrite E. reflexivity. Qed.
Lemma forget_done {S A} (o : outcome S A) s a : forget o = Ret (s, a) -> o = Done s a.
Proof. destruct o; cbn; intros E; try discriminate. injection E as -> ->. reflexivity. Qed.

Section Collect.
Context {W X Y : Type} (f : X -> borrow W Y).

Lemma collect_called l w ys w' : called f l w ys w' -> collect_map f l w = Done w' ys.
Proof.
  induction 1 as [w|x xs w y ys w' w'' E _ IH]; [reflexivity|]. cbn [collect_map].
  rewrite (andthen_done _ _ _ _ _ E). rewrite (andthen_done _ _ _ _ _ IH). reflexivity.
Qed.
Lemma collect_interrupted l w ys w' : interrupted f l w ys w' -> collect_map f l w = Unwound w'.
Proof.
  induction 1 as [x xs w w' E|x xs w y ys w' w'' E _ IH]; cbn [collect_map].
  - apply (andthen_unwound _ _ _ _ E).
  - rewrite (andthen_done _ _ _ _ _ E). apply (andthen_unwound _ _ _ _ IH).
Qed.
Lemma called_length l w ys w' : called f l w ys w' -> length ys = length l.
Proof. induction 1; cbn; auto. Qed.
Lemma interrupted_length l w ys w' : interrupted f l w ys w' -> length ys < length l.
Proof. induction 1; cbn; lia. Qed.
Lemma called_or_interrupted : (forall x w, exists w', f x w = Unwound w' \/ exists y, f x w = Done w' y) ->
  forall l w, exists ys w', called f l w ys w' \/ interrupted f l w ys w'.
Proof.
  intros H. induction l as [|x l IH]; intros w.
  - exists [], w. left. constructor.
  - destruct (H x w) as (w' & [E|[y E]]).
    + exists [], w'. right. constructor. auto.
    + destruct (IH w') as (ys & w'' & [C|C]); exists (y :: ys), w''; [left|right]; econstructor; eauto.
Qed.
End Collect.

Lemma combine_fst {A B} (l : list A) (m : list B) : length l = length m -> map fst (combine l m) = l.
Proof. revert m. induction l as [|x l IH]; intros [|y m] E; try discriminate; auto. cbn. f_equal. apply IH. auto. Qed.
Lemma combine_snd {A B} (l : list A) (m : list B) : length l = length m -> map snd (combine l m) = m.
Proof. revert m. induction l as [|x l IH]; intros [|y m] E; try discriminate; auto. cbn. f_equal. apply IH. auto. Qed.

Lemma brep_combine {A} s rows lo v (ys : list A) : rep s (rows ++ [lo]) v -> length ys = length rows ->
  brep s (combine rows ys) lo (Block v ys).
Proof.
  intros R L. split; cbn [blk_rows blk_annots].
  - rewrite combine_fst by auto. auto.
  - rewrite combine_snd by auto. auto.
Qed.

Lemma zip_eq_panic {X Y} (l : list X) (m : list Y) : length l <> length m -> zip_eq l m = Panic.
Proof.
  revert m. induction l as [|x l IH]; intros [|y m] L; cbn in *; auto; try lia.
  rewrite IH by lia. reflexivity.
Qed.

Section Clone.
Context {W A : Type} (clone : A -> borrow W A).

Lemma extend_annots_called l w ys w' : called clone l w ys w' -> forall v an,
  extend_annots clone l (Block v an, w) = Done (Block v (an ++ ys), w') tt.
Proof.
  unfold extend_annots. induction 1 as [w|x xs w y ys w' w'' E _ IH]; intros v an; cbn [each].
  - rewrite app_nil_r. reflexivity.
  - unfold andthen at 1 2. unfold of_world, inside. cbn [snd fst]. rewrite E. cbn. rewrite IH. rewrite <- app_assoc. reflexivity.
Qed.
Lemma extend_annots_interrupted l w ys w' : interrupted clone l w ys w' -> forall v an,
  extend_annots clone l (Block v an, w) = Unwound (Block v (an ++ ys), w').
Proof.
  unfold extend_annots. induction 1 as [x xs w w' E|x xs w y ys w' w'' E _ IH]; intros v an; cbn [each].
  - unfold andthen at 1 2. unfold of_world, inside. cbn [snd fst]. rewrite E. cbn. rewrite app_nil_r. reflexivity.
  - unfold andthen at 1 2. unfold of_world, inside. cbn [snd fst]. rewrite E. cbn. rewrite IH. rewrite <- app_assoc. reflexivity.
Qed.

(** The call with clones is the call without, with the clones made at the end. *)
Lemma extend_range_u_as other lo hi b w :
  block_extend_range_u clone other lo hi (b, w) =
  match block_extend_range_b other lo hi b with
  | Done b' (Ok _) => (extend_annots clone (blk_annots other) ;~ give (Ok tt)) (Block (blk_rows b') (blk_annots b), w)
  | Done b' (Err e) => Done (b', w) (Err e)
  | Unwound b' => Unwound (b', w)
  | BadAccess => BadAccess
  | OutOfFuel => OutOfFuel
  end.
Proof.
  unfold block_extend_range_u, block_extend_range_b. destruct (clamp_range _ _ _) as [x y].
  unfold of_block, rows_of_block, inside, look, reading, give, update, andthen. cbv beta iota. cbn [fst snd].
  destruct (unwrap (block_get_row other x)) as [first| | |]; cbv beta iota; cbn [fst snd blk_rows blk_annots]; auto.
  destruct (block_leftover_row b) as [lo_| | |]; cbv beta iota; cbn [fst snd blk_rows blk_annots]; auto.
  destruct (solve_xa_equals_b first lo_) as [[t|e]| | |]; cbv beta iota; cbn [fst snd blk_rows blk_annots]; auto.
  destruct (ssv_pop_b (blk_rows b)) as [v r|v| |]; cbv beta iota; cbn [fst snd blk_rows blk_annots]; auto. cbn [blk_rows blk_annots fst snd].
  destruct (ssv_extend_range_transposed_b t (blk_rows other) (Included x) (Excluded (y + 1)) v) as [v' res|v'| |]; cbv beta iota; cbn [fst snd blk_rows blk_annots]; auto.
  cbn [blk_rows blk_annots fst snd]. destruct (unwrap_res res) as [u| | |]; cbv beta iota; cbn [fst snd blk_rows blk_annots]; auto.
Qed.

Lemma from_within_u_as lo hi b w :
  block_extend_from_within_u clone lo hi (b, w) =
  match block_extend_from_within_b lo hi b with
  | Done b' _ =>
      let (start, end_) := clamp_range lo hi (block_len b) in
      extend_annots clone (sublist start end_ (blk_annots b)) (Block (blk_rows b') (blk_annots b), w)
  | Unwound b' => Unwound (b', w)
  | BadAccess => BadAccess
  | OutOfFuel => OutOfFuel
  end.
Proof.
  unfold block_extend_from_within_u, block_extend_from_within_b.
  unfold of_block, rows_of_block, inside, look, reading, give, update, andthen. cbv beta iota. cbn [fst snd].
  destruct (clamp_range _ _ _) as [x y].
  destruct (unwrap (block_get_row b x)) as [first| | |]; cbv beta iota; cbn [fst snd blk_rows blk_annots]; auto.
  destruct (block_leftover_row b) as [lo_| | |]; cbv beta iota; cbn [fst snd blk_rows blk_annots]; auto.
  destruct (solve_xa_equals_b first lo_) as [t| | |]; cbv beta iota; cbn [fst snd blk_rows blk_annots]; auto.
  destruct (unwrap_res t) as [t'| | |]; cbv beta iota; cbn [fst snd blk_rows blk_annots]; auto.
  destruct (ssv_extend_transposed_from_within_b _ _ _ _) as [v' res|v'| |]; cbv beta iota; cbn [fst snd blk_rows blk_annots]; auto.
  cbn [blk_rows blk_annots fst snd]. destruct (unwrap_res res) as [u| | |]; cbv beta iota; cbn [fst snd blk_rows blk_annots]; auto.
  destruct (slice (blk_annots b) x y) as [l| | |] eqn:E; cbv beta iota; cbn [fst snd blk_rows blk_annots]; auto.
  f_equal. f_equal. unfold slice in E. destruct (_ && _); [|discriminate]. injection E as <-. reflexivity.
Qed.
End Clone.

Section Results.
Context {W A : Type} (clone : A -> borrow W A).

(** What is left when the clones of [l] are made for a block [b'] which was to hold [ars ++ new]. *)
Lemma extend_annots_held s (ars new : list (row * A)) lo b' an w l ys w' :
  brep s (ars ++ new) lo b' -> an = map snd ars -> length l = length new ->
  (called clone l w ys w' ->
     brep s (ars ++ combine (map fst new) ys) lo (Block (blk_rows b') (an ++ ys)) /\
     extend_annots clone l (Block (blk_rows b') an, w) = Done (Block (blk_rows b') (an ++ ys), w') tt) /\
  (interrupted clone l w ys w' ->
     extend_annots clone l (Block (blk_rows b') an, w) = Unwound (Block (blk_rows b') (an ++ ys), w') /\
     block_annot_rows (Block (blk_rows b') (an ++ ys)) = Panic).
Proof.
  intros R -> L. split; intros C.
  - pose proof (called_length _ _ _ _ _ C) as Ly. split; [|apply extend_annots_called; auto].
    destruct R as [R Q]. split; cbn [blk_rows blk_annots].
    + rewrite map_app, combine_fst by (rewrite map_length; lia). rewrite map_app in R. exact R.
    + rewrite map_app, combine_snd by (rewrite map_length; lia). reflexivity.
  - pose proof (interrupted_length _ _ _ _ _ C) as Ly. split; [apply extend_annots_interrupted; auto|].
    unfold block_annot_rows. cbn [blk_annots].
    assert (E : block_rows (Block (blk_rows b') (map snd ars ++ ys)) = block_rows b') by reflexivity.
    rewrite E. rewrite (brep_rows _ _ _ _ R). cbn [bind]. apply zip_eq_panic.
    rewrite !map_length, !app_length, map_length. lia.
Qed.
End Results.
