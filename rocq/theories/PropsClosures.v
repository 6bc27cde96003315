(** Property theorems C92: code of the caller which runs inside calls on blocks. *)

(* Generated from tools/props/Closures.src; the proofs are in ClosuresThms.v. *)
From Verif Require Import Base Bell Stage Row Utils SameStageVec Block Program Unwind Closures Spec SpecVec SpecBlock SpecClosures
  ListFacts BellFacts RowFacts MulFacts GroupFacts SsvFacts SsvThms BlockFacts UnwindFacts ClosuresFacts.
Local Open Scope list_scope.
From Verif Require Import ClosuresThms.

(** The relations of [SpecClosures] leave no case out: code which always returns or panics is either
    called for each argument or interrupted. *)
Theorem C92_called_or_interrupted :
  forall W X Y (f : X -> W -> outcome W Y),
    (forall x w, exists w', f x w = Unwound w' \/ exists y, f x w = Done w' y) ->
    forall l w, exists ys w', called f l w ys w' \/ interrupted f l w ys w'.
Proof. exact pf_C92_called_or_interrupted. Qed.
Print Assumptions C92_called_or_interrupted.

(** C92: [with_annots_from_indices] calls its closure once for each index, from 0 on, and not at all for an empty buffer;
    [with_default_annots] asks for one default value for each row but the last.  The block holds what was
    returned; a panic goes on to the caller. *)
Theorem C92_constructors :
  forall W A (f : nat -> W -> outcome W A) (default : W -> outcome W A) v s rs w, holds v s rs ->
    (rs = [] -> with_annots_from_indices_u v f w = Done w None /\ with_default_annots_u default v w = Unwound w) /\
    (forall rows lo, rs = rows ++ [lo] -> forall ys w',
       (called f (seq 0 (length rows)) w ys w' ->
          exists b, with_annots_from_indices_u v f w = Done w' (Some b) /\ block_holds b s (combine rows ys) lo) /\
       (interrupted f (seq 0 (length rows)) w ys w' -> with_annots_from_indices_u v f w = Unwound w') /\
       (called (fun _ : unit => default) (repeat tt (length rows)) w ys w' ->
          exists b, with_default_annots_u default v w = Done w' b /\ block_holds b s (combine rows ys) lo) /\
       (interrupted (fun _ : unit => default) (repeat tt (length rows)) w ys w' ->
          with_default_annots_u default v w = Unwound w')).
Proof. exact pf_C92_constructors. Qed.
Print Assumptions C92_constructors.

(** C92: the maps call their closure once for each annotation, in order, with its index if they give one,
    and keep the rows; a panic goes on to the caller. *)
Theorem C92_maps :
  forall W A B (f : A -> W -> outcome W B) (g : nat -> A -> W -> outcome W B) (b : block A) s ars lo w ys w',
    block_holds b s ars lo ->
    (called f (map snd ars) w ys w' ->
       exists b', block_map_annots_u b f w = Done w' b' /\ block_holds b' s (combine (map fst ars) ys) lo) /\
    (interrupted f (map snd ars) w ys w' -> block_map_annots_u b f w = Unwound w') /\
    (called (fun ia => g (fst ia) (snd ia)) (combine (seq 0 (length ars)) (map snd ars)) w ys w' ->
       exists b', block_map_annots_with_index_u b g w = Done w' b' /\ block_holds b' s (combine (map fst ars) ys) lo) /\
    (interrupted (fun ia => g (fst ia) (snd ia)) (combine (seq 0 (length ars)) (map snd ars)) w ys w' ->
       block_map_annots_with_index_u b g w = Unwound w').
Proof. exact pf_C92_maps. Qed.
Print Assumptions C92_maps.

(** A closure which counts its calls, and one which panics at its third. *)
Example C92_maps_example :
  exists b, block_build (BlockArg 3 [[0; 1; 2]; [1; 0; 2]; [1; 2; 0]; [2; 1; 0]] (fun i => 10 * i)) = Ret (Some b) /\
    (exists b', block_map_annots_with_index_u b (fun i a calls => Done (calls + 1) (i, a, calls)) 5 = Done 8 b' /\
       block_annot_rows b' = Ret [([0; 1; 2], (0, 0, 5)); ([1; 0; 2], (1, 10, 6)); ([1; 2; 0], (2, 20, 7))]) /\
    block_map_annots_with_index_u b
      (fun i a calls => if calls =? 2 then Unwound calls else Done (calls + 1) i) 0 = Unwound 2.
Proof. vm_compute. eexists. split; [reflexivity|]. split; [eexists; split; reflexivity|reflexivity]. Qed.

(** C92: [extend] clones each annotation of the other block once, in order, and none when the stages differ. *)
Theorem C92_extend :
  forall W A (clone : A -> W -> outcome W A) (b other : block A) s ars lo s' ars' lo' w,
    block_holds b s ars lo -> block_holds other s' ars' lo' ->
    (s <> s' -> block_extend_u clone other (b, w) = Done (b, w) (Err (IncompatibleStages s s'))) /\
    (s = s' -> forall first ys w', hd_error (map fst ars' ++ [lo']) = Some first ->
       called clone (map snd ars') w ys w' ->
       exists b', block_extend_u clone other (b, w) = Done (b', w') (Ok tt) /\
         block_holds b' s (ars ++ combine (map (moved first lo) (map fst ars')) ys) (moved first lo lo')).
Proof. exact pf_C92_extend. Qed.
Print Assumptions C92_extend.

(** C92: [extend_from_within] clones each annotation of the range once, in order. *)
Theorem C92_extend_from_within :
  forall W A (clone : A -> W -> outcome W A) (b : block A) s ars lo lo_ hi_ w first ys w',
    block_holds b s ars lo ->
    let a := range_start lo_ in let e := range_end hi_ (length ars) in
    a <= e -> e <= length ars -> nth_error (map fst ars ++ [lo]) a = Some first ->
    called clone (sublist a e (map snd ars)) w ys w' ->
    exists b', block_extend_from_within_u clone lo_ hi_ (b, w) = Done (b', w') tt /\
      block_holds b' s (ars ++ combine (map (moved first lo) (sublist a e (map fst ars))) ys)
        (moved first lo (nth e (map fst ars ++ [lo]) [])).
Proof. exact pf_C92_extend_from_within. Qed.
Print Assumptions C92_extend_from_within.

(** C92 is false of a [clone] which panics inside [extend] or [extend_from_within]: all the rows have been
    added by then, but only the annotations cloned before the panic.  The block is neither what it was nor
    what it should become, and iterating over its annotated rows panics. *)
Theorem C92_interrupted_extend_refuted :
  forall W A (clone : A -> W -> outcome W A) (b other : block A) s ars lo ars' lo' w ys w' first,
    block_holds b s ars lo -> block_holds other s ars' lo' ->
    hd_error (map fst ars' ++ [lo']) = Some first ->
    interrupted clone (map snd ars') w ys w' ->
    exists b', block_extend_u clone other (b, w) = Unwound (b', w') /\
      block_all_rows b' = Ret (map fst ars ++ map (moved first lo) (map fst ars' ++ [lo'])) /\
      (forall i, block_get_annot b' i = nth_error (map snd ars ++ ys) i) /\
      block_annot_rows b' = Panic.
Proof. exact pf_C92_interrupted_extend_refuted. Qed.
Print Assumptions C92_interrupted_extend_refuted.

(** The same for [extend_from_within]. *)
Theorem C92_interrupted_extend_from_within_refuted :
  forall W A (clone : A -> W -> outcome W A) (b : block A) s ars lo lo_ hi_ w first ys w',
    block_holds b s ars lo ->
    let a := range_start lo_ in let e := range_end hi_ (length ars) in
    a <= e -> e <= length ars -> nth_error (map fst ars ++ [lo]) a = Some first ->
    interrupted clone (sublist a e (map snd ars)) w ys w' ->
    exists b', block_extend_from_within_u clone lo_ hi_ (b, w) = Unwound (b', w') /\
      block_all_rows b' =
        Ret (map fst ars ++ map (moved first lo) (sublist a e (map fst ars) ++ [nth e (map fst ars ++ [lo]) []])) /\
      (forall i, block_get_annot b' i = nth_error (map snd ars ++ ys) i) /\
      block_annot_rows b' = Panic.
Proof. exact pf_C92_interrupted_extend_from_within_refuted. Qed.
Print Assumptions C92_interrupted_extend_from_within_refuted.

(** A clone which panics when asked for the second time. *)
Example C92_interrupted_example :
  exists b, block_build (BlockArg 3 [[0; 1; 2]; [1; 0; 2]; [1; 2; 0]] (fun i => i)) = Ret (Some b) /\
    let clone := fun a calls => if calls =? 1 then Unwound calls else Done (calls + 1) a in
    (exists b', block_extend_u clone b (b, 0) = Unwound (b', 1) /\
       block_all_rows b' = Ret [[0; 1; 2]; [1; 0; 2]; [1; 2; 0]; [2; 1; 0]; [2; 0; 1]] /\ blk_annots b' = [0; 1; 0]) /\
    (exists b', block_extend_from_within_u clone Unbounded Unbounded (b, 0) = Unwound (b', 1) /\
       block_all_rows b' = Ret [[0; 1; 2]; [1; 0; 2]; [1; 2; 0]; [2; 1; 0]; [2; 0; 1]] /\ blk_annots b' = [0; 1; 0]).
Proof. vm_compute. eexists. split; [reflexivity|]. split; eexists; splits; reflexivity. Qed.

(** C92: with code which only computes a value, the functions are those of all other properties. *)
Theorem C92_same_functions :
  forall W A B (w : W) (b : block A) v,
    (forall f : nat -> A, forget (with_annots_from_indices_u v (fun i => give (f i)) w) =
       (r <- with_annots_from_indices v f;; Ret (w, r))) /\
    (forall d : A, forget (with_default_annots_u (give d) v w) = (r <- with_default_annots d v;; Ret (w, r))) /\
    (forall f : A -> B, block_map_annots_u b (fun a => give (f a)) w = Done w (block_map_annots b f)) /\
    (forall f : nat -> A -> B, block_map_annots_with_index_u b (fun i a => give (f i a)) w =
       Done w (block_map_annots_with_index b f)) /\
    (forall other lo hi, forget (block_extend_range_u (fun a => give a) other lo hi (b, w)) =
       ('(b', r) <- block_extend_range b other lo hi;; Ret ((b', w), r))) /\
    (forall lo hi, forget (block_extend_from_within_u (fun a => give a) lo hi (b, w)) =
       (b' <- block_extend_from_within b lo hi;; Ret ((b', w), tt))).
Proof. exact pf_C92_same_functions. Qed.
Print Assumptions C92_same_functions.
