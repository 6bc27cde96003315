(** Property theorems C91: the iterators over rows inside the adapters of the standard library. *)

(* Generated from tools/props/Iter.src; the proofs are in IterThms.v. *)
From Verif Require Import Base Bell Stage Row Utils SameStageVec Block Adapters Spec SpecVec SpecBlock SpecAdapters ListFacts
  BellFacts RowFacts MulFacts GroupFacts SsvFacts SsvThms BlockFacts AdaptersFacts.
Local Open Scope list_scope.
From Verif Require Import IterThms.

(** C91, partial: asked for items from either end and for its length, in any order, the iterator of a
    buffer answers as the list of its rows does, and so do both iterators of a block.  Missing:
    [size_hint], for which the answer is wrong ([C91_size_hint_refuted]). *)
Theorem C91_rows_partial :
  (forall v s rs, holds v s rs -> like_list sized rows_iter (ssv_iterator v) rs) /\
  (forall A (b : block A) s ars lo, block_holds b s ars lo ->
     like_list sized rows_iter (ssv_iterator (blk_rows b)) (map fst ars ++ [lo]) /\
     exists it, block_rows_iter b = Ret it /\ like_list sized rows_iter it (map fst ars)).
Proof. exact pf_C91_rows_partial. Qed.
Print Assumptions C91_rows_partial.

(** The same questions asked of a buffer of three rows. *)
Example C91_rows_example :
  exists v, ssv_build 2 [[0; 1]; [1; 0]; [0; 1]] = Ret v /\
    ask rows_iter (ssv_iterator v) [Len; NextBack; Len; Next; Next; Len; Next; NextBack] =
    Ret [Size 3; Item (Some [0; 1]); Size 2; Item (Some [0; 1]); Item (Some [1; 0]); Size 0; Item None; Item None].
Proof. vm_compute. eauto. Qed.

(** C91, partial: inside [rev], [map], [enumerate], [take], [skip] and [zip] the iterator gives the items of
    the reversed, mapped, numbered, shortened or paired list.  After [rev], [map] and [enumerate] both ends
    and the length can be used, so the adapters may be stacked on each other; after [take] and [zip] both ends; after
    [skip] the front.  Missing: the rest, which panics ([C91_skip_from_the_back_refuted] and
    [C91_lengths_refuted]). *)
Theorem C91_adapters_partial :
  forall X A (I : iter_ops X A) s l, like_list sized I s l ->
    like_list sized (rev_iter I) s (rev l) /\
    (forall B (f : A -> B), like_list sized (map_iter I f) s (map f l)) /\
    like_list sized (enumerate_iter I) (s, 0) (indexed 0 l) /\
    (forall n, like_list both_ends (take_iter I) (s, n) (firstn n l)) /\
    (forall n, like_list forward (skip_iter I) (s, n) (skipn n l)) /\
    (forall Y B (J : iter_ops Y B) t m, like_list sized J t m ->
       like_list both_ends (zip_iter I J) (s, t) (combine l m)).
Proof. exact pf_C91_adapters_partial. Qed.
Print Assumptions C91_adapters_partial.

(** C91: [nth], [nth_back] and [rposition] find the item or index of the list, and [nth] and [nth_back]
    leave the items behind it. *)
Theorem C91_searches :
  forall X A (I : iter_ops X A) s l, like_list sized I s l ->
    (forall n, exists s', iter_nth I n s = Ret (nth_error l n, s') /\ like_list sized I s' (skipn (n + 1) l)) /\
    (forall n, exists s', iter_nth_back I n s = Ret (nth_error (rev l) n, s') /\
       like_list sized I s' (firstn (length l - (n + 1)) l)) /\
    (forall p : A -> bool, exists o, rposition I p s = Ret o /\
       match o with
       | Some i => exists x, nth_error l i = Some x /\ p x = true /\
           forall j y, i < j -> nth_error l j = Some y -> p y = false
       | None => forall x, In x l -> p x = false
       end).
Proof. exact pf_C91_searches. Qed.
Print Assumptions C91_searches.

(** C91: used from the front only, nothing needs more of an iterator than its front. *)
Theorem C91_forward :
  forall X A (I : iter_ops X A) s l, like_list forward I s l ->
    (forall B (f : A -> B), like_list forward (map_iter I f) s (map f l)) /\
    like_list forward (enumerate_iter I) (s, 0) (indexed 0 l) /\
    (forall n, like_list forward (take_iter I) (s, n) (firstn n l)) /\
    (forall n, like_list forward (skip_iter I) (s, n) (skipn n l)) /\
    (forall Y B (J : iter_ops Y B) t m, like_list forward J t m ->
       like_list forward (zip_iter I J) (s, t) (combine l m)).
Proof. exact pf_C91_forward. Qed.
Print Assumptions C91_forward.

(** [v.iter().enumerate().rev()], [v.iter().rev().take(2).rev()] and
    [v.iter().skip(1).zip(v.iter())] of a buffer with three rows. *)
Example C91_adapters_example :
  exists v, ssv_build 2 [[0; 1]; [1; 0]; [0; 1]] = Ret v /\
    let it := ssv_iterator v in
    ask (rev_iter (enumerate_iter rows_iter)) (it, 0) [Next; Next; Len; Next; Next] =
      Ret [Item (Some (2, [0; 1])); Item (Some (1, [1; 0])); Size 1; Item (Some (0, [0; 1])); Item None] /\
    ask (rev_iter (take_iter (rev_iter rows_iter))) (it, 2) [Next; Next; Next] =
      Ret [Item (Some [1; 0]); Item (Some [0; 1]); Item None] /\
    ask (zip_iter (skip_iter rows_iter) rows_iter) ((it, 1), it) [Next; Next; Next] =
      Ret [Item (Some ([1; 0], [0; 1])); Item (Some ([0; 1], [1; 0])); Item None] /\
    iter_nth rows_iter 1 it = Ret (Some [1; 0], SsvIter [0; 1] 2) /\
    rposition rows_iter (fun r => match r with x :: _ => x =? 0 | [] => false end) it = Ret (Some 2).
Proof. eexists. split; [vm_compute; reflexivity|]. vm_compute. auto. Qed.

(** C91 is false of [size_hint]: whatever the buffer holds, it is the default (at least 0, no upper bound),
    while the number of rows is known. *)
Theorem C91_size_hint_refuted :
  forall v s rs, holds v s rs ->
    ask rows_iter (ssv_iterator v) [SizeHint] = Ret [Sizes 0 None] /\
    ~ like_list exact_size rows_iter (ssv_iterator v) rs.
Proof. exact pf_C91_size_hint_refuted. Qed.
Print Assumptions C91_size_hint_refuted.

(** C91: the hints about sizes are nonetheless true: if that of an iterator is true of the items still to come, then so is that
    of everything made from it, the upper bounds of [take] and [zip] being at most those which they are made from. *)
Theorem C91_size_hints_are_true :
  forall X A (I : iter_ops X A) s (l : list A) h, size_hint I s = Ret h -> true_hint h (length l) ->
    size_hint (rev_iter I) s = Ret h /\ (forall B (f : A -> B), size_hint (map_iter I f) s = Ret h) /\
    (forall n, size_hint (enumerate_iter I) (s, n) = Ret h) /\
    (forall n, exists h', size_hint (take_iter I) (s, n) = Ret h' /\ true_hint h' (length (firstn n l)) /\
       at_most h' n /\ forall u, snd h = Some u -> at_most h' u) /\
    (forall n, exists h', size_hint (skip_iter I) (s, n) = Ret h' /\ true_hint h' (length (skipn n l)) /\
       fst h' = fst h - n /\ forall u, snd h = Some u -> snd h' = Some (u - n)) /\
    (forall Y B (J : iter_ops Y B) t (m : list B) k, size_hint J t = Ret k -> true_hint k (length m) ->
       exists h', size_hint (zip_iter I J) (s, t) = Ret h' /\ true_hint h' (length (combine l m)) /\
         (forall u, snd h = Some u -> at_most h' u) /\ (forall u, snd k = Some u -> at_most h' u) /\
         (forall x, x <= fst h -> x <= fst k -> x <= fst h')).
Proof. exact pf_C91_size_hints_are_true. Qed.
Print Assumptions C91_size_hints_are_true.

(** The iterator of two rows says nothing; what is zipped with three numbers has at most three items. *)
Example C91_size_hints_example :
  let I := IterOps (fun l : list nat => Ret (hd_error l, tl l)) (fun l => Ret (last_item l, removelast l))
             (fun l => Ret (length l, Some (length l))) (fun l => Ret (length l)) in
  size_hint rows_iter (ssv_iterator (Ssv [0; 1; 1; 0] 2)) = Ret (0, None) /\ true_hint (0, None) 2 /\
  size_hint (zip_iter rows_iter I) (ssv_iterator (Ssv [0; 1; 1; 0] 2), [7; 8; 9]) = Ret (0, Some 3) /\
  size_hint (zip_iter I I) ([7; 8], [7; 8; 9]) = Ret (2, Some 2) /\
  size_hint (take_iter I) ([7; 8; 9], 2) = Ret (2, Some 2) /\ true_hint (3, Some 3) 3.
Proof. cbn. splits; try reflexivity; unfold true_hint; cbn; split; auto; intros u [= <-]; auto. Qed.

(** C91 is false of [skip]: [iter().skip(n).rev()] panics for every buffer and every [n] when its first
    item is asked for.  The length is not even needed by the caller.  The same for [enumerate] and [rev]
    below the [skip]. *)
Theorem C91_skip_from_the_back_refuted :
  forall v s rs n qs, holds v s rs ->
    ask (rev_iter (skip_iter rows_iter)) (ssv_iterator v, n) (Next :: qs) = Panic /\
    ask (rev_iter (skip_iter (enumerate_iter rows_iter))) ((ssv_iterator v, 0), n) (Next :: qs) = Panic /\
    ask (rev_iter (skip_iter (rev_iter rows_iter))) (ssv_iterator v, n) (Next :: qs) = Panic.
Proof. exact pf_C91_skip_from_the_back_refuted. Qed.
Print Assumptions C91_skip_from_the_back_refuted.

(** C91 is false of the length of [skip], [take] and [zip]: the first always panics; the second panics unless
    nothing may be taken; the last panics unless the other iterator is at its end. *)
Theorem C91_lengths_refuted :
  forall v s rs, holds v s rs ->
    (forall n, len (skip_iter rows_iter) (ssv_iterator v, n) = Panic) /\
    (forall n, 0 < n -> len (take_iter rows_iter) (ssv_iterator v, n) = Panic) /\
    len (zip_iter rows_iter rows_iter) (ssv_iterator v, ssv_iterator v) = Panic /\
    (forall X A (J : iter_ops X A) t m, like_list exact_size J t m -> m <> [] ->
       len (zip_iter rows_iter J) (ssv_iterator v, t) = Panic).
Proof. exact pf_C91_lengths_refuted. Qed.
Print Assumptions C91_lengths_refuted.

(** With an exact [size_hint] nothing of this happens: [skip] around an iterator which keeps the whole
    contract keeps it too. *)
Theorem C91_skip_of_exact_iterators :
  forall X A (I : iter_ops X A) s l n, like_list exact_size I s l ->
    like_list exact_size (skip_iter I) (s, n) (skipn n l).
Proof. exact pf_C91_skip_of_exact_iterators. Qed.
Print Assumptions C91_skip_of_exact_iterators.

(** There are such iterators: that of a slice. *)
Example C91_exact_example :
  let I := IterOps (fun l : list nat => Ret (hd_error l, tl l)) (fun l => Ret (last_item l, removelast l))
             (fun l => Ret (length l, Some (length l))) (fun l => Ret (length l)) in
  (forall l, like_list exact_size I l l) /\
  ask (rev_iter (skip_iter I)) ([1; 2; 3], 1) [Len; Next; Next; Next] =
    Ret [Size 2; Item (Some 3); Item (Some 2); Item None].
Proof.
  split; [|reflexivity]. intros l qs _. revert l.
  induction qs as [|q t IH]; intros l; [reflexivity|]. destruct q; cbn [ask bind next next_back size_hint len list_answers]; rewrite IH; reflexivity.
Qed.
