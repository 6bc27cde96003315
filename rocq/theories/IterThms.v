(** Property theorems C91: the iterators over rows inside the adapters of the standard library. *)

(* Generated from tools/props/Iter.src: the proofs behind PropsIter.v. *)
From Verif Require Import Base Bell Stage Row Utils SameStageVec Block Adapters Spec SpecVec SpecBlock SpecAdapters ListFacts
  BellFacts RowFacts MulFacts GroupFacts SsvFacts SsvThms BlockFacts AdaptersFacts.
Local Open Scope list_scope.

Lemma pf_C91_rows_partial :
  (forall v s rs, holds v s rs -> like_list sized rows_iter (ssv_iterator v) rs) /\
  (forall A (b : block A) s ars lo, block_holds b s ars lo ->
     like_list sized rows_iter (ssv_iterator (blk_rows b)) (map fst ars ++ [lo]) /\
     exists it, block_rows_iter b = Ret it /\ like_list sized rows_iter it (map fst ars)).
Proof.
  assert (Q : forall v s rs, rep s rs v -> like_list sized rows_iter (ssv_iterator v) rs).
  { intros v s rs (Hs & Hst & F & E). unfold ssv_iterator. rewrite E, Hst. apply rows_like; auto. }
  split.
  - intros v s rs H. apply holds_rep in H. eauto.
  - intros A b s ars lo H. apply holds_brep in H. split; [eapply Q, H|].
    destruct (brep_rows_iter _ _ _ _ H) as (E & F & _). eexists. split; [exact E|]. apply rows_like; auto.
    eapply rep_pos, H.
Qed.

Lemma pf_C91_adapters_partial :
  forall X A (I : iter_ops X A) s l, like_list sized I s l ->
    like_list sized (rev_iter I) s (rev l) /\
    (forall B (f : A -> B), like_list sized (map_iter I f) s (map f l)) /\
    like_list sized (enumerate_iter I) (s, 0) (indexed 0 l) /\
    (forall n, like_list both_ends (take_iter I) (s, n) (firstn n l)) /\
    (forall n, like_list forward (skip_iter I) (s, n) (skipn n l)) /\
    (forall Y B (J : iter_ops Y B) t m, like_list sized J t m ->
       like_list both_ends (zip_iter I J) (s, t) (combine l m)).
Proof.
  intros X A I s l H. splits.
  - apply rev_like; auto. cbn. tauto.
  - intros B f. apply map_like; auto.
  - apply enumerate_like; auto. cbn. tauto.
  - intros n. apply take_like; auto.
  - intros n. apply skip_like_forward.
    + intros q [<-|[]]; auto.
    + eapply like_fewer; [|exact H]. intros q [<-|[]]; cbn; auto.
  - intros Y B J t m H'. apply zip_like; auto.
Qed.

Lemma pf_C91_searches :
  forall X A (I : iter_ops X A) s l, like_list sized I s l ->
    (forall n, exists s', iter_nth I n s = Ret (nth_error l n, s') /\ like_list sized I s' (skipn (n + 1) l)) /\
    (forall n, exists s', iter_nth_back I n s = Ret (nth_error (rev l) n, s') /\
       like_list sized I s' (firstn (length l - (n + 1)) l)) /\
    (forall p : A -> bool, exists o, rposition I p s = Ret o /\
       match o with
       | Some i => exists x, nth_error l i = Some x /\ p x = true /\
           forall j y, i < j -> nth_error l j = Some y -> p y = false
       | None => forall x, In x l -> p x = false
       end).
Proof.
  intros X A I s l H. splits.
  - intros n. rewrite Nat.add_1_r. apply nth_like; cbn; auto.
  - intros n. rewrite Nat.add_1_r. apply nth_back_like; cbn; auto.
  - intros p. unfold rposition. rewrite (like_len sized I s l) by (cbn; auto). cbn [bind].
    destruct (rposition_loop_like I p sized ltac:(cbn; auto) (S (length l)) s l ltac:(lia) H) as (o & E & K).
    exists o. split; auto. destruct o; auto. apply Forall_forall. auto.
Qed.

Lemma pf_C91_forward :
  forall X A (I : iter_ops X A) s l, like_list forward I s l ->
    (forall B (f : A -> B), like_list forward (map_iter I f) s (map f l)) /\
    like_list forward (enumerate_iter I) (s, 0) (indexed 0 l) /\
    (forall n, like_list forward (take_iter I) (s, n) (firstn n l)) /\
    (forall n, like_list forward (skip_iter I) (s, n) (skipn n l)) /\
    (forall Y B (J : iter_ops Y B) t m, like_list forward J t m ->
       like_list forward (zip_iter I J) (s, t) (combine l m)).
Proof.
  intros X A I s l H. assert (O : forall q, In q forward -> q = Next) by (intros q [<-|[]]; auto). splits.
  - intros B f. apply map_like; auto.
  - apply enumerate_like; auto. intros Hi. apply O in Hi. discriminate.
  - intros n. apply take_like_forward; auto.
  - intros n. apply skip_like_forward; auto.
  - intros Y B J t m H'. apply zip_like_forward; auto.
Qed.

Lemma pf_C91_size_hint_refuted :
  forall v s rs, holds v s rs ->
    ask rows_iter (ssv_iterator v) [SizeHint] = Ret [Sizes 0 None] /\
    ~ like_list exact_size rows_iter (ssv_iterator v) rs.
Proof.
  intros v s rs H. split; [reflexivity|]. intros K. specialize (K [SizeHint]).
  assert (Q : incl [SizeHint] exact_size) by (intros q [<-|[]]; cbn; auto). specialize (K Q). discriminate.
Qed.

Lemma pf_C91_size_hints_are_true :
  forall X A (I : iter_ops X A) s (l : list A) h, size_hint I s = Ret h -> true_hint h (length l) ->
    size_hint (rev_iter I) s = Ret h /\ (forall B (f : A -> B), size_hint (map_iter I f) s = Ret h) /\
    (forall n, size_hint (enumerate_iter I) (s, n) = Ret h) /\
    (forall n, exists h', size_hint (take_iter I) (s, n) = Ret h' /\ true_hint h' (length (firstn n l)) /\
       at_most h' n /\ forall u, snd h = Some u -> at_most h' u) /\
    (forall n, exists h', size_hint (skip_iter I) (s, n) = Ret h' /\ true_hint h' (length (skipn n l)) /\
       fst h' = fst h - n /\ forall u, snd h = Some u -> snd h' = Some (u - n)) /\
    (forall Y B (J : iter_ops Y B) t (m : list B) k, size_hint J t = Ret k -> true_hint k (length m) ->
       exists h', size_hint (zip_iter I J) (s, t) = Ret h' /\ true_hint h' (length (combine l m)) /\
         (forall u, snd h = Some u -> at_most h' u) /\ (forall u, snd k = Some u -> at_most h' u) /\
         (forall x, x <= fst h -> x <= fst k -> x <= fst h')).
Proof.
  intros X A I s l [lo up] E [T1 T2]. cbn [fst snd] in *. splits; auto.
  - intros [|n]; cbn [take_iter size_hint]; unfold take_size_hint; cbn [Nat.eqb].
    + exists (0, Some 0). splits; auto; unfold true_hint, at_most; cbn [fst snd firstn length]; intros; splits; eauto; try lia;
        try (intros u [= <-]; lia); exists 0; split; auto; lia.
    + rewrite E. cbn [bind]. eexists. split; [reflexivity|]. unfold true_hint, at_most. cbn [fst snd]. rewrite firstn_length. splits.
      * lia.
      * intros u. destruct up as [x|]; [specialize (T2 x eq_refl); destruct (Nat.ltb_spec x (S n))|]; intros [= <-]; lia.
      * destruct up as [x|]; [destruct (Nat.ltb_spec x (S n))|]; eexists; split; eauto; lia.
      * intros u ->. destruct (Nat.ltb_spec u (S n)); eexists; split; eauto; lia.
  - intros n. cbn [skip_iter size_hint]. unfold skip_size_hint. rewrite E. cbn [bind]. eexists. split; [reflexivity|].
    unfold true_hint. cbn [fst snd]. rewrite skipn_length. splits; auto; [lia| |].
    + intros u. destruct up as [x|]; [|discriminate]. intros [= <-]. specialize (T2 x eq_refl). lia.
    + intros u ->. reflexivity.
  - intros Y B J t m [lo2 up2] E2 [T3 T4]. cbn [fst snd zip_iter size_hint] in *. unfold zip_size_hint. cbn [fst snd]. rewrite E, E2. cbn [bind].
    eexists. split; [reflexivity|]. unfold true_hint, at_most. cbn [fst snd]. rewrite combine_length. splits.
    + lia.
    + intros u. destruct up as [x|], up2 as [y|]; intros [= <-]; try specialize (T2 x eq_refl); try specialize (T4 y eq_refl); lia.
    + intros u ->. destruct up2; eexists; split; eauto; lia.
    + intros u ->. destruct up; eexists; split; eauto; lia.
    + intros x. lia.
Qed.

Lemma pf_C91_skip_from_the_back_refuted :
  forall v s rs n qs, holds v s rs ->
    ask (rev_iter (skip_iter rows_iter)) (ssv_iterator v, n) (Next :: qs) = Panic /\
    ask (rev_iter (skip_iter (enumerate_iter rows_iter))) ((ssv_iterator v, 0), n) (Next :: qs) = Panic /\
    ask (rev_iter (skip_iter (rev_iter rows_iter))) (ssv_iterator v, n) (Next :: qs) = Panic.
Proof. intros v s rs n qs H. splits; reflexivity. Qed.

Lemma pf_C91_lengths_refuted :
  forall v s rs, holds v s rs ->
    (forall n, len (skip_iter rows_iter) (ssv_iterator v, n) = Panic) /\
    (forall n, 0 < n -> len (take_iter rows_iter) (ssv_iterator v, n) = Panic) /\
    len (zip_iter rows_iter rows_iter) (ssv_iterator v, ssv_iterator v) = Panic /\
    (forall X A (J : iter_ops X A) t m, like_list exact_size J t m -> m <> [] ->
       len (zip_iter rows_iter J) (ssv_iterator v, t) = Panic).
Proof.
  intros v s rs H. splits; try reflexivity.
  - intros n L. destruct n; [lia|]. reflexivity.
  - intros X A J t m K N. cbn [len zip_iter]. unfold default_len, zip_size_hint. cbn [fst snd size_hint rows_iter default_size_hint bind].
    rewrite (like_size_hint exact_size J t m) by (cbn; auto). cbn [bind Nat.min].
    destruct m; [congruence|]. reflexivity.
Qed.

Lemma pf_C91_skip_of_exact_iterators :
  forall X A (I : iter_ops X A) s l n, like_list exact_size I s l ->
    like_list exact_size (skip_iter I) (s, n) (skipn n l).
Proof. intros X A I s l n H. apply skip_like_exact; auto. Qed.
