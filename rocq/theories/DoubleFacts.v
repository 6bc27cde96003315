(** Lemmas for C152: on five bells or more, changes which exchange exactly two pairs of neighbours lead from a row to every row of the same parity, and to no other. *)
From Coq Require Import Permutation.
From Verif Require Import Base Spec ListFacts Row RowFacts MulFacts SpecClass ParityFacts EvenFacts PlainChangesFacts.
Local Open Scope list_scope.

Definition adj2 (r r' : list nat) : Prop :=
  exists x a b y c d z, r = x ++ a :: b :: y ++ c :: d :: z /\ r' = x ++ b :: a :: y ++ d :: c :: z.

Lemma adj2_sym r r' : adj2 r r' -> adj2 r' r.
Proof. intros (x & a & b & y & c & d & z & -> & ->). exists x, b, a, y, d, c, z. auto. Qed.

Lemma adj2_adj r r' : adj2 r r' -> exists m, adj r m /\ adj m r'.
Proof.
  intros (x & a & b & y & c & d & z & -> & ->). exists (x ++ b :: a :: y ++ c :: d :: z). split.
  - exists x, a, b, (y ++ c :: d :: z). auto.
  - exists (x ++ b :: a :: y), c, d, z. rewrite <- !app_assoc. auto.
Qed.

Lemma adj_perm r r' : adj r r' -> Permutation r r'.
Proof. intros (x & a & b & y & -> & ->). apply Permutation_app_head. apply perm_swap. Qed.

Lemma adj2_perm r r' : adj2 r r' -> Permutation r r'.
Proof. intros A. apply adj2_adj in A as (m & A & B). rewrite (adj_perm _ _ A). apply adj_perm; auto. Qed.

Lemma adj_sgn r r' : NoDup r -> adj r r' -> sgn r = negb (sgn r').
Proof.
  intros N A. pose proof (adj_perm _ _ A) as P. destruct A as (x & a & b & y & -> & ->).
  rewrite !sgn_app. rewrite (cross_perm x (a :: b :: y) (b :: a :: y)) by apply perm_swap.
  apply NoDup_remove in N as N1. destruct N1 as [_ N1]. assert (a <> b) by (intros ->; apply N1, in_or_app; right; left; auto).
  assert (B : sgn (a :: b :: y) = negb (sgn (b :: a :: y))) by (apply (sgn_block a [] b y); auto). rewrite B.
  destruct (sgn x), (sgn (b :: a :: y)), (cross x (b :: a :: y)); reflexivity.
Qed.

Lemma adj2_sgn r r' : NoDup r -> adj2 r r' -> sgn r = sgn r'.
Proof.
  intros N A. apply adj2_adj in A as (m & A & B). rewrite (adj_sgn r m N A), (adj_sgn m r'), negb_involutive; auto.
  rewrite <- (adj_perm _ _ A). auto.
Qed.

Inductive reach : list nat -> list nat -> Prop :=
| reach_here r : reach r r
| reach_step r m r' : adj2 r m -> reach m r' -> reach r r'.

Lemma reach_trans a b c : reach a b -> reach b c -> reach a c.
Proof. intros H. revert c. induction H; auto. intros c R. econstructor; eauto. Qed.

Lemma reach_one a b : adj2 a b -> reach a b.
Proof. intros A. econstructor; [exact A|constructor]. Qed.

Lemma reach_sym a b : reach a b -> reach b a.
Proof. intros H. induction H; [constructor|]. eapply reach_trans; [exact IHreach|]. apply reach_one, adj2_sym. auto. Qed.

(** Three neighbours turned round. *)
Lemma reach_turn x a b c z : 5 <= length x + 3 + length z -> reach (x ++ a :: b :: c :: z) (x ++ b :: c :: a :: z).
Proof.
  intros L. destruct z as [|d [|e z]].
  - destruct (exists_last (l := x)) as (x1 & e & ->); [intros ->; cbn in L; lia|].
    destruct (exists_last (l := x1)) as (x2 & d & ->); [intros ->; cbn in L; lia|]. rewrite <- !app_assoc. cbn [app].
    apply (reach_step _ (x2 ++ e :: d :: b :: a :: c :: [])); [exists x2, d, e, [], a, b, [c]; auto|].
    apply reach_one. exists x2, e, d, [b], a, c, []. auto.
  - destruct x as [|p x]; [cbn in L; lia|]. destruct x as [|q x].
    + cbn [app]. apply (reach_step _ [p; b; a; d; c]); [exists [p], a, b, [], c, d, []; auto|].
      apply (reach_step _ [b; p; a; c; d]); [exists [], p, b, [a], d, c, []; auto|].
      apply reach_one. exists [], b, p, [], a, c, [d]. auto.
    + destruct (exists_last (l := p :: q :: x)) as (x1 & e & E); [discriminate|]. rewrite E in *.
      destruct (exists_last (l := x1)) as (x2 & f & ->); [intros ->; discriminate|]. rewrite <- !app_assoc. cbn [app].
      apply (reach_step _ (x2 ++ e :: f :: b :: a :: c :: [d])); [exists x2, f, e, [], a, b, [c; d]; auto|].
      apply reach_one. exists x2, e, f, [b], a, c, [d]. auto.
  - apply (reach_step _ (x ++ b :: a :: c :: e :: d :: z)); [exists x, a, b, [c], d, e, z; auto|].
    apply reach_one. exists (x ++ [b]), a, c, [], e, d, z. rewrite <- !app_assoc. auto.
Qed.

(** Two single exchanges one after the other. *)
Lemma reach_two r r1 r2 : 5 <= length r -> adj r r1 -> adj r1 r2 -> reach r r2.
Proof.
  intros L (x & a & b & y & -> & ->) (x' & c & d & y' & E & ->). rewrite app_length in L. cbn in L.
  apply app_eq_app in E as (l & [[-> E]|[-> E]]).
  - destruct l as [|c1 [|d1 l]]; cbn [app] in E; injection E.
    + intros <- <- <-. rewrite app_nil_r. constructor.
    + intros -> <- <-. rewrite app_length in L. cbn in L. rewrite <- app_assoc. cbn [app]. apply reach_sym, reach_turn. lia.
    + intros -> <- <-. rewrite <- app_assoc. cbn [app]. apply reach_one. exists x', c, d, l, a, b, y. rewrite <- ?app_assoc. auto.
  - destruct l as [|c1 [|d1 l]]; cbn [app] in E; injection E.
    + intros <- <- <-. rewrite app_nil_r. constructor.
    + intros -> <- <-. cbn in L. rewrite <- app_assoc. cbn [app]. apply reach_turn. lia.
    + intros -> <- <-. rewrite <- app_assoc. cbn [app]. apply reach_one. exists x, a, b, l, c, d, y'. auto.
Qed.

Lemma reach_along n l : 5 <= n -> Forall (vrow n) l ->
  (forall i x y, nth_error l i = Some x -> nth_error l (i + 1) = Some y -> adj x y) ->
  forall k i a b, nth_error l i = Some a -> nth_error l (i + 2 * k) = Some b -> reach a b.
Proof.
  intros Hn F J. induction k as [|k IH]; intros i a b Ea Eb.
  - rewrite Nat.add_0_r in Eb. assert (a = b) by congruence. subst. constructor.
  - destruct (nth_error l (i + 1)) as [m|] eqn:Em; [|apply nth_error_None in Em; assert (nth_error l (i + 2 * S k) <> None) by congruence;
      rewrite nth_error_Some in *; lia].
    destruct (nth_error l (i + 2)) as [c|] eqn:Ec; [|apply nth_error_None in Ec; assert (nth_error l (i + 2 * S k) <> None) by congruence;
      rewrite nth_error_Some in *; lia].
    apply (reach_trans a c).
    + rewrite Forall_forall in F. destruct (F a (nth_error_In _ _ Ea)) as [_ La].
      apply (reach_two a m c); [lia|apply (J i); auto|apply (J (i + 1)); auto]. rewrite <- Nat.add_assoc. auto.
    + apply (IH (i + 2)); auto. replace (i + 2 + 2 * k) with (i + 2 * S k) by lia. auto.
Qed.

Lemma sgn_along n l : Forall (vrow n) l ->
  (forall i x y, nth_error l i = Some x -> nth_error l (i + 1) = Some y -> adj x y) ->
  forall k a b, nth_error l 0 = Some a -> nth_error l k = Some b -> sgn b = xorb (Nat.odd k) (sgn a).
Proof.
  intros F J. induction k as [|k IH]; intros a b Ea Eb.
  - assert (a = b) by congruence. subst. destruct (sgn b); auto.
  - destruct (nth_error l k) as [m|] eqn:Em; [|apply nth_error_None in Em; assert (nth_error l (S k) <> None) by congruence; rewrite nth_error_Some in *; lia].
    pose proof (IH a m Ea eq_refl) as H. rewrite Forall_forall in F. assert (A : adj m b) by (apply (J k); auto; rewrite Nat.add_1_r; auto).
    apply adj_sgn in A; [|apply (F m (nth_error_In _ _ Em))]. rewrite Nat.odd_succ, <- Nat.negb_odd.
    rewrite H in A. destruct (Nat.odd k), (sgn a), (sgn b); cbn in *; congruence.
Qed.

Lemma reach_even n a b : 5 <= n -> vrow n a -> vrow n b -> sgn a = sgn b -> reach a b.
Proof.
  intros Hn Va Vb S'. destruct (extent_from n a ltac:(lia) Va) as (rows & _ & F & _ & _ & I & J).
  destruct (In_nth_error _ _ (I b Vb)) as (i & Ei).
  pose proof (sgn_along n (a :: rows) F J (S i) a b eq_refl Ei) as H. rewrite S' in H.
  destruct (Nat.odd (S i)) eqn:O'; [destruct (sgn b); discriminate|].
  assert (E : Nat.even (S i) = true) by (rewrite <- Nat.negb_odd, O'; auto). apply Nat.even_spec in E as (k & K).
  apply (reach_along n (a :: rows) Hn F J k 0); auto. cbn [Nat.add]. rewrite <- K. auto.
Qed.

Lemma vrow_same n r r' : vrow n r -> Permutation r r' -> vrow n r'.
Proof.
  intros [(V1 & V2 & V3) L] P. pose proof (Permutation_length P) as L'. split; [|congruence]. split; [|split].
  - intros ->. apply Permutation_sym, Permutation_nil in P. auto.
  - eapply Permutation_NoDup; eauto.
  - intros b. rewrite <- L', <- V3. split; apply Permutation_in; auto using Permutation_sym.
Qed.

Lemma reach_rows n a b : vrow n a -> reach a b -> exists rows, Forall (vrow n) (a :: rows) /\ last (a :: rows) [] = b /\
  forall i x y, nth_error (a :: rows) i = Some x -> nth_error (a :: rows) (i + 1) = Some y -> adj2 x y.
Proof.
  intros V R. induction R as [r|r m r' A R IH].
  - exists []. splits; auto. intros [|i] x y _ E; [discriminate|]. destruct i; discriminate.
  - destruct IH as (rows & F & E & J); [apply (vrow_same n r); auto; apply adj2_perm; auto|]. exists (m :: rows). splits; auto.
    intros [|i] x y Ex Ey; [cbn in *; congruence|]. apply (J i); auto.
Qed.

Lemma adj2_no_jump r r' : NoDup r -> adj2 r r' -> no_jump r r'.
Proof.
  intros N A c p q Ep Eq. assert (H : exists p', nth_error r p' = Some c /\ q <= p' + 1 /\ p' <= q + 1).
  { clear p Ep N. destruct A as (x & a & b & y & c' & d & z & -> & ->).
    destruct (Nat.lt_ge_cases q (length (x ++ b :: a :: y))) as [L|L].
    - destruct (adj_near (x ++ a :: b :: y) (x ++ b :: a :: y) q c) as (p & E & L1 & L2); [exists x, a, b, y; auto| |].
      + change (x ++ b :: a :: y ++ d :: c' :: z) with (x ++ (b :: a :: y) ++ d :: c' :: z) in Eq. rewrite app_assoc, nth_error_app1 in Eq by auto. auto.
      + exists p. split; [|lia]. change (x ++ a :: b :: y ++ c' :: d :: z) with (x ++ (a :: b :: y) ++ c' :: d :: z). rewrite app_assoc, nth_error_app1; auto.
        apply nth_error_Some. congruence.
    - change (x ++ b :: a :: y ++ d :: c' :: z) with (x ++ (b :: a :: y) ++ d :: c' :: z) in Eq. rewrite app_assoc, nth_error_app2 in Eq by auto.
      destruct (adj_near (c' :: d :: z) (d :: c' :: z) (q - length (x ++ b :: a :: y)) c) as (p & E & L1 & L2); [exists [], c', d, z; auto|auto|].
      exists (length (x ++ b :: a :: y) + p). split; [|lia].
      change (x ++ a :: b :: y ++ c' :: d :: z) with (x ++ (a :: b :: y) ++ c' :: d :: z). rewrite app_assoc.
      assert (L' : length (x ++ a :: b :: y) = length (x ++ b :: a :: y)) by (rewrite !app_length; auto).
      rewrite nth_error_app2 by lia. rewrite L'. replace (length (x ++ b :: a :: y) + p - length (x ++ b :: a :: y)) with p by lia. auto. }
  destruct H as (p' & Ep' & L). assert (p' = p); [|lia].
  apply (proj1 (NoDup_nth_error _) N); [apply nth_error_Some; congruence|congruence].
Qed.

Lemma swap_at x a b y : row_swap (x ++ a :: b :: y) (length x) (length x + 1) = Ret (x ++ b :: a :: y).
Proof.
  rewrite row_swap_ok by (rewrite app_length; cbn; lia).
  rewrite !app_nth2 by lia. replace (length x + 1 - length x) with 1 by lia. rewrite Nat.sub_diag. cbn [nth]. f_equal.
  induction x as [|c x IH]; [reflexivity|]. cbn [length app upd Nat.add]. f_equal. exact IH.
Qed.

Lemma swap_inv r p r' : row_swap r p (p + 1) = Ret r' -> exists x a b y, length x = p /\ r = x ++ a :: b :: y /\ r' = x ++ b :: a :: y.
Proof.
  intros E. destruct (Nat.lt_ge_cases (p + 1) (length r)) as [L|L]; [|rewrite row_swap_panic in E by auto; discriminate].
  destruct (nth_error r p) as [a|] eqn:Ea; [|apply nth_error_None in Ea; lia]. apply nth_error_split in Ea as (x & t & -> & <-).
  rewrite app_length in L. cbn in L. destruct t as [|b y]; [cbn in L; lia|]. rewrite swap_at in E. injection E as <-. exists x, a, b, y. auto.
Qed.

Lemma adj2_swaps r r' : adj2 r r' <-> exists p q m, p + 2 <= q /\ row_swap r p (p + 1) = Ret m /\ row_swap m q (q + 1) = Ret r'.
Proof.
  split.
  - intros (x & a & b & y & c & d & z & -> & ->). exists (length x), (length (x ++ b :: a :: y)), (x ++ b :: a :: y ++ c :: d :: z). splits.
    + rewrite app_length. cbn. lia.
    + apply swap_at.
    + change (x ++ b :: a :: y ++ c :: d :: z) with (x ++ (b :: a :: y) ++ c :: d :: z). rewrite app_assoc, swap_at, <- app_assoc. auto.
  - intros (p & q & m & L & E1 & E2). apply swap_inv in E1 as (x & a & b & y & <- & -> & ->). apply swap_inv in E2 as (x' & c & d & z & <- & E & ->).
    apply app_eq_app in E as (l & [[-> E]|[-> E]]); [rewrite app_length in L; lia|]. rewrite app_length in L.
    destruct l as [|b1 [|a1 l]]; cbn in L; try lia. cbn [app] in E. injection E. intros -> <- <-.
    exists x, a, b, l, c, d, z. rewrite <- app_assoc. auto.
Qed.
