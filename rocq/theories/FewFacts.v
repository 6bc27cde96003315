(** Lemmas for C150: the end of the sorting, and why fewer changes are not enough. *)
From Coq Require Import Permutation.
From Verif Require Import Base Spec ListFacts Row RowFacts MulFacts SpecClass SortNetFacts.
Local Open Scope list_scope.

Lemma count_above v : forall n, length (filter (fun b => v <=? b) (seq 0 n)) = n - v.
Proof.
  induction n as [|n IH]; auto. rewrite seq_S, filter_app, app_length, IH. cbn [filter Nat.add]. destruct (Nat.leb_spec v n); cbn [length]; lia.
Qed.

Lemma perm_filter_length {A} (g : A -> bool) l l' : Permutation l l' -> length (filter g l) = length (filter g l').
Proof. induction 1; cbn [filter]; repeat destruct (g _); cbn [length]; congruence. Qed.

Lemma above_count f v l n : Permutation (map f l) (seq 0 n) -> above f v l 0 = n - v.
Proof.
  intros P. rewrite <- (count_above v n), <- (perm_filter_length _ _ _ P). unfold above. cbn [skipn]. clear P.
  induction l as [|x l IH]; cbn [map filter]; auto. destruct (v <=? f x); cbn [length]; auto.
Qed.

Lemma filter_full {A} (g : A -> bool) : forall l, length l <= length (filter g l) -> forall x, In x l -> g x = true.
Proof.
  induction l as [|y l IH]; cbn [filter length]; intros L x I; [destruct I|].
  assert (B : length (filter g l) <= length l) by (clear; induction l as [|z l IH]; cbn; [lia|]; destruct (g z); cbn; lia).
  destruct (g y) eqn:E; cbn [length] in L; [|lia]. destruct I as [<-|I]; auto. apply IH; auto. lia.
Qed.

Lemma swept f l n j b : length l = n -> Permutation (map f l) (seq 0 n) -> nth_error (sweep f l n) j = Some b -> j <= f b.
Proof.
  intros L P E. assert (Lw : length (sweep f l n) = n) by (rewrite (Permutation_length (sweep_perm f l n)); auto).
  assert (Hj : j < n) by (rewrite <- Lw; apply nth_error_Some; congruence).
  pose proof (sweep_end f j l n (n - j) L (above_count f j l n P)) as Q. replace (n - (n - j)) with j in Q by lia. unfold above in Q.
  apply Nat.leb_le. apply (filter_full (fun b => j <=? f b) (skipn j (sweep f l n))).
  - rewrite skipn_length. lia.
  - apply (nth_error_In _ 0). rewrite nth_error_skipn, Nat.add_0_r. auto.
Qed.

Lemma all_home g n : Permutation g (seq 0 n) -> (forall j x, nth_error g j = Some x -> j <= x) -> g = seq 0 n.
Proof.
  intros P H. assert (L : length g = n) by (rewrite (Permutation_length P), seq_length; auto).
  assert (N : NoDup g) by (eapply Permutation_NoDup; [symmetry; exact P|apply seq_NoDup]).
  assert (B : forall x, In x g -> x < n) by (intros x I; apply (Permutation_in _ P), in_seq in I; lia).
  assert (K : forall d j x, n - j <= d -> nth_error g j = Some x -> x = j).
  { induction d as [|d IH]; intros j x D E; assert (j < n) by (rewrite <- L; apply nth_error_Some; congruence); [lia|].
    pose proof (H j x E) as Le. pose proof (B x (nth_error_In _ _ E)) as Lx. destruct (Nat.eq_dec x j) as [Q|Q]; auto. exfalso.
    destruct (nth_error g x) as [y|] eqn:Ey; [|apply nth_error_None in Ey; lia]. assert (y = x) by (apply (IH x y); auto; lia). subst y.
    apply Q. apply (proj1 (NoDup_nth_error g) N x j); [lia|congruence]. }
  apply nth_error_ext. intros j. destruct (nth_error g j) as [x|] eqn:E.
  - assert (x = j) by (apply (K (n - j) j x); auto). subst x. assert (j < n) by (rewrite <- L; apply nth_error_Some; congruence).
    symmetry. rewrite (nth_error_nth' _ 0) by (rewrite seq_length; auto). rewrite seq_nth by auto. auto.
  - apply nth_error_None in E. symmetry. apply nth_error_None. rewrite seq_length. lia.
Qed.

(** From any row to any other, by rows in which no bell jumps. *)
Lemma way_between n a b : vrow n a -> vrow n b ->
  exists rows, length rows = n /\ Forall (vrow n) (a :: rows) /\ last (a :: rows) [] = b /\
    (forall i x y, nth_error (a :: rows) i = Some x -> nth_error (a :: rows) (i + 1) = Some y -> no_jump x y).
Proof.
  intros Va Vb. pose proof (proj1 (proj1 (valid_row_perm _) (proj1 Va))) as Nea.
  assert (Hn : 0 < n) by (destruct Va as [_ <-]; destruct a; [congruence|cbn; lia]).
  set (f := fun x => nth x (rinv b) 0). set (w := sweep f a).
  assert (Pa : Permutation a (seq 0 n)) by (destruct Va as [V <-]; apply valid_row_perm; auto).
  assert (Pi : map f (seq 0 n) = rinv b).
  { apply nth_error_ext. intros i. assert (Li : length (rinv b) = n) by (rewrite length_rinv; apply Vb). destruct (Nat.lt_ge_cases i n) as [L|L].
    - rewrite nth_error_map. rewrite (nth_error_nth' (seq 0 n) 0) by (rewrite seq_length; auto). rewrite seq_nth by auto. cbn [option_map Nat.add].
      symmetry. apply nth_error_nth'. lia.
    - rewrite !(proj2 (nth_error_None _ _)); auto; [lia|]. rewrite map_length, seq_length. auto. }
  assert (Pf : Permutation (map f a) (seq 0 n)).
  { etransitivity; [apply Permutation_map; exact Pa|]. rewrite Pi. destruct (valid_rinv n b Vb) as [V <-]. apply valid_row_perm. auto. }
  assert (Vw : forall t, vrow n (w t)).
  { intros t. pose proof (sweep_perm f a t) as P. assert (L : length (w t) = n) by (unfold w; rewrite (Permutation_length P); apply Va). split; auto.
    apply valid_row_perm. split.
    - intros E. rewrite E in L. cbn in L. lia.
    - rewrite L. etransitivity; [exact P|auto]. }
  exists (map w (seq 1 n)). assert (E : a :: map w (seq 1 n) = map w (seq 0 (S n))) by reflexivity. splits.
  - rewrite map_length, seq_length. auto.
  - rewrite E. apply Forall_forall. intros x I. apply in_map_iff in I as (t & <- & _). auto.
  - rewrite E, seq_S, map_app. cbn [map Nat.add]. rewrite last_last.
    assert (Q : map f (w n) = seq 0 n).
    { apply all_home.
      - etransitivity; [apply Permutation_map; apply sweep_perm|]. auto.
      - intros j x Ej. rewrite nth_error_map in Ej. destruct (nth_error (w n) j) as [y|] eqn:Ey; [|discriminate]. injection Ej as <-. apply (swept f a n j y); auto. apply Va. }
    apply nth_error_ext. intros j. pose proof (Vw n) as [Vn Ln]. destruct (nth_error (w n) j) as [y|] eqn:Ey.
    + assert (Hj : j < n) by (rewrite <- Ln; apply nth_error_Some; congruence).
      assert (Fy : f y = j).
      { assert (Z : nth_error (map f (w n)) j = Some (f y)) by (rewrite nth_error_map, Ey; auto). rewrite Q in Z.
        rewrite (nth_error_nth' _ 0) in Z by (rewrite seq_length; auto). rewrite seq_nth in Z by auto. injection Z as Z. auto. }
      assert (Yn : y < n) by (rewrite <- Ln; apply Vn; apply (nth_error_In _ _ Ey)).
      unfold f in Fy. rewrite nth_rinv in Fy by (rewrite (proj2 Vb); auto). assert (Ib : In y b) by (apply Vb; rewrite (proj2 Vb); auto).
      destruct (index_of_spec b y Ib) as [I1 I2]. rewrite Fy in I1, I2. rewrite (nth_error_nth' b 0) by auto. congruence.
    + apply nth_error_None in Ey. symmetry. apply nth_error_None. rewrite (proj2 Vb). lia.
  - rewrite E. intros i x y Ex Ey. rewrite nth_error_map in Ex, Ey.
    assert (Ei : i + 1 < S n) by (rewrite <- (seq_length (S n) 0); apply nth_error_Some; destruct (nth_error (seq 0 (S n)) (i + 1)); [discriminate|discriminate Ey]).
    rewrite (nth_error_nth' _ 0) in Ex by (rewrite seq_length; lia). rewrite (nth_error_nth' _ 0) in Ey by (rewrite seq_length; lia).
    rewrite seq_nth in Ex by lia. rewrite seq_nth in Ey by lia. cbn [Nat.add option_map] in Ex, Ey.
    injection Ex as <-. injection Ey as <-. rewrite Nat.add_1_r. intros c p q Ep Eq. unfold w in Eq. cbn [sweep] in Eq.
    destruct (turn_near f _ _ _ _ Eq) as (p' & Ep' & L). assert (p' = p).
    { destruct (Vw i) as [(_ & N & _) _]. apply (proj1 (NoDup_nth_error _) N); [apply nth_error_Some; unfold w; congruence|unfold w in *; congruence]. }
    subst p'. lia.
Qed.

(** A bell moves no more places than there are changes. *)
Lemma no_jumps_far n rows : Forall (vrow n) rows -> (forall i x y, nth_error rows i = Some x -> nth_error rows (i + 1) = Some y -> no_jump x y) ->
  forall d i x y b p q, nth_error rows i = Some x -> nth_error rows (i + d) = Some y -> nth_error x p = Some b -> nth_error y q = Some b ->
    p <= q + d /\ q <= p + d.
Proof.
  intros F J. rewrite Forall_forall in F. induction d as [|d IH]; intros i x y b p q Ex Ey Ep Eq.
  - rewrite Nat.add_0_r in Ey. assert (x = y) by congruence. subst y. destruct (F x (nth_error_In _ _ Ex)) as [(_ & N & _) _].
    assert (p = q); [|lia]. apply (proj1 (NoDup_nth_error _) N); [apply nth_error_Some; congruence|congruence].
  - destruct (nth_error rows (i + 1)) as [z|] eqn:Ez.
    + assert (I : In b z).
      { destruct (F x (nth_error_In _ _ Ex)) as [(_ & _ & A) L]. destruct (F z (nth_error_In _ _ Ez)) as [(_ & _ & A') L']. apply A'. rewrite L', <- L. apply A. apply (nth_error_In _ _ Ep). }
      apply In_nth_error in I as (k & Ek). destruct (J i x z Ex Ez b p k Ep Ek). replace (i + S d) with (i + 1 + d) in Ey by lia.
      destruct (IH (i + 1) z y b k q Ez Ey Ek Eq). lia.
    + apply nth_error_None in Ez. assert (i + S d < length rows) by (apply nth_error_Some; congruence). lia.
Qed.

Lemma to_backrounds n rows k : 3 <= n -> Forall (vrow n) rows -> (forall i x y, nth_error rows i = Some x -> nth_error rows (i + 1) = Some y -> no_jump x y) ->
  nth_error rows 0 = Some (row_rounds n) -> nth_error rows k = Some (row_backrounds n) -> n <= k.
Proof.
  intros Hn F J E0 Ek. destruct (Nat.le_gt_cases n k) as [|Lk]; auto. exfalso. pose proof (no_jumps_far n rows F J) as Far. rewrite Forall_forall in F.
  assert (R : forall i, i < n -> nth_error (row_rounds n) i = Some i).
  { intros i Hi. rewrite rounds_seq, (nth_error_nth' _ 0) by (rewrite seq_length; auto). rewrite seq_nth; auto. }
  assert (B : forall i, i < n -> nth_error (row_backrounds n) (n - 1 - i) = Some i) by (intros i Hi; apply nth_backrounds; lia).
  assert (Q : k = n - 1).
  { destruct (Far k 0 _ _ 0 0 (n - 1 - 0) E0 Ek) as [_ L]; [apply R; lia|apply B; lia|lia]. }
  assert (Ex : forall i, i <= k -> exists x, nth_error rows i = Some x).
  { intros i Hi. assert (k < length rows) by (apply nth_error_Some; congruence). destruct (nth_error rows i) eqn:E; eauto. apply nth_error_None in E. lia. }
  assert (T : forall i x, i <= k -> nth_error rows i = Some x -> nth_error x i = Some 0).
  { intros i x Hi Ei. destruct (F x (nth_error_In _ _ Ei)) as [(_ & _ & A) L]. assert (I : In 0 x) by (apply A; lia). apply In_nth_error in I as (p & Ep).
    destruct (Far i 0 _ _ 0 0 p E0 Ei) as [_ L1]; [apply R; lia|auto|].
    assert (Ek' : nth_error rows (i + (k - i)) = Some (row_backrounds n)) by (replace (i + (k - i)) with k by lia; auto).
    destruct (Far (k - i) i _ _ 0 p (n - 1 - 0) Ei Ek') as [_ L2]; [auto|apply B; lia|]. assert (p = i) by lia. subst p. auto. }
  destruct (Ex 1) as (x1 & E1); [lia|]. destruct (Ex 2) as (x2 & E2); [lia|].
  pose proof (T 1 x1 ltac:(lia) E1) as T1. pose proof (T 2 x2 ltac:(lia) E2) as T2.
  destruct (F x1 (nth_error_In _ _ E1)) as [(_ & N1 & A1) L1]. destruct (F x2 (nth_error_In _ _ E2)) as [(_ & N2 & A2) L2].
  assert (P1 : nth_error x1 0 = Some 1).
  { destruct (nth_error x1 0) as [c|] eqn:C; [|apply nth_error_None in C; lia]. assert (Hc : c < n) by (rewrite <- L1; apply A1; apply (nth_error_In _ _ C)).
    destruct (J 0 _ _ E0 E1 c c 0) as [Lc _]; auto. destruct c as [|[|c]]; auto; [|lia].
    assert (0 = 1); [|lia]. apply (proj1 (NoDup_nth_error _) N1); [lia|congruence]. }
  assert (P2 : nth_error x2 0 = Some 1).
  { destruct (nth_error x2 0) as [c|] eqn:C; [|apply nth_error_None in C; lia]. assert (Hc : In c x1) by (apply A1; rewrite L1, <- L2; apply A2; apply (nth_error_In _ _ C)).
    apply In_nth_error in Hc as (p & Ep). destruct (J 1 _ _ E1 E2 c p 0) as [Lc _]; auto. destruct p as [|[|p]]; [congruence| |lia].
    assert (c = 0) by congruence. subst c. assert (0 = 2); [|lia]. apply (proj1 (NoDup_nth_error _) N2); [lia|congruence]. }
  assert (Ek' : nth_error rows (2 + (k - 2)) = Some (row_backrounds n)) by (replace (2 + (k - 2)) with k by lia; auto).
  destruct (Far (k - 2) 2 _ _ 1 0 (n - 1 - 1) E2 Ek') as [_ L]; [auto|apply B; lia|lia].
Qed.
