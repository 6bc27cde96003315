(** Facts about paths read from another row on, or backwards. *)
From Verif Require Import Base Spec SpecBlock Class SpecClass ListFacts ClassFacts2.
Local Open Scope list_scope.

(** The places of a circle of [n] rows, turned by [c], or turned and read backwards. *)
Definition turned (n c i : nat) : nat := (i + c) mod n.
Definition mirrored (n c i : nat) : nat := (c + n - i) mod n.
Definition dihedral (n : nat) (g : nat -> nat) : Prop :=
  exists c, c < n /\ ((forall i, i < n -> g i = turned n c i) \/ (forall i, i < n -> g i = mirrored n c i)).

Definition read (g : nat -> nat) (p : list nat) : list nat := map (fun i => nth (g i) p 0) (seq 0 (length p)).

Lemma modlt a n : 0 < n -> a mod n < n.
Proof. intros. apply Nat.mod_upper_bound. lia. Qed.

(** Sums below twice the modulus. *)
Lemma mod_cases a n : 0 < n -> a < 2 * n -> (a < n /\ a mod n = a) \/ (n <= a /\ a mod n = a - n).
Proof.
  intros H L. destruct (lt_dec a n) as [K|K]; [left; split; auto; apply Nat.mod_small; auto|right]. split; [lia|].
  replace a with (a - n + 1 * n) at 1 by lia. rewrite Nat.mod_add by lia. apply Nat.mod_small. lia.
Qed.

Ltac modc H n := match goal with |- context [?a mod n] => destruct (mod_cases a n H ltac:(lia)) as [[? ->]|[? ->]] end.

Lemma dihedral_lt n g i : dihedral n g -> i < n -> g i < n.
Proof. intros (c & C & [E|E]) I; rewrite E by auto; apply modlt; lia. Qed.

Lemma dihedral_inv n g : dihedral n g -> exists g', dihedral n g' /\
  (forall i, i < n -> g (g' i) = i) /\ (forall i, i < n -> g' (g i) = i).
Proof.
  intros (c & C & [E|E]).
  - exists (turned n (if c =? 0 then 0 else n - c)). split.
    { eexists. split; [|left; intros; reflexivity]. destruct (Nat.eqb_spec c 0); lia. }
    assert (H : 0 < n) by lia.
    split; intros i I.
    + rewrite E by (apply modlt; lia). unfold turned. destruct (Nat.eqb_spec c 0) as [->|N].
      * rewrite !Nat.add_0_r. rewrite Nat.mod_mod, Nat.mod_small; lia.
      * destruct (mod_cases (i + (n - c)) n H ltac:(lia)) as [[? K]|[? K]]; rewrite K;
          [destruct (mod_cases (i + (n - c) + c) n H ltac:(lia)) as [[? ->]|[? ->]]|destruct (mod_cases (i + (n - c) - n + c) n H ltac:(lia)) as [[? ->]|[? ->]]]; lia.
    + rewrite E by auto. unfold turned. destruct (Nat.eqb_spec c 0) as [->|N].
      * rewrite !Nat.add_0_r. rewrite Nat.mod_mod, Nat.mod_small; lia.
      * destruct (mod_cases (i + c) n H ltac:(lia)) as [[? K]|[? K]]; rewrite K;
          [destruct (mod_cases (i + c + (n - c)) n H ltac:(lia)) as [[? ->]|[? ->]]|destruct (mod_cases (i + c - n + (n - c)) n H ltac:(lia)) as [[? ->]|[? ->]]]; lia.
  - exists (mirrored n c). split; [exists c; split; auto|]. assert (H : 0 < n) by lia.
    assert (K : forall i, i < n -> mirrored n c (mirrored n c i) = i).
    { intros i I. unfold mirrored. destruct (mod_cases (c + n - i) n H ltac:(lia)) as [[? K]|[? K]]; rewrite K;
        [destruct (mod_cases (c + n - (c + n - i)) n H ltac:(lia)) as [[? ->]|[? ->]]|destruct (mod_cases (c + n - (c + n - i - n)) n H ltac:(lia)) as [[? ->]|[? ->]]]; lia. }
    split; intros i I; [rewrite E by (apply modlt; lia)|rewrite (E i) by auto]; apply K; auto.
Qed.

Lemma perm_of_inverse n g g' : (forall i, i < n -> g i < n) -> (forall i, i < n -> g' (g i) = i) ->
  Permutation (map g (seq 0 n)) (seq 0 n).
Proof.
  intros L I. apply NoDup_Permutation_bis.
  - apply NoDup_map_inj; [|apply seq_NoDup]. intros x y Hx Hy E. apply in_seq in Hx, Hy. rewrite <- (I x), <- (I y) by lia. congruence.
  - rewrite map_length. reflexivity.
  - intros x Hx. apply in_map_iff in Hx as (y & <- & Hy). apply in_seq in Hy. apply in_seq. specialize (L y). lia.
Qed.

Lemma dihedral_perm n g : dihedral n g -> Permutation (map g (seq 0 n)) (seq 0 n).
Proof.
  intros D. destruct (dihedral_inv n g D) as (g' & D' & I1 & I2). apply (perm_of_inverse n g g'); auto.
  intros i. apply dihedral_lt; auto.
Qed.

Lemma nth_seq_map p : map (fun i => nth i p 0) (seq 0 (length p)) = p.
Proof.
  apply (nth_ext _ _ 0 0); [rewrite map_length, seq_length; auto|]. intros i Hi. rewrite map_length, seq_length in Hi.
  rewrite (nth_indep _ 0 (nth 0 p 0)) by (rewrite map_length, seq_length; auto).
  rewrite (map_nth (fun i => nth i p 0)), seq_nth; auto.
Qed.

Lemma read_perm g p : dihedral (length p) g -> Permutation (read g p) p.
Proof.
  intros D. apply dihedral_perm in D. unfold read. apply (Permutation_map (fun i => nth i p 0)) in D.
  rewrite map_map, nth_seq_map in D. exact D.
Qed.

Lemma read_length g p : length (read g p) = length p.
Proof. unfold read. rewrite map_length, seq_length. reflexivity. Qed.

Lemma read_nth g p i : i < length p -> nth i (read g p) 0 = nth (g i) p 0.
Proof.
  intros H. unfold read. rewrite (nth_indep _ 0 (nth (g 0) p 0)) by (rewrite map_length, seq_length; auto).
  rewrite (map_nth (fun i => nth (g i) p 0)), seq_nth; auto.
Qed.

Lemma read_back g p : dihedral (length p) g -> exists g', dihedral (length p) g' /\ read g' (read g p) = p.
Proof.
  intros D. destruct (dihedral_inv _ g D) as (g' & D' & I1 & I2). exists g'. split; auto.
  apply (nth_ext _ _ 0 0); rewrite !read_length; auto. intros i Hi.
  rewrite read_nth by (rewrite read_length; auto). rewrite read_nth by (apply dihedral_lt; auto). rewrite I1; auto.
Qed.

(** ** Symmetry *)

Definition symmetric_at (p : list nat) (k : nat) : Prop :=
  forall i j, i < length p -> j < length p -> (i + j) mod length p = k -> nth i p 0 = nth j p 0.

Lemma symmetric_index p : p <> [] -> (symmetric p <-> exists k, k < length p /\ symmetric_at p k).
Proof.
  intros Ne. assert (H : 0 < length p) by (destruct p; cbn; [congruence|lia]). set (n := length p) in *. split.
  - intros (a & b & E1 & E2). assert (L : n = length a + length b) by (unfold n; rewrite E1, app_length; auto).
    assert (K : forall i, i < n -> nth (n - S i) p 0 = nth i (b ++ a) 0).
    { intros i I. rewrite <- E2, rev_nth by (fold n; auto). reflexivity. }
    (* (b ++ a)_i = p_((i + length a) mod n); so p_(n-1-i) = p_((i + length a) mod n) *)
    assert (R : forall i, i < n -> nth i (b ++ a) 0 = nth ((i + length a) mod n) p 0).
    { intros i I. rewrite E1. destruct (lt_dec i (length b)) as [B|B].
      - rewrite app_nth1 by auto. rewrite Nat.mod_small by lia. rewrite app_nth2 by lia. f_equal. lia.
      - rewrite app_nth2 by lia. destruct (mod_cases (i + length a) n H ltac:(lia)) as [[? ->]|[? ->]]; [lia|].
        rewrite app_nth1 by lia. f_equal. lia. }
    exists ((n - 1 + length a) mod n). split; [apply modlt; auto|]. intros i j I J M. fold n in I, J, M.
    replace i with (n - S (n - 1 - i)) by lia. rewrite K by lia. rewrite R by lia. f_equal.
    destruct (mod_cases (n - 1 - i + length a) n H ltac:(lia)) as [[? ->]|[? ->]];
    destruct (mod_cases (i + j) n H ltac:(lia)) as [[? S1]|[? S1]]; rewrite S1 in M;
    destruct (mod_cases (n - 1 + length a) n H ltac:(lia)) as [[? S2]|[? S2]]; rewrite S2 in M; lia.
  - intros (k & Hk & Sy). set (a := if k =? n - 1 then 0 else k + 1).
    exists (firstn a p), (skipn a p). split; [symmetry; apply firstn_skipn|].
    assert (Ha : a <= n) by (unfold a; destruct (Nat.eqb_spec k (n - 1)); lia).
    apply (nth_ext _ _ 0 0); [rewrite rev_length, app_length, skipn_length, firstn_length; fold n; lia|].
    intros i Hi. rewrite rev_length in Hi. fold n in Hi. rewrite rev_nth by auto. fold n.
    assert (E : nth i (skipn a p ++ firstn a p) 0 = nth ((i + a) mod n) p 0).
    { destruct (lt_dec i (n - a)) as [B|B].
      - rewrite app_nth1 by (rewrite skipn_length; fold n; lia). rewrite Nat.mod_small by lia.
        rewrite <- (firstn_skipn a p) at 2. rewrite app_nth2 by (rewrite firstn_length; fold n; lia). f_equal. rewrite firstn_length. fold n. lia.
      - rewrite app_nth2 by (rewrite skipn_length; fold n; lia). rewrite skipn_length. fold n.
        destruct (mod_cases (i + a) n H ltac:(lia)) as [[? ->]|[? ->]]; [lia|].
        rewrite <- (firstn_skipn a p) at 2. rewrite app_nth1 by (rewrite firstn_length; fold n; lia). f_equal. lia. }
    rewrite E. apply Sy; fold n; [lia|apply modlt; auto|].
    unfold a. destruct (Nat.eqb_spec k (n - 1)) as [->|Nk].
    + rewrite Nat.add_0_r, (Nat.mod_small i) by lia. rewrite Nat.mod_small; lia.
    + destruct (mod_cases (i + (k + 1)) n H ltac:(lia)) as [[? ->]|[? ->]];
      [destruct (mod_cases (n - S i + (i + (k + 1))) n H ltac:(lia)) as [[? ->]|[? ->]]|destruct (mod_cases (n - S i + (i + (k + 1) - n)) n H ltac:(lia)) as [[? ->]|[? ->]]]; lia.
Qed.

Lemma read_symmetric g p : p <> [] -> dihedral (length p) g -> symmetric p -> symmetric (read g p).
Proof.
  intros Ne D Sy. assert (H : 0 < length p) by (destruct p; cbn; [congruence|lia]).
  apply symmetric_index in Sy as (k & Hk & Sy); auto.
  apply symmetric_index. { intros K. apply (f_equal (@length nat)) in K. rewrite read_length in K. cbn in K. lia. }
  rewrite read_length. set (n := length p) in *. pose proof D as (c & C & [E|E]).
  - (* (i + c) + (j + c) = k  iff  i + j = k - 2c *)
    exists ((k + 2 * (n - c)) mod n). split; [apply modlt; auto|]. intros i j I J M. rewrite read_length in *. fold n in I, J, M.
    rewrite !read_nth by auto. apply Sy; try (apply dihedral_lt; auto). fold n. rewrite !E by auto. unfold turned.
    rewrite <- Nat.add_mod by lia.
    replace (i + c + (j + c)) with (i + j + 2 * c) by lia. rewrite Nat.add_mod, M, <- Nat.add_mod by lia.
    replace (k + 2 * (n - c) + 2 * c) with (k + 2 * n) by lia. rewrite Nat.mod_add by lia. apply Nat.mod_small; auto.
  - exists ((2 * c + n - k) mod n). split; [apply modlt; auto|]. intros i j I J M. rewrite read_length in *. fold n in I, J, M.
    rewrite !read_nth by auto. apply Sy; try (apply dihedral_lt; auto). fold n. rewrite !E by auto. unfold mirrored.
    rewrite <- Nat.add_mod by lia.
    (* (2c + 2n - (i + j)) mod n = k given (i + j) mod n = (2c + n - k) mod n *)
    pose proof (Nat.div_mod (i + j) n ltac:(lia)) as Q1. pose proof (Nat.div_mod (2 * c + n - k) n ltac:(lia)) as Q2. rewrite M in Q1.
    set (u := (i + j) / n) in *. set (v := (2 * c + n - k) / n) in *. set (w := (2 * c + n - k) mod n) in *.
    assert (Ev : c + n - i + (c + n - j) + u * n = k + (v + 1) * n) by nia.
    rewrite <- (Nat.mod_small k n) by auto. rewrite <- (Nat.mod_add k (v + 1) n) by lia. rewrite <- Ev. rewrite Nat.mod_add by lia. reflexivity.
Qed.

(** ** Places made *)

Lemma filter_len_perm {X} (f : X -> bool) l l' : Permutation l l' -> length (filter f l) = length (filter f l').
Proof. induction 1; cbn; auto; repeat (destruct (f _)); cbn; lia. Qed.

Lemma filter_map_len {X Y} (h : X -> Y) (f : Y -> bool) l : length (filter f (map h l)) = length (filter (fun x => f (h x)) l).
Proof. induction l as [|x l IH]; auto. cbn. destruct (f (h x)); cbn; auto. Qed.

(** Steps of the path read another way: the step after index [i] is the step after [edge i], perhaps backwards. *)
Definition edge (n : nat) (g : nat -> nat) (i : nat) : nat :=
  if (g i + 1) mod n =? g ((i + 1) mod n) then g i else g ((i + 1) mod n).

Lemma edge_lt n g i : dihedral n g -> i < n -> edge n g i < n.
Proof. intros D I. unfold edge. destruct (_ =? _); apply dihedral_lt; auto. apply modlt; lia. Qed.

Lemma edge_step n g i : dihedral n g -> i < n ->
  (edge n g i = g i /\ (edge n g i + 1) mod n = g ((i + 1) mod n)) \/
  (edge n g i = g ((i + 1) mod n) /\ (edge n g i + 1) mod n = g i).
Proof.
  intros D I. assert (H : 0 < n) by lia. unfold edge. destruct (Nat.eqb_spec ((g i + 1) mod n) (g ((i + 1) mod n))) as [E|E]; auto.
  right. split; auto. pose proof (modlt (i + 1) n H) as I'. pose proof D as (c & C & [F|F]).
  - exfalso. apply E. rewrite !F by auto. unfold turned. rewrite !Nat.add_mod_idemp_l by lia. f_equal. lia.
  - rewrite !F by auto. unfold mirrored.
    destruct (mod_cases (i + 1) n H ltac:(lia)) as [[? K]|[? K]]; rewrite K in *.
    + destruct (mod_cases (c + n - i) n H ltac:(lia)) as [[? ->]|[? ->]];
      destruct (mod_cases (c + n - (i + 1)) n H ltac:(lia)) as [[? ->]|[? ->]].
      * destruct (mod_cases (c + n - (i + 1) + 1) n H ltac:(lia)) as [[? ->]|[? ->]]; lia.
      * lia.
      * destruct (mod_cases (c + n - (i + 1) + 1) n H ltac:(lia)) as [[? ->]|[? ->]]; lia.
      * destruct (mod_cases (c + n - (i + 1) - n + 1) n H ltac:(lia)) as [[? ->]|[? ->]]; lia.
    + replace (i + 1 - n) with 0 in * by lia. rewrite Nat.sub_0_r. replace (c + n) with (c + 1 * n) by lia. rewrite Nat.mod_add by lia.
      rewrite (Nat.mod_small c) by auto. replace (c + 1 * n - i) with (c + 1) by lia. reflexivity.
Qed.

Lemma edge_dihedral n g : dihedral n g -> dihedral n (edge n g).
Proof.
  intros D. destruct (le_lt_dec n 2) as [S|S].
  - (* one or two rows *)
    destruct n as [|[|[|n]]]; try lia.
    + destruct D as (c & C & _). lia.
    + exists 0. split; [lia|]. left. intros i I. pose proof (edge_lt _ _ i D I). unfold turned. rewrite Nat.mod_small; lia.
    + pose proof (edge_lt _ _ 0 D ltac:(lia)) as L0. pose proof (edge_lt _ _ 1 D ltac:(lia)) as L1.
      pose proof (edge_step _ _ 0 D ltac:(lia)) as E0. pose proof (edge_step _ _ 1 D ltac:(lia)) as E1.
      change ((0 + 1) mod 2) with 1 in E0. change ((1 + 1) mod 2) with 0 in E1.
      assert (N : edge 2 g 0 <> edge 2 g 1).
      { intros K. destruct (dihedral_inv _ _ D) as (g' & _ & _ & I2). 
        assert (G : g 0 <> g 1). { intros Q. pose proof (I2 0 ltac:(lia)). pose proof (I2 1 ltac:(lia)). congruence. }
        unfold edge in K. change ((0 + 1) mod 2) with 1 in K. change ((1 + 1) mod 2) with 0 in K.
        pose proof (dihedral_lt _ _ 0 D ltac:(lia)). pose proof (dihedral_lt _ _ 1 D ltac:(lia)).
        destruct (g 0) as [|[|?]], (g 1) as [|[|?]]; cbn in K; lia. }
      exists (edge 2 g 0). split; auto. left. intros i I. unfold turned.
      destruct i as [|[|i]]; [|destruct (edge 2 g 0) as [|[|?]], (edge 2 g 1) as [|[|?]]; cbn; lia|lia].
      cbn [Nat.add]. rewrite Nat.mod_small; auto.
  - assert (H : 0 < n) by lia. pose proof D as (c & C & [F|F]).
    + exists c. split; auto. left. intros i I. rewrite <- F by auto. unfold edge.
      destruct (Nat.eqb_spec ((g i + 1) mod n) (g ((i + 1) mod n))) as [E|E]; auto. exfalso. apply E.
      rewrite !F by (auto; apply modlt; lia). unfold turned. rewrite !Nat.add_mod_idemp_l by lia. f_equal. lia.
    + exists ((c + n - 1) mod n). split; [apply modlt; lia|]. right. intros i I.
      assert (E : edge n g i = g ((i + 1) mod n)).
      { unfold edge. destruct (Nat.eqb_spec ((g i + 1) mod n) (g ((i + 1) mod n))) as [E|E]; auto. exfalso.
        rewrite !F in E by (auto; apply modlt; lia). unfold mirrored in E. rewrite Nat.add_mod_idemp_l in E by lia.
        destruct (mod_cases (i + 1) n H ltac:(lia)) as [[? K]|[? K]]; rewrite K in E.
        - destruct (mod_cases (c + n - (i + 1)) n H ltac:(lia)) as [[? X]|[? X]]; rewrite X in E;
          destruct (le_lt_dec (2 * n) (c + n - i + 1)) as [Y|Y].
          + lia.
          + destruct (mod_cases (c + n - i + 1) n H ltac:(lia)) as [[? X']|[? X']]; rewrite X' in E; lia.
          + replace (c + n - i + 1) with (0 + 2 * n) in E by lia. rewrite Nat.mod_add, Nat.mod_small in E by lia. lia.
          + destruct (mod_cases (c + n - i + 1) n H ltac:(lia)) as [[? X']|[? X']]; rewrite X' in E; lia.
        - replace (i + 1 - n) with 0 in E by lia. rewrite Nat.sub_0_r in E.
          replace (c + n) with (c + 1 * n) in E by lia. rewrite Nat.mod_add, (Nat.mod_small c) in E by lia.
          replace (c + 1 * n - i + 1) with (c + 2) in E by lia.
          destruct (mod_cases (c + 2) n H ltac:(lia)) as [[? X]|[? X]]; rewrite X in E; lia. }
      rewrite E, F by (apply modlt; lia). unfold mirrored.
      destruct (mod_cases (i + 1) n H ltac:(lia)) as [[? K]|[? K]]; rewrite K;
      destruct (mod_cases (c + n - 1) n H ltac:(lia)) as [[? K']|[? K']]; rewrite K'.
      * replace (c + n - 1 + n - i) with (c + n - (i + 1) + 1 * n) by lia. rewrite Nat.mod_add by lia. reflexivity.
      * f_equal. lia.
      * replace (i + 1 - n) with 0 by lia. replace (c + n - 1 + n - i) with (c + n - 0) by lia. reflexivity.
      * replace (i + 1 - n) with 0 by lia. replace (c + n - 0) with (c + 1 * n) by lia. rewrite Nat.mod_add by lia.
        replace (c + n - 1 - n + n - i) with (c) by lia. reflexivity.
Qed.

Lemma read_places_made g p : p <> [] -> dihedral (length p) g -> places_made (read g p) = places_made p.
Proof.
  intros Ne D. assert (H : 0 < length p) by (destruct p; cbn; [congruence|lia]). unfold places_made. rewrite read_length.
  rewrite <- (filter_len_perm (fun i => nth i p 0 =? nth ((i + 1) mod length p) p 0) _ _ (dihedral_perm _ _ (edge_dihedral _ _ D))). rewrite filter_map_len. f_equal.
  apply filter_ext_in. intros i I. apply in_seq in I.
  rewrite (read_nth g p i) by lia. rewrite (read_nth g p ((i + 1) mod length p)) by (apply modlt; auto).
  destruct (edge_step _ g i D ltac:(lia)) as [[-> ->]|[-> ->]]; auto. apply Nat.eqb_sym.
Qed.

Lemma path_class_perm p p' h : Permutation p p' -> (symmetric p <-> symmetric p') -> places_made p = places_made p' ->
  path_class p h -> path_class p' h.
Proof.
  intros P Sy M C.
  assert (I : forall q, In q p <-> In q p') by (intros q; split; apply Permutation_in; [auto|apply Permutation_sym; auto]).
  assert (Vs : forall q, visits p q = visits p' q) by (intros q; unfold visits; apply (Permutation_count_occ Nat.eq_dec); auto).
  assert (St : stationary p <-> stationary p').
  { unfold stationary. split; intros (q & K); exists q; intros x X; apply K, I; auto. }
  assert (Tw : each_place_twice p <-> each_place_twice p').
  { unfold each_place_twice. split; intros K q Q; [rewrite <- Vs|rewrite Vs]; apply K, I; auto. }
  assert (Co : equally_covered p <-> equally_covered p').
  { unfold equally_covered. split; intros K q r Q R; [rewrite <- !Vs|rewrite !Vs]; apply K; apply I; auto. }
  inversion C; subst; [apply pc_stationary|apply pc_plain|apply pc_treble_dodging|apply pc_treble_place|apply pc_few_places|apply pc_alliance|apply pc_asymmetric];
    tauto || (rewrite <- M; auto).
Qed.

Lemma read_path_class g p h : p <> [] -> dihedral (length p) g -> (path_class (read g p) h <-> path_class p h).
Proof.
  intros Ne D. assert (Sy : symmetric (read g p) <-> symmetric p).
  { split; [|apply read_symmetric; auto]. intros S. destruct (read_back g p D) as (g' & D' & E). rewrite <- E.
    apply read_symmetric; auto; [|rewrite read_length; auto].
    intros K. apply (f_equal (@length nat)) in K. rewrite read_length in K. destruct p; [congruence|discriminate]. }
  pose proof (read_perm g p D) as P. pose proof (read_places_made g p Ne D) as M. split; apply path_class_perm; auto.
  - apply Permutation_sym; auto.
  - symmetry. auto.
Qed.
