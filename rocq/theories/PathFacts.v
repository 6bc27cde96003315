(** A path which goes by steps and visits each of its places twice is symmetric. *)
From Verif Require Import Base Spec SpecBlock Class SpecClass ListFacts ClassFacts2 SymFacts.
Local Open Scope list_scope.

Definition at_ (p : list nat) (v : nat) : list nat := filter (fun i => nth i p 0 =? v) (seq 0 (length p)).

Lemma visits_at p v : visits p v = length (at_ p v).
Proof.
  unfold visits, at_. rewrite <- (nth_seq_map p) at 1. generalize (seq 0 (length p)). induction l as [|i l IH]; auto.
  cbn [map count_occ filter]. destruct (Nat.eq_dec (nth i p 0) v) as [E|E]; destruct (Nat.eqb_spec (nth i p 0) v) as [E'|E']; try congruence;
    cbn [length]; rewrite IH; reflexivity.
Qed.

Lemma in_at p v i : In i (at_ p v) <-> i < length p /\ nth i p 0 = v.
Proof. unfold at_. rewrite filter_In, in_seq, Nat.eqb_eq. lia. Qed.

Lemma at_NoDup p v : NoDup (at_ p v).
Proof. apply NoDup_filter, seq_NoDup. Qed.

(** The two visits. *)
Lemma third p i j k : each_place_twice p -> i < length p -> j < length p -> k < length p ->
  nth i p 0 = nth j p 0 -> nth i p 0 = nth k p 0 -> i <> j -> k = i \/ k = j.
Proof.
  intros T Hi Hj Hk E1 E2 N. specialize (T (nth i p 0) (nth_In _ _ Hi)). rewrite visits_at in T.
  destruct (Nat.eq_dec k i) as [|N1]; auto. destruct (Nat.eq_dec k j) as [|N2]; auto. exfalso.
  assert (3 <= length (at_ p (nth i p 0))); [|lia]. change 3 with (length [i; j; k]). apply NoDup_incl_length.
  - repeat constructor; cbn; intuition.
  - intros x [<-|[<-|[<-|[]]]]; apply in_at; auto.
Qed.

Lemma second p i : each_place_twice p -> i < length p -> exists j, j < length p /\ j <> i /\ nth j p 0 = nth i p 0.
Proof.
  intros T Hi. specialize (T (nth i p 0) (nth_In _ _ Hi)). rewrite visits_at in T. pose proof (at_NoDup p (nth i p 0)) as D.
  assert (F : forall j, In j (at_ p (nth i p 0)) -> j < length p /\ nth j p 0 = nth i p 0) by (intros j; apply in_at).
  destruct (at_ p (nth i p 0)) as [|x [|y [|z l]]]; try discriminate.
  inversion D as [|? ? Nx _]; subst. destruct (Nat.eq_dec x i) as [->|Ne].
  - exists y. destruct (F y) as [? ?]; [cbn; auto|]. splits; auto. intros ->. apply Nx. cbn. auto.
  - exists x. destruct (F x) as [? ?]; [cbn; auto|]. auto.
Qed.

Definition by_steps (p : list nat) : Prop :=
  forall i, i < length p -> let a := nth i p 0 in let b := nth ((i + 1) mod length p) p 0 in a <= b + 1 /\ b <= a + 1.

Lemma read_steps g p : dihedral (length p) g -> by_steps p -> by_steps (read g p).
Proof.
  intros D S i Hi. rewrite read_length in *. assert (H : 0 < length p) by lia. pose proof (modlt (i + 1) _ H) as Hi'.
  rewrite !read_nth by auto. destruct (edge_step _ g i D Hi) as [[E1 E2]|[E1 E2]].
  - rewrite E1 in E2. specialize (S (g i) (dihedral_lt _ _ _ D Hi)). rewrite E2 in S. exact S.
  - pose proof (S (g ((i + 1) mod length p)) (dihedral_lt _ _ _ D Hi')) as K. rewrite E1 in E2. cbv zeta in *. rewrite E2 in K. lia.
Qed.

Lemma read_twice g p : dihedral (length p) g -> each_place_twice p -> each_place_twice (read g p).
Proof.
  intros D T q Q. pose proof (read_perm g p D) as P. unfold visits. rewrite (Permutation_count_occ Nat.eq_dec) in P. rewrite P. apply T.
  eapply Permutation_in; [apply read_perm; eauto|exact Q].
Qed.

Lemma list_least p : p <> [] -> exists i, i < length p /\ forall j, j < length p -> nth i p 0 <= nth j p 0.
Proof.
  induction p as [|x p IH]; [congruence|intros _]. destruct p as [|y p].
  - exists 0. split; [cbn; lia|]. intros [|j] Hj; cbn in *; lia.
  - destruct IH as (i & Hi & M); [discriminate|]. destruct (le_lt_dec x (nth i (y :: p) 0)) as [L|L].
    + exists 0. split; [cbn; lia|]. intros [|j] Hj; [cbn; lia|]. change (x <= nth j (y :: p) 0). specialize (M j). cbn [length] in Hj, M. lia.
    + exists (S i). split; [cbn in *; lia|]. intros [|j] Hj; [change (nth i (y :: p) 0 <= x); lia|]. apply M. cbn in *; lia.
Qed.

(** Starting at the least place, having just been there. *)
Lemma from_least p : each_place_twice p -> by_steps p -> 2 <= length p ->
  (forall j, j < length p -> nth 0 p 0 <= nth j p 0) -> nth (length p - 1) p 0 = nth 0 p 0 ->
  forall j, 2 * (j + 1) <= length p -> nth j p 0 = nth 0 p 0 + j /\ nth (length p - 1 - j) p 0 = nth 0 p 0 + j.
Proof.
  intros T S L M E. set (n := length p) in *. induction j as [j IH] using lt_wf_ind. intros Hj.
  destruct j as [|j]; [rewrite Nat.sub_0_r, E; lia|].
  destruct (IH j ltac:(lia) ltac:(lia)) as [A B].
  assert (Far : forall q, j < q < n - 1 - j -> nth q p 0 < nth 0 p 0 + (j + 1) -> False).
  { intros q Q Lt. pose proof (M q ltac:(lia)) as G. set (v := nth q p 0 - nth 0 p 0).
    destruct (IH v ltac:(lia) ltac:(lia)) as [C D].
    destruct (third p v (n - 1 - v) q) as [K|K]; auto; fold n; try lia. }
  assert (Fwd : nth (Datatypes.S j) p 0 = nth 0 p 0 + Datatypes.S j).
  { pose proof (S j ltac:(fold n; lia)) as K. fold n in K. cbv zeta in K. rewrite Nat.mod_small in K by lia. replace (j + 1) with (Datatypes.S j) in K by lia.
    destruct (le_lt_dec (nth 0 p 0 + (j + 1)) (nth (Datatypes.S j) p 0)) as [G|G]; [lia|]. exfalso. apply (Far (Datatypes.S j)); auto. lia. }
  assert (Bwd : nth (n - 1 - Datatypes.S j) p 0 = nth 0 p 0 + Datatypes.S j).
  { pose proof (S (n - 1 - Datatypes.S j) ltac:(fold n; lia)) as K. fold n in K. cbv zeta in K. rewrite Nat.mod_small in K by lia.
    replace (n - 1 - Datatypes.S j + 1) with (n - 1 - j) in K by lia.
    destruct (le_lt_dec (nth 0 p 0 + (j + 1)) (nth (n - 1 - Datatypes.S j) p 0)) as [G|G]; [lia|]. exfalso. apply (Far (n - 1 - Datatypes.S j)); auto. lia. }
  auto.
Qed.

Lemma plain_symmetric p : p <> [] -> each_place_twice p -> by_steps p -> symmetric p.
Proof.
  intros Ne T S. assert (Hn : 0 < length p) by (destruct p; cbn; [congruence|lia]).
  (* start at the least place *)
  destruct (list_least p Ne) as (i0 & Hi0 & M0).
  assert (D0 : dihedral (length p) (turned (length p) i0)) by (exists i0; auto).
  assert (G : forall g, dihedral (length p) g -> symmetric (read g p) -> symmetric p).
  { intros g D Sy. destruct (read_back g p D) as (g' & D' & E). rewrite <- E. apply read_symmetric; auto; [|rewrite read_length; auto].
    intros K. apply (f_equal (@length nat)) in K. rewrite read_length in K. cbn in K. lia. }
  apply (G _ D0). pose proof (read_twice _ _ D0 T) as T1. pose proof (read_steps _ _ D0 S) as S1.
  set (p1 := read (turned (length p) i0) p) in *. assert (L1 : length p1 = length p) by apply read_length.
  assert (M1 : forall j, j < length p1 -> nth 0 p1 0 <= nth j p1 0).
  { intros j Hj. rewrite L1 in Hj. unfold p1. rewrite !read_nth by auto. unfold turned at 1. cbn [Nat.add]. rewrite Nat.mod_small by auto.
    apply M0. apply dihedral_lt; auto. }
  clearbody p1. assert (N1 : p1 <> []) by (intros ->; cbn in L1; lia). assert (H1 : 0 < length p1) by lia. clear L1 D0 M0 Hi0 i0 G T S Ne Hn p.
  destruct (second p1 0 T1 H1) as (k & Hk & Nk & Ek). set (n := length p1) in *.
  assert (Adj : forall q, dihedral n q -> nth (q 0) p1 0 = nth 0 p1 0 -> nth (q (n - 1)) p1 0 = nth 0 p1 0 -> symmetric p1).
  { intros q D E0 E1. assert (D' : dihedral (length p1) q) by (fold n; auto).
    destruct (read_back q p1 D') as (g' & Dg & E). rewrite <- E. apply read_symmetric; [|rewrite read_length; fold n; auto|].
    { intros K. apply (f_equal (@length nat)) in K. rewrite read_length in K. fold n in K. cbn in K. lia. }
    set (p2 := read q p1). assert (L2 : length p2 = n) by apply read_length.
    assert (R : forall j, j < n -> nth j p2 0 = nth (q j) p1 0) by (intros; apply read_nth; fold n; auto).
    apply symmetric_index; [intros K; rewrite K in L2; cbn in L2; lia|].
    exists (n - 1). rewrite L2. split; [lia|]. intros i j Hi Hj Es. rewrite L2 in *.
    assert (B : forall j, 2 * (j + 1) <= n -> nth j p2 0 = nth 0 p2 0 + j /\ nth (n - 1 - j) p2 0 = nth 0 p2 0 + j).
    { rewrite <- L2. apply from_least.
      - apply read_twice; auto.
      - apply read_steps; auto.
      - rewrite L2. lia.
      - intros u Hu. rewrite L2 in Hu. rewrite !R by (auto; lia). rewrite E0. apply M1. fold n. apply dihedral_lt; auto.
      - rewrite L2. rewrite !R by lia. congruence. }
    assert (Sum : i + j = n - 1) by (destruct (mod_cases (i + j) n ltac:(lia) ltac:(lia)) as [[? Q]|[? Q]]; rewrite Q in Es; lia).
    destruct (lt_eq_lt_dec i j) as [[Q|Q]|Q].
    - destruct (B i ltac:(lia)) as [B1 B2]. replace (n - 1 - i) with j in B2 by lia. congruence.
    - congruence.
    - destruct (B j ltac:(lia)) as [B1 B2]. replace (n - 1 - j) with i in B2 by lia. congruence. }
  destruct (Nat.eq_dec k (n - 1)) as [->|Kn].
  { apply (Adj (turned n 0)); [exists 0; auto| |]; unfold turned; rewrite Nat.add_0_r, Nat.mod_small by lia; auto. }
  destruct (Nat.eq_dec k 1) as [->|K1].
  { apply (Adj (turned n 1)); [exists 1; split; auto; lia| |]; unfold turned.
    - rewrite Nat.mod_small by lia. auto.
    - replace (n - 1 + 1) with (0 + 1 * n) by lia. rewrite Nat.mod_add, Nat.mod_small by lia. auto. }
  (* visited twice, but not in adjacent rows: the path is to and fro *)
  assert (Up : forall i, i < n -> nth i p1 0 = nth 0 p1 0 -> nth ((i + 1) mod n) p1 0 <> nth 0 p1 0 -> nth ((i + 1) mod n) p1 0 = nth 0 p1 0 + 1).
  { intros i Hi E N. pose proof (S1 i ltac:(fold n; auto)) as K. fold n in K. cbv zeta in K. pose proof (M1 ((i + 1) mod n) ltac:(fold n; apply modlt; lia)). lia. }
  assert (Dn : forall i, i < n -> nth ((i + 1) mod n) p1 0 = nth 0 p1 0 -> nth i p1 0 <> nth 0 p1 0 -> nth i p1 0 = nth 0 p1 0 + 1).
  { intros i Hi E N. pose proof (S1 i ltac:(fold n; auto)) as K. fold n in K. cbv zeta in K. pose proof (M1 i ltac:(fold n; auto)). lia. }
  assert (No : forall q, q < n -> q <> 0 -> q <> k -> nth q p1 0 <> nth 0 p1 0).
  { intros q Hq N0 Nq E. destruct (third p1 0 k q) as [K|K]; auto; fold n; lia. }
  assert (V1 : nth 1 p1 0 = nth 0 p1 0 + 1).
  { pose proof (Up 0 ltac:(lia) eq_refl) as K. rewrite Nat.mod_small in K by lia. cbn [Nat.add] in K. apply K. apply No; lia. }
  assert (V2 : nth (n - 1) p1 0 = nth 0 p1 0 + 1).
  { apply Dn; [lia| |apply No; lia]. replace (n - 1 + 1) with (0 + 1 * n) by lia. rewrite Nat.mod_add, Nat.mod_small by lia. auto. }
  assert (V3 : nth (k + 1) p1 0 = nth 0 p1 0 + 1).
  { pose proof (Up k ltac:(lia) Ek) as K. rewrite Nat.mod_small in K by lia. apply K. apply No; lia. }
  assert (V4 : nth (k - 1) p1 0 = nth 0 p1 0 + 1).
  { apply Dn; [lia| |apply No; lia]. replace (k - 1 + 1) with k by lia. rewrite Nat.mod_small by lia. auto. }
  destruct (third p1 1 (n - 1) (k + 1)) as [Q|Q]; auto; fold n; try lia.
  destruct (third p1 1 (n - 1) (k - 1)) as [Q'|Q']; auto; fold n; try lia.
  assert (n = 4 /\ k = 2) as [E4 ->] by lia.
  apply symmetric_index; auto. exists 0. fold n. split; [lia|]. intros i j Hi Hj Es. fold n in Hi, Hj, Es. rewrite E4 in *. cbn in V2.
  destruct i as [|[|[|[|i]]]], j as [|[|[|[|j]]]]; try lia; cbn in Es; try discriminate; congruence.
Qed.

Lemma stationary_symmetric p : p <> [] -> stationary p -> symmetric p.
Proof.
  intros Ne (q & H). apply symmetric_index; auto. exists 0. split; [destruct p; cbn; [congruence|lia]|]. intros i j Hi Hj _.
  rewrite (H (nth i p 0)), (H (nth j p 0)); auto; apply nth_In; auto.
Qed.
