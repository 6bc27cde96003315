(** Closed paths which visit each of their places twice. *)
From Verif Require Import Base Spec SpecBlock Class SpecClass SpecHunt ListFacts.
From Verif Require SymFacts3.
Local Open Scope list_scope.

Section Circle.
Context (f : nat -> nat) (n : nat).
Hypothesis N : 0 < n.
Hypothesis Per : forall t, f (t + n) = f t.
Hypothesis Step : forall t, f t <= f (t + 1) + 1 /\ f (t + 1) <= f t + 1.
Hypothesis Three : forall x y z, x < y -> y < z -> z < x + n -> f x = f y -> f y = f z -> False.
Hypothesis Two : forall x, exists y, x < y /\ y < x + n /\ f y = f x.

Lemma per_mul t k : f (t + k * n) = f t.
Proof. induction k as [|k IH]; [f_equal; lia|]. replace (t + S k * n) with (t + k * n + n) by lia. rewrite Per. auto. Qed.

Lemma per_mod t : f (t mod n) = f t.
Proof. rewrite (Nat.div_mod t n) at 2 by lia. rewrite Nat.add_comm, (Nat.mul_comm n). symmetry. apply per_mul. Qed.

Lemma lowest : exists u, forall t, f u <= f t.
Proof.
  assert (G : forall v t, f t <= v -> exists u, forall t', f u <= f t').
  { induction v as [v IH] using lt_wf_ind. intros t L.
    destruct (existsb (fun t' => f t' <? f t) (seq 0 n)) eqn:E.
    - apply existsb_exists in E as (t' & _ & E). apply Nat.ltb_lt in E. apply (IH (f t')) with t'; lia.
    - exists t. intros t'. rewrite <- (per_mod t'). destruct (Nat.ltb_spec (f (t' mod n)) (f t)) as [X|X]; auto. exfalso.
      assert (existsb (fun t' => f t' <? f t) (seq 0 n) = true); [|congruence]. apply existsb_exists. exists (t' mod n). split; [|apply Nat.ltb_lt; auto].
      apply in_seq. pose proof (Nat.mod_upper_bound t' n). lia. }
  apply (G (f 0) 0). auto.
Qed.

Section Base.
Context (u : nat).
Hypothesis Low : forall t, f u <= f t.
Hypothesis Adj : f (u + 1) = f u.

Lemma wave i : 2 * i + 2 <= n -> forall k, k <= i -> f (u + 1 + k) = f u + k /\ f (u + n - k) = f u + k.
Proof.
  induction i as [|i IH]; intros Hi k Hk.
  - replace k with 0 by lia. rewrite !Nat.add_0_r, Nat.sub_0_r, Per. auto.
  - destruct (Nat.eq_dec k (S i)) as [->|]; [|apply IH; lia]. clear Hk. pose proof (IH ltac:(lia)) as W. clear IH.
    assert (G : forall w, u + 1 + i < w -> w < u + n - i -> forall j, j <= i -> f w <> f u + j).
    { intros w W1 W2 j J E. destruct (W j J) as [A B]. apply (Three (u + 1 + j) w (u + n - j)); lia. }
    destruct (W i ltac:(lia)) as [A B]. split.
    + replace (u + 1 + S i) with (u + 1 + i + 1) by lia. pose proof (Step (u + 1 + i)) as [S1 S2]. pose proof (Low (u + 1 + i + 1)) as L.
      pose proof (G (u + 1 + i + 1) ltac:(lia) ltac:(lia) (f (u + 1 + i + 1) - f u)). lia.
    + replace (u + n - S i) with (u + n - i - 1) by lia. pose proof (Step (u + n - i - 1)) as [S1 S2]. replace (u + n - i - 1 + 1) with (u + n - i) in * by lia.
      pose proof (Low (u + n - i - 1)) as L. pose proof (G (u + n - i - 1) ltac:(lia) ltac:(lia) (f (u + n - i - 1) - f u)). lia.
Qed.

Lemma even_n : exists h, n = 2 * h /\ 0 < h.
Proof.
  destruct (Nat.Even_or_Odd n) as [[h E]|[h E]]; [exists h; lia|]. exfalso.
  destruct h as [|i]. { destruct (Two 0) as (y & Y1 & Y2 & _). lia. }
  pose proof (wave i ltac:(lia)) as W. set (w := u + 2 + i) in *. destruct (Two w) as (y & Y1 & Y2 & Y).
  assert (C : exists k, k <= i /\ (y = u + n - k \/ y = u + n + 1 + k)).
  { destruct (Nat.le_gt_cases y (u + n)); [exists (u + n - y)|exists (y - u - n - 1)]; unfold w in *; lia. }
  destruct C as (k & K & C). destruct (W k K) as [A B].
  apply (Three (u + 1 + k) w (u + n - k)); unfold w in *; try lia.
  destruct C as [-> | ->]; [lia|]. replace (u + n + 1 + k) with (u + 1 + k + n) in Y by lia. rewrite Per in Y. lia.
  destruct C as [-> | ->]; [lia|]. replace (u + n + 1 + k) with (u + 1 + k + n) in Y by lia. rewrite Per in Y. lia.
Qed.

Lemma hunts : exists h, n = 2 * h /\ 0 < h /\ forall i, i < 2 * h -> f (u + 1 + i) = f u + out_and_in h i.
Proof.
  destruct even_n as (h & E & H). exists h. splits; auto. intros i Hi. pose proof (wave (h - 1) ltac:(lia)) as W.
  unfold out_and_in. destruct (Nat.ltb_spec i h).
  - apply W. lia.
  - destruct (W (2 * h - 1 - i) ltac:(lia)) as [_ B]. rewrite <- B. f_equal. lia.
Qed.
End Base.

Lemma circle : (exists u h, n = 2 * h /\ 0 < h /\ forall i, i < 2 * h -> f (u + i) = f u + out_and_in h i) \/
  (n = 4 /\ exists u, f (u + 1) = f u + 1 /\ f (u + 2) = f u /\ f (u + 3) = f u + 1).
Proof.
  destruct lowest as (u & Low). destruct (Two u) as (y & Y1 & Y2 & Y).
  assert (A : forall v, (forall t, f v <= f t) -> f (v + 1) = f v -> exists w h, n = 2 * h /\ 0 < h /\ forall i, i < 2 * h -> f (w + i) = f w + out_and_in h i).
  { intros v Lv Av. destruct (hunts v Lv Av) as (h & E & H & F). exists (v + 1), h. splits; auto. intros i Hi. rewrite F, Av; auto. }
  destruct (Nat.eq_dec y (u + 1)) as [->|Y3]; [left; apply (A u); auto|].
  destruct (Nat.eq_dec (y + 1) (u + n)) as [E|Y4].
  { left. apply (A y); [intros t; rewrite Y; auto|]. rewrite E, Per. auto. }
  right.
  assert (G : forall w, u < w -> w < u + n -> w <> y -> f w <> f u).
  { intros w W1 W2 W3 E. destruct (Nat.lt_trichotomy w y) as [T|[T|T]]; auto; [apply (Three u w y)|apply (Three u y w)]; auto; congruence. }
  assert (V1 : f (u + 1) = f u + 1). { pose proof (Step u). pose proof (Low (u + 1)). pose proof (G (u + 1)). lia. }
  assert (V2 : f (y - 1) = f u + 1). { pose proof (Step (y - 1)) as S1. replace (y - 1 + 1) with y in S1 by lia. pose proof (Low (y - 1)). pose proof (G (y - 1)). lia. }
  assert (V3 : f (y + 1) = f u + 1). { pose proof (Step y). pose proof (Low (y + 1)). pose proof (G (y + 1)). lia. }
  assert (V4 : f (u + n - 1) = f u + 1).
  { pose proof (Step (u + n - 1)) as S1. replace (u + n - 1 + 1) with (u + n) in S1 by lia. rewrite Per in S1. pose proof (Low (u + n - 1)). pose proof (G (u + n - 1)). lia. }
  assert (y = u + 2). { destruct (Nat.eq_dec y (u + 2)); auto. exfalso. apply (Three (u + 1) (y - 1) (y + 1)); lia. }
  subst y. assert (n = 4). { destruct (Nat.eq_dec n 4); auto. exfalso. apply (Three (u + 1) (u + 2 + 1) (u + n - 1)); lia. }
  split; auto. exists u. splits; auto. rewrite <- V3. f_equal. lia.
Qed.
End Circle.

(** ** As lists *)
Definition at_ (p : list nat) (t : nat) : nat := nth (t mod length p) p 0.
Definition places_of (p : list nat) (q : nat) : list nat := filter (fun i => nth i p 0 =? q) (seq 0 (length p)).

Lemma visits_places p q : visits p q = length (places_of p q).
Proof.
  unfold visits, places_of. assert (G : forall l d, count_occ Nat.eq_dec l q = length (filter (fun i => nth (i - d) l 0 =? q) (seq d (length l)))).
  { induction l as [|x l IH]; intros d; auto. cbn [length seq filter count_occ]. rewrite Nat.sub_diag. cbn [nth].
    assert (E : filter (fun i => nth (i - d) (x :: l) 0 =? q) (seq (S d) (length l)) = filter (fun i => nth (i - S d) l 0 =? q) (seq (S d) (length l))).
    { apply filter_ext_in. intros i I. apply in_seq in I. replace (i - d) with (S (i - S d)) by lia. reflexivity. }
    destruct (Nat.eq_dec x q) as [->|Nx]; [rewrite Nat.eqb_refl|rewrite (proj2 (Nat.eqb_neq x q)) by auto]; rewrite (IH (S d)), <- E; reflexivity. }
  rewrite (G p 0). f_equal. apply filter_ext. intros i. rewrite Nat.sub_0_r. auto.
Qed.

Lemma in_places p q i : In i (places_of p q) <-> i < length p /\ nth i p 0 = q.
Proof. unfold places_of. rewrite filter_In, in_seq, Nat.eqb_eq. intuition lia. Qed.

Lemma at_in p t : p <> [] -> In (at_ p t) p.
Proof. intros N. apply nth_In. apply Nat.mod_upper_bound. destruct p; [congruence|discriminate]. Qed.

Lemma at_per p t : p <> [] -> at_ p (t + length p) = at_ p t.
Proof. intros N. unfold at_. f_equal. rewrite <- (Nat.mul_1_l (length p)) at 1. apply Nat.mod_add. destruct p; [congruence|discriminate]. Qed.

Lemma at_nth p t : p <> [] -> nth_error p (t mod length p) = Some (at_ p t).
Proof. intros N. apply nth_error_nth'. apply Nat.mod_upper_bound. destruct p; [congruence|discriminate]. Qed.

Lemma mod_apart n x y : 0 < n -> x < y -> y < x + n -> x mod n <> y mod n.
Proof.
  intros H A B E. pose proof (Nat.div_mod x n ltac:(lia)) as D1. pose proof (Nat.div_mod y n ltac:(lia)) as D2. rewrite E in D1.
  assert (x / n < y / n \/ y / n <= x / n) as [C|C] by lia; nia.
Qed.

Lemma at_step p t : p <> [] -> closed_path p -> at_ p t <= at_ p (t + 1) + 1 /\ at_ p (t + 1) <= at_ p t + 1.
Proof.
  intros N C. apply (C (t mod length p)); [apply at_nth; auto|]. rewrite Nat.add_mod_idemp_l by (destruct p; [congruence|discriminate]). apply at_nth; auto.
Qed.

Lemma at_three p x y z : p <> [] -> each_place_twice p -> x < y -> y < z -> z < x + length p -> at_ p x = at_ p y -> at_ p y = at_ p z -> False.
Proof.
  intros N E A B C D F. assert (L : 0 < length p) by (destruct p; [congruence|cbn; lia]).
  pose proof (E (at_ p x) (at_in p x N)) as V. rewrite visits_places in V.
  assert (X : 3 <= length (places_of p (at_ p x))); [|lia].
  change 3 with (length [x mod length p; y mod length p; z mod length p]). apply NoDup_incl_length.
  - pose proof (mod_apart (length p) x y L A ltac:(lia)). pose proof (mod_apart (length p) x z L ltac:(lia) C). pose proof (mod_apart (length p) y z L B ltac:(lia)).
    constructor; [cbn; intuition congruence|]. constructor; [cbn; intuition congruence|]. constructor; [cbn; tauto|constructor].
  - intros i [<-|[<-|[<-|[]]]]; apply in_places; (split; [apply Nat.mod_upper_bound; lia|]); unfold at_ in *; congruence.
Qed.

Lemma at_two p x : p <> [] -> each_place_twice p -> exists y, x < y /\ y < x + length p /\ at_ p y = at_ p x.
Proof.
  intros N E. assert (L : 0 < length p) by (destruct p; [congruence|cbn; lia]).
  pose proof (E (at_ p x) (at_in p x N)) as V. rewrite visits_places in V.
  assert (X : exists w, In w (places_of p (at_ p x)) /\ w <> x mod length p).
  { assert (ND : NoDup (places_of p (at_ p x))) by (apply NoDup_filter, seq_NoDup). destruct (places_of p (at_ p x)) as [|a [|b [|c l]]]; try discriminate.
    destruct (Nat.eq_dec a (x mod length p)) as [->|Na]; [exists b|exists a; split; [left|]; auto]. split; [right; left; auto|].
    inversion ND as [|? ? I _]; subst. intros ->. apply I. left; auto. }
  destruct X as (w & W & Nw). apply in_places in W as [W1 W2]. pose proof (Nat.mod_upper_bound x (length p) ltac:(lia)) as B.
  pose proof (Nat.div_mod x (length p) ltac:(lia)) as D. set (q := x / length p) in *.
  destruct (Nat.lt_ge_cases (x mod length p) w) as [C|C].
  - exists (w + q * length p). splits; try lia. unfold at_ at 1. rewrite Nat.mod_add, Nat.mod_small by lia. auto.
  - exists (w + (q + 1) * length p). splits; try lia. unfold at_ at 1. rewrite Nat.mod_add, Nat.mod_small by lia. auto.
Qed.

Lemma four p0 p1 p2 p3 u a : let p := [p0; p1; p2; p3] in
  at_ p (u + 0) = a -> at_ p (u + 1) = a + 1 -> at_ p (u + 2) = a -> at_ p (u + 3) = a + 1 -> dodges_between p a.
Proof.
  intros p. assert (Q : forall j, at_ p (u + j) = at_ p (u mod 4 + j)).
  { intros j. unfold at_. change (length p) with 4. rewrite Nat.add_mod_idemp_l by lia. auto. }
  rewrite !Q. pose proof (Nat.mod_upper_bound u 4 ltac:(lia)) as B. revert B. generalize (u mod 4). intros v B. clear Q.
  assert (D : v = 0 \/ v = 1 \/ v = 2 \/ v = 3) by lia. unfold dodges_between.
  destruct D as [-> | [-> | [-> | ->]]]; intros F0 F1 F2 F3; vm_compute in F0, F2; change (Nat.add a 1) with (a + 1) in *;
  [change (at_ p (0 + 1)) with p1 in F1; change (at_ p (0 + 3)) with p3 in F3
  |change (at_ p (1 + 1)) with p2 in F1; change (at_ p (1 + 3)) with p0 in F3
  |change (at_ p (2 + 1)) with p3 in F1; change (at_ p (2 + 3)) with p1 in F3
  |change (at_ p (3 + 1)) with p0 in F1; change (at_ p (3 + 3)) with p2 in F3]; unfold p; rewrite ?F0, ?F1, ?F2, ?F3; auto.
Qed.

Lemma plain_to p : p <> [] -> closed_path p -> path_class p HPlain ->
  (exists a h, 2 <= h /\ hunts_between p a h) \/ exists a, dodges_between p a.
Proof.
  intros N C P. assert (NS : ~ stationary p /\ each_place_twice p) by (inversion P; auto). destruct NS as [NS E].
  assert (L : 0 < length p) by (destruct p; [congruence|cbn; lia]).
  destruct (circle (at_ p) (length p) L (fun t => at_per p t N) (fun t => at_step p t N C)
    (fun x y z A B C D F => at_three p x y z N E A B C D F) (fun x => at_two p x N E)) as [(u & h & Eh & Hh & F)|(E4 & u & F1 & F2 & F3)].
  - left. exists (at_ p u), h. assert (H : hunts_between p (at_ p u) h).
    { split; auto. exists u. intros i Hi. rewrite <- F, <- Eh by auto. apply at_nth; auto. }
    split; auto. destruct (Nat.eq_dec h 1) as [->|]; [|lia]. exfalso. apply NS. clear - E Eh.
    destruct p as [|x [|y [|? ?]]]; try discriminate. exists x. pose proof (E x (or_introl eq_refl)) as V. unfold visits in V. cbn in V.
    destruct (Nat.eq_dec x x); [|congruence]. destruct (Nat.eq_dec y x) as [->|]; [|discriminate]. intros z [<-|[<-|[]]]; auto.
  - right. exists (at_ p u). set (a := at_ p u) in *.
    destruct p as [|p0 [|p1 [|p2 [|p3 [|? ?]]]]]; try discriminate. apply (four p0 p1 p2 p3 u a); auto. rewrite Nat.add_0_r. auto.
Qed.

Lemma count_rev (l : list nat) q : count_occ Nat.eq_dec (rev l) q = count_occ Nat.eq_dec l q.
Proof. induction l as [|x l IH]; auto. cbn [rev]. rewrite count_occ_app, IH. cbn. destruct (Nat.eq_dec x q); lia. Qed.

Lemma hunts_seq p a h : 0 < h -> hunts_between p a h -> exists r, skipn r p ++ firstn r p = seq a h ++ rev (seq a h).
Proof.
  intros H [L (k & K)]. set (r := k mod (2 * h)). exists r.
  apply nth_error_ext. intros i. destruct (Nat.lt_ge_cases i (2 * h)) as [T|T].
    - assert (Lr : r < 2 * h) by (apply Nat.mod_upper_bound; lia). pose proof (K i T) as Ki. replace i with (i mod length p) at 1 by (rewrite Nat.mod_small; lia).
      rewrite SymFacts3.nth_error_rotated by lia. rewrite L. unfold r. rewrite Nat.add_mod_idemp_r, (Nat.add_comm i) by lia. rewrite Ki. unfold out_and_in.
      destruct (Nat.ltb_spec i h).
      + rewrite nth_error_app1 by (rewrite seq_length; auto). rewrite (nth_error_nth' _ 0), seq_nth by (rewrite ?seq_length; auto). auto.
      + rewrite nth_error_app2 by (rewrite seq_length; auto). rewrite seq_length. rewrite (nth_error_nth' _ 0) by (rewrite rev_length, seq_length; lia).
        rewrite rev_nth by (rewrite seq_length; lia). rewrite seq_length, seq_nth by lia. f_equal. lia.
    - transitivity (@None nat); [apply nth_error_None; rewrite app_length, skipn_length, firstn_length; lia|]. symmetry. apply nth_error_None.
      rewrite app_length, rev_length, seq_length. lia.
Qed.

Lemma hunts_in p a h q : 0 < h -> hunts_between p a h -> (In q p <-> a <= q < a + h).
Proof.
  intros H B. destruct (hunts_seq p a h H B) as (r & E). rewrite <- in_seq. split.
  - intros I. rewrite <- (firstn_skipn r p) in I. assert (X : In q (skipn r p ++ firstn r p)) by (apply in_app_or in I; apply in_or_app; tauto).
    rewrite E in X. apply in_app_or in X as [X|X]; auto. apply in_rev; auto.
  - intros I. assert (X : In q (skipn r p ++ firstn r p)) by (rewrite E; apply in_or_app; auto).
    rewrite <- (firstn_skipn r p). apply in_app_or in X. apply in_or_app. tauto.
Qed.

Lemma to_plain p a h : 2 <= h -> hunts_between p a h -> path_class p HPlain.
Proof.
  intros H B. destruct (hunts_seq p a h ltac:(lia) B) as (r & E).
  assert (V : forall q, visits p q = 2 * count_occ Nat.eq_dec (seq a h) q).
  { intros q. unfold visits. rewrite <- (firstn_skipn r p), count_occ_app, Nat.add_comm, <- count_occ_app, E, count_occ_app, count_rev. lia. }
  assert (In_p : forall q, In q p <-> In q (seq a h)). { intros q. rewrite (count_occ_In Nat.eq_dec p), (count_occ_In Nat.eq_dec (seq a h)). fold (visits p q). rewrite V. lia. }
  apply SpecClass.pc_plain.
  - intros [q Q]. pose proof (Q a). pose proof (Q (a + 1)). rewrite !In_p, !in_seq in *. lia.
  - intros q I. rewrite V. apply In_p in I. pose proof (proj1 (NoDup_count_occ' Nat.eq_dec (seq a h)) (seq_NoDup h a) q I). lia.
Qed.

Lemma dodge_plain p a : dodges_between p a -> path_class p HPlain.
Proof.
  intros D. apply SpecClass.pc_plain.
  - intros [q Q]. assert (a = q /\ a + 1 = q); [|lia]. destruct D as [-> | ->]; split; apply Q; cbn; auto.
  - intros q I. unfold visits. assert (a <> a + 1) by lia. assert (q = a \/ q = a + 1) as [-> | ->] by (destruct D as [-> | ->]; cbn in I; intuition congruence);
    destruct D as [-> | ->]; cbn [count_occ]; repeat match goal with |- context [Nat.eq_dec ?x ?y] => destruct (Nat.eq_dec x y); try lia end.
Qed.
