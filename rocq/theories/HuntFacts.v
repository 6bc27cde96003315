(** Plain hunting. *)
From Coq Require Import Permutation.
From Verif Require Import Base Spec SpecBlock Class SpecClass SpecVec SpecPn SpecSym SpecHunt ListFacts Row RowFacts MulFacts GroupFacts SameStageVec Block SsvFacts BlockFacts
  PlaceNot PnFacts PnFacts2 PnFacts3 LawFacts ClassFacts ClassFacts2 ClassFacts3 TouchFacts SymFacts SymFacts2 SymFacts3 ShapeFacts.
Local Open Scope list_scope.

(** ** The changes *)

Lemma legal_pairs s m : forall i, i + 2 * m = s -> legal_from s i [].
Proof. induction m as [|m IH]; intros i H; [replace i with s by lia; constructor|]. apply lf_swap; [lia|]. apply IH. lia. Qed.

Lemma legal_pairs_one s m : forall i, i + 2 * m + 1 = s -> legal_from s i [s - 1].
Proof.
  induction m as [|m IH]; intros i H.
  - replace (s - 1) with i by lia. apply lf_place; [lia|]. replace (i + 1) with s by lia. constructor.
  - apply lf_swap; [lia|]. apply IH. lia.
Qed.

Lemma parts_of n : (Nat.even n = true /\ exists m, n = 2 * m) \/ (Nat.even n = false /\ exists m, n = 2 * m + 1).
Proof.
  destruct (Nat.even n) eqn:E; [left|right]; split; auto.
  - apply Nat.even_spec in E. destruct E as [m ->]. exists m. lia.
  - assert (O : Nat.odd n = true) by (unfold Nat.odd; rewrite E; auto). apply Nat.odd_spec in O. destruct O as [m ->]. exists m. lia.
Qed.

Lemma hunting_legal n : 0 < n -> Forall (fun pn => legal pn /\ pn_stage pn = n) (hunting n).
Proof.
  intros H. unfold hunting. apply Forall_cons; [|apply Forall_cons; [|apply Forall_nil]]; (split; [split; [exact H|]|reflexivity]); cbn [pn_stage pn_places];
    destruct (parts_of n) as [[-> [m E]]|[-> [m E]]].
  - apply (legal_pairs n m). lia.
  - apply (legal_pairs_one n m). lia.
  - apply lf_place; [lia|]. apply (legal_pairs_one n (m - 1)). lia.
  - apply lf_place; [lia|]. apply (legal_pairs n m). lia.
Qed.

(** Where the bell which goes to place [p] comes from. *)
Definition first_from (n p : nat) : nat := if Nat.even p then (if p + 1 <? n then p + 1 else p) else p - 1.
Definition second_from (n p : nat) : nat := if p =? 0 then 0 else if Nat.even p then p - 1 else if p + 1 <? n then p + 1 else p.

Lemma rings_swaps made (n : nat) : forall m i k, (forall p, i <= p < i + 2 * m -> ~ In p made) -> (forall p, i + 2 * m <= p < i + 2 * m + k -> In p made) ->
  rings made i (seq i (2 * m + k)) (flat_map (fun j => [i + 2 * j + 1; i + 2 * j]) (seq 0 m) ++ seq (i + 2 * m) k).
Proof.
  induction m as [|m IH]; intros i k Hn Hk.
  - cbn [seq flat_map app Nat.mul Nat.add]. replace (i + 0) with i by lia. assert (G : forall k i, (forall p, i <= p < i + k -> In p made) -> rings made i (seq i k) (seq i k)).
    { clear. induction k as [|k IH]; intros i H; cbn [seq]; [constructor|]. apply rings_place; [apply H; lia|]. rewrite Nat.add_1_r. apply IH. intros. apply H. lia. }
    apply G. intros p Hp. apply Hk. lia.
  - replace (2 * S m + k) with (S (S (2 * m + k))) by lia. cbn [seq flat_map app]. replace (i + 2 * 0 + 1) with (S i) by lia. replace (i + 2 * 0) with i by lia.
    apply rings_swap; [apply Hn; lia|apply Hn; lia|]. replace (S (S i)) with (i + 2) by lia.
    replace (flat_map (fun j => [i + 2 * j + 1; i + 2 * j]) (seq 1 m)) with (flat_map (fun j => [i + 2 + 2 * j + 1; i + 2 + 2 * j]) (seq 0 m)).
    + replace (i + 2 * S m) with (i + 2 + 2 * m) by lia. apply IH; intros p Hp; [apply Hn|apply Hk]; lia.
    + rewrite <- seq_shift. rewrite !flat_map_concat_map, map_map. f_equal. apply map_ext. intros j. f_equal; [lia|]. f_equal. lia.
Qed.

Lemma pairs_map (f : nat -> nat) m : forall i, (forall j, j < m -> f (i + 2 * j) = i + 2 * j + 1 /\ f (i + 2 * j + 1) = i + 2 * j) ->
  flat_map (fun j => [i + 2 * j + 1; i + 2 * j]) (seq 0 m) = map f (seq i (2 * m)).
Proof.
  induction m as [|m IH]; intros i H; auto.
  replace (2 * S m) with (S (S (2 * m))) by lia. cbn [seq flat_map map app]. destruct (H 0 ltac:(lia)) as [A B].
  replace (i + 2 * 0 + 1) with (S i) in * by lia. replace (i + 2 * 0) with i in * by lia. rewrite A, B. f_equal. f_equal.
  replace (S (S i)) with (i + 2) by lia. rewrite <- IH.
  - rewrite <- seq_shift. rewrite !flat_map_concat_map, map_map. f_equal. apply map_ext. intros j. f_equal; [lia|]. f_equal. lia.
  - intros j Hj. destruct (H (S j) ltac:(lia)) as [C D]. replace (i + 2 * S j) with (i + 2 + 2 * j) in * by lia. auto.
Qed.

Lemma even2 j : Nat.even (2 * j) = true. Proof. apply Nat.even_spec. exists j. auto. Qed.
Lemma even21 j : Nat.even (2 * j + 1) = false. Proof. rewrite Nat.add_1_r, Nat.even_succ, <- Nat.negb_even, even2. auto. Qed.
Lemma even22 j : Nat.even (1 + 2 * j + 1) = true. Proof. replace (1 + 2 * j + 1) with (2 * (j + 1)) by lia. apply even2. Qed.
Lemma even12 j : Nat.even (1 + 2 * j) = false. Proof. rewrite Nat.add_comm. apply even21. Qed.

Ltac bools := repeat match goal with |- context [if ?x <? ?y then _ else _] => destruct (Nat.ltb_spec x y) | |- context [if ?x =? ?y then _ else _] => destruct (Nat.eqb_spec x y) end; try lia.

Lemma first_rings n : 0 < n -> rings (if Nat.even n then [] else [n - 1]) 0 (seq 0 n) (map (first_from n) (seq 0 n)).
Proof.
  intros H. destruct (parts_of n) as [[-> [m E]]|[-> [m E]]].
  - pose proof (rings_swaps [] n m 0 0) as R. rewrite (pairs_map (first_from n)) in R.
    + cbn [seq] in R. rewrite app_nil_r in R. replace (2 * m + 0) with n in R by lia. rewrite <- E in R. apply R; auto; intros; lia.
    + intros j Hj. cbn [Nat.add]. unfold first_from. rewrite even2, even21. bools.
  - pose proof (rings_swaps [n - 1] n m 0 1) as R. rewrite (pairs_map (first_from n)) in R.
    + replace (2 * m + 1) with n in R by lia.
      replace (map (first_from n) (seq 0 (2 * m)) ++ seq (0 + 2 * m) 1) with (map (first_from n) (seq 0 n)) in R.
      * apply R; cbn [In]; intros; lia.
      * rewrite E, seq_app, map_app. f_equal. cbn [seq map]. f_equal. cbn [Nat.add]. unfold first_from. rewrite even2. bools.
    + intros j Hj. cbn [Nat.add]. unfold first_from. rewrite even2, even21. bools.
Qed.

Lemma second_seq n k : n = S k -> map (second_from n) (seq 0 n) = 0 :: map (second_from n) (seq 1 k).
Proof. intros E. rewrite E at 2. reflexivity. Qed.

Lemma second_rings n : 0 < n -> rings (if Nat.even n then [0; n - 1] else [0]) 0 (seq 0 n) (map (second_from n) (seq 0 n)).
Proof.
  intros H. destruct (parts_of n) as [[-> [m E]]|[-> [m E]]].
  - pose proof (rings_swaps [0; n - 1] n (m - 1) 1 1) as R. rewrite (pairs_map (second_from n)) in R.
    + set (k := 2 * (m - 1) + 1) in *. assert (Ek : n = S k) by (unfold k; lia). rewrite (second_seq n k Ek). replace (seq 0 n) with (0 :: seq 1 k) by (rewrite Ek; reflexivity).
      apply rings_place; [left; auto|]. change (0 + 1) with 1.
      replace (map (second_from n) (seq 1 k)) with (map (second_from n) (seq 1 (2 * (m - 1))) ++ seq (1 + 2 * (m - 1)) 1).
      * apply R; cbn [In]; intros; lia.
      * unfold k. rewrite seq_app, map_app. f_equal. cbn [seq map]. f_equal. unfold second_from. rewrite even12. bools.
    + intros j Hj. unfold second_from. rewrite even22, even12. bools.
  - pose proof (rings_swaps [0] n m 1 0) as R. rewrite (pairs_map (second_from n)) in R.
    + assert (Ek : n = S (2 * m)) by lia. rewrite (second_seq n (2 * m) Ek). replace (seq 0 n) with (0 :: seq 1 (2 * m)) by (rewrite Ek; reflexivity).
      apply rings_place; [left; auto|]. change (0 + 1) with 1.
      cbn [seq] in R. rewrite app_nil_r, (Nat.add_0_r (2 * m)) in R. apply R; cbn [In]; intros; lia.
    + intros j Hj. unfold second_from. rewrite even22, even12. bools.
Qed.

(** ** The rows *)

Lemma even_mod a n : Nat.even (a mod (2 * n)) = Nat.even a.
Proof.
  destruct n as [|n]; [cbn; auto|]. rewrite (Nat.div_mod a (2 * S n)) at 2 by lia. rewrite Nat.even_add, Nat.even_mul, Nat.even_mul. cbn [Nat.even orb].
  destruct (Nat.even (a mod (2 * S n))); auto.
Qed.

Definition start_of (n b : nat) : nat := if Nat.even b then b else 2 * n - 1 - b.

Lemma start_even n b : b < n -> Nat.even (start_of n b) = true.
Proof.
  intros H. unfold start_of. destruct (parts_of b) as [[-> [m E]]|[-> [m E]]]; subst b; [apply even2|]. replace (2 * n - 1 - (2 * m + 1)) with (2 * (n - 1 - m)) by lia. apply even2.
Qed.

Lemma start_lt n b : b < n -> start_of n b < 2 * n.
Proof. intros H. unfold start_of. destruct (Nat.even b); lia. Qed.

Lemma out_in_lt n k : k < 2 * n -> out_and_in n k < n.
Proof. unfold out_and_in. intros H. bools. Qed.

(** One step along the path undone. *)
Lemma back_step n x : 0 < n -> x < 2 * n ->
  (if Nat.even x then first_from n (out_and_in n ((x + 1) mod (2 * n))) else second_from n (out_and_in n ((x + 1) mod (2 * n)))) = out_and_in n x.
Proof.
  intros Hn Hx. destruct (Nat.eq_dec (x + 1) (2 * n)) as [E|E].
  - rewrite E, Nat.mod_same by lia. replace x with (2 * (n - 1) + 1) by lia. rewrite even21. unfold out_and_in, second_from. bools.
  - rewrite Nat.mod_small by lia. destruct (parts_of x) as [[-> [m Em]]|[-> [m Em]]]; unfold out_and_in.
    + destruct (Nat.ltb_spec x n) as [L|L]; destruct (Nat.ltb_spec (x + 1) n) as [L'|L']; try lia.
      * unfold first_from. rewrite Em, even21. lia.
      * replace (2 * n - 1 - (x + 1)) with (2 * m) by lia. unfold first_from. rewrite even2. bools.
      * replace (2 * n - 1 - (x + 1)) with (2 * (n - 1 - m)) by lia. unfold first_from. rewrite even2. bools.
    + destruct (Nat.ltb_spec x n) as [L|L]; destruct (Nat.ltb_spec (x + 1) n) as [L'|L']; try lia.
      * unfold second_from. replace (x + 1) with (2 * (m + 1)) by lia. rewrite even2. bools.
      * replace (2 * n - 1 - (x + 1)) with (2 * m + 1) by lia. unfold second_from. rewrite even21. bools.
      * replace (2 * n - 1 - (x + 1)) with (2 * (n - 2 - m) + 1) by lia. unfold second_from. rewrite even21. bools.
Qed.

Definition hrow (n t : nat) : row := crs n (trof n (hunting n)) t.

Lemma hunting_nonempty n : hunting n <> [].
Proof. discriminate. Qed.

Lemma trof_hunting n t : 0 < n -> trof n (hunting n) t = map (if Nat.even t then first_from n else second_from n) (seq 0 n).
Proof.
  intros H. destruct (trof_ok n (hunting n) H (hunting_nonempty n) (hunting_legal n H) t) as (pn & E & R). rewrite rounds_seq in R.
  change (length (hunting n)) with 2 in E. destruct (parts_of t) as [[-> [m Em]]|[-> [m Em]]].
  - replace (t mod 2) with 0 in E by (rewrite Em, Nat.mul_comm, Nat.mod_mul; lia). injection E as <-. apply (rings_fun _ _ _ _ _ R). apply first_rings; auto.
  - replace (t mod 2) with 1 in E by (rewrite Em, Nat.add_comm, Nat.mul_comm, Nat.mod_add; [reflexivity|lia]). injection E as <-. apply (rings_fun _ _ _ _ _ R). apply second_rings; auto.
Qed.

Lemma hrow_v n t : 0 < n -> vrow n (hrow n t).
Proof. intros H. apply crs_v; auto. intros. apply trof_v; auto using hunting_legal, hunting_nonempty. Qed.

Lemma hunting_place_lt n b t : 0 < n -> hunting_place n b t < n.
Proof. intros H. apply out_in_lt. apply Nat.mod_upper_bound. lia. Qed.

Lemma hrow_place n b t : b < n -> nth_error (hrow n t) (hunting_place n b t) = Some b.
Proof.
  intros Hb. assert (Hn : 0 < n) by lia. revert b Hb. induction t as [|t IH]; intros b Hb.
  - unfold hunting_place. fold (start_of n b). rewrite Nat.add_0_r, Nat.mod_small by (apply start_lt; auto).
    assert (E : out_and_in n (start_of n b) = b) by (unfold out_and_in, start_of; destruct (Nat.even b); bools).
    rewrite E. unfold hrow. cbn [crs]. rewrite rounds_seq. rewrite (nth_error_nth' _ 0), seq_nth; rewrite ?seq_length; auto.
  - pose proof (IH b Hb) as I. pose proof (hunting_place_lt n b (S t) Hn) as L. pose proof (hunting_place_lt n b t Hn) as L0.
    pose proof (hrow_v n (S t) Hn) as [_ V]. pose proof (hrow_v n t Hn) as [_ V0].
    rewrite (nth_error_nth' _ 0) by lia. apply (nth_error_nth _ _ 0) in I. f_equal. transitivity (nth (hunting_place n b t) (hrow n t) 0); [|exact I]. unfold hrow at 1. cbn [crs].
    rewrite nth_rmul by (rewrite trof_hunting, map_length, seq_length; auto). unfold hrow. f_equal.
    rewrite trof_hunting by auto. rewrite (nth_indep _ 0 ((if Nat.even t then first_from n else second_from n) 0)) by (rewrite map_length, seq_length; auto).
    rewrite map_nth, seq_nth by auto. cbn [Nat.add]. unfold hunting_place. fold (start_of n b).
    set (x := (start_of n b + t) mod (2 * n)). assert (Hx : x < 2 * n) by (apply Nat.mod_upper_bound; lia).
    replace ((start_of n b + S t) mod (2 * n)) with ((x + 1) mod (2 * n)) by (unfold x; rewrite Nat.add_mod_idemp_l by lia; f_equal; lia).
    rewrite <- (back_step n x Hn Hx). replace (Nat.even x) with (Nat.even t). 1: destruct (Nat.even t); auto.
    unfold x. rewrite even_mod, Nat.even_add, start_even by auto. destruct (Nat.even t); auto.
Qed.

Lemma hrow_only n p b t : b < n -> nth_error (hrow n t) p = Some b -> p = hunting_place n b t.
Proof.
  intros Hb E. assert (Hn : 0 < n) by lia. pose proof (hrow_place n b t Hb) as P. destruct (hrow_v n t Hn) as [(_ & N & _) _].
  apply (proj1 (NoDup_nth_error _) N); [apply nth_error_Some; congruence|congruence].
Qed.

Lemma mod_eq_sub a b m : 0 < m -> a <= b -> a mod m = b mod m -> exists k, b = a + k * m.
Proof.
  intros Hm L E. exists (b / m - a / m). pose proof (Nat.div_mod a m ltac:(lia)). pose proof (Nat.div_mod b m ltac:(lia)).
  pose proof (Nat.div_le_mono a b m ltac:(lia) L). nia.
Qed.

(** When is a bell in the same place? *)
Lemma same_place n b t u : b < n -> hunting_place n b t = hunting_place n b u ->
  (start_of n b + t) mod (2 * n) = (start_of n b + u) mod (2 * n) \/
  (start_of n b + t) mod (2 * n) + (start_of n b + u) mod (2 * n) = 2 * n - 1.
Proof.
  intros Hb. unfold hunting_place. fold (start_of n b).
  pose proof (Nat.mod_upper_bound (start_of n b + t) (2 * n) ltac:(lia)). pose proof (Nat.mod_upper_bound (start_of n b + u) (2 * n) ltac:(lia)).
  unfold out_and_in. bools.
Qed.

Lemma hrow_even n t u : 0 < n -> Nat.even t = Nat.even u -> forall b, b < n -> hunting_place n b t = hunting_place n b u -> t mod (2 * n) = u mod (2 * n).
Proof.
  intros Hn Ev b Hb E. destruct (same_place n b t u Hb E) as [Q|Q].
  - assert (C : forall t u, t <= u -> (start_of n b + t) mod (2 * n) = (start_of n b + u) mod (2 * n) -> t mod (2 * n) = u mod (2 * n)).
    { clear - Hn. intros t u L Q. destruct (mod_eq_sub _ _ (2 * n) ltac:(lia) (proj1 (Nat.add_le_mono_l _ _ (start_of n b)) L) Q) as [k Ek]. replace u with (t + k * (2 * n)) by lia. rewrite Nat.mod_add; lia. }
    destruct (Nat.le_ge_cases t u); [|symmetry]; apply C; auto.
  - exfalso. apply (f_equal Nat.even) in Q. rewrite Nat.even_add, !even_mod, !Nat.even_add, Ev, start_even in Q by auto. replace (2 * n - 1) with (2 * (n - 1) + 1) in Q by lia.
    rewrite even21 in Q. destruct (Nat.even u); discriminate.
Qed.

Lemma place_period n b t : 0 < n -> hunting_place n b (t mod (2 * n)) = hunting_place n b t.
Proof. intros H. unfold hunting_place. rewrite Nat.add_mod_idemp_r by lia. auto. Qed.

Lemma hrow_ext n t u : 0 < n -> (forall b, b < n -> hunting_place n b t = hunting_place n b u) -> hrow n t = hrow n u.
Proof.
  intros Hn H. pose proof (hrow_v n t Hn) as [V L]. pose proof (hrow_v n u Hn) as [V' L']. apply (nth_ext _ _ 0 0); [congruence|]. intros p Hp. rewrite L in Hp.
  assert (B : nth p (hrow n t) 0 < n) by (pose proof (valid_row_nth_lt _ p V) as X; rewrite L in X; auto).
  assert (E : nth_error (hrow n t) p = Some (nth p (hrow n t) 0)) by (apply nth_error_nth'; lia).
  pose proof (hrow_only n p _ t B E) as Q. rewrite H in Q by auto. pose proof (hrow_place n _ u B) as P. rewrite <- Q in P. symmetry. apply nth_error_nth. auto.
Qed.

Lemma hrow_period n t : 0 < n -> hrow n (t mod (2 * n)) = hrow n t.
Proof. intros H. apply hrow_ext; auto. intros. apply place_period; auto. Qed.

Lemma hunting_ends n : 0 < n -> ends_after n 2 (trof n (hunting n)) n.
Proof.
  intros Hn. split; auto. split.
  - change (hrow n (n * 2) = hrow n 0). rewrite <- (hrow_period n (n * 2)), Nat.mul_comm, Nat.mod_same by lia. auto.
  - intros j Hj E. change (hrow n (j * 2) = hrow n 0) in E.
    assert (P : hunting_place n 0 (j * 2) = hunting_place n 0 0).
    { apply (hrow_only n _ 0 0 Hn). rewrite <- E. apply hrow_place; auto. }
    apply hrow_even in P; auto; [|rewrite Nat.mul_comm; apply even2]. rewrite (Nat.mod_small 0), Nat.mod_small in P; lia.
Qed.

Lemma hrow_inj n t u : 3 <= n -> t < 2 * n -> u < 2 * n -> hrow n t = hrow n u -> t = u.
Proof.
  intros Hn Ht Hu E.
  assert (P : forall b, b < n -> hunting_place n b t = hunting_place n b u) by (intros b Hb; apply (hrow_only n _ b u Hb); rewrite <- E; apply hrow_place; auto).
  destruct (Bool.bool_dec (Nat.even t) (Nat.even u)) as [Ev|Ev].
  - pose proof (hrow_even n t u ltac:(lia) Ev 0 ltac:(lia) (P 0 ltac:(lia))) as Q. rewrite !Nat.mod_small in Q; auto.
  - assert (D : forall b, b < n -> (start_of n b + t) mod (2 * n) + (start_of n b + u) mod (2 * n) = 2 * n - 1).
    { intros b Hb. destruct (same_place n b t u Hb (P b Hb)) as [Q|Q]; auto. exfalso. apply Ev. apply (f_equal Nat.even) in Q. rewrite !even_mod, !Nat.even_add, start_even in Q by auto.
      destruct (Nat.even t), (Nat.even u); auto; discriminate. }
    pose proof (D 0 ltac:(lia)) as D0. pose proof (D 2 ltac:(lia)) as D2. unfold start_of in D0, D2. cbn [Nat.even] in D0, D2. cbn [Nat.add] in D0. rewrite !Nat.mod_small in D0 by auto.
    exfalso. assert (C : forall x, x < 2 * n -> (2 + x) mod (2 * n) = 2 + x /\ 2 + x < 2 * n \/ (2 + x) mod (2 * n) = 2 + x - 2 * n /\ 2 * n <= 2 + x).
    { intros x Hx. destruct (Nat.lt_ge_cases (2 + x) (2 * n)) as [L|L]; [left; split; auto; apply Nat.mod_small; auto|right; split; auto].
      replace (2 + x) with (2 + x - 2 * n + 1 * (2 * n)) at 1 by lia. rewrite Nat.mod_add, Nat.mod_small; lia. }
    destruct (C t Ht) as [[Q1 ?]|[Q1 ?]]; destruct (C u Hu) as [[Q2 ?]|[Q2 ?]]; rewrite Q1, Q2 in D2; lia.
Qed.
