(** Facts about [num_matching_rows] on machine words. *)
From Verif Require Import Base Bell Stage Row Utils Mask Music SameStageVec Block PlaceNot Class Method Program Machine
  Spec SpecMask ListFacts MaskFacts MusicFacts MusicFacts2.
Local Open Scope list_scope.

Section Build.
Context (bd : build).
Notation w := (width bd).

Lemma word_fits n : (n < 2 ^ w)%N -> word bd n = Ret n.
Proof. intros H. unfold word. apply N.ltb_lt in H. rewrite H. reflexivity. Qed.
Lemma word_sub_fits a b : (b <= a)%N -> word_sub bd a b = Ret (a - b)%N.
Proof. intros H. unfold word_sub. apply N.leb_le in H. rewrite H. reflexivity. Qed.

Lemma m_count_elems_ok es : forall n i j, length (bells_written es) <= n ->
  (N.of_nat (i + count_any es) < 2 ^ w)%N -> (N.of_nat (j + count_glob es) < 2 ^ w)%N ->
  m_count_elems bd es (N.of_nat n) (N.of_nat i) (N.of_nat j) =
  Ret (N.of_nat (n - length (bells_written es)), N.of_nat (i + count_any es), N.of_nat (j + count_glob es)).
Proof.
  induction es as [|[b| |] es IH]; intros n i j B I J; cbn [m_count_elems bells_written count_any count_glob length] in *.
  - rewrite Nat.sub_0_r, !Nat.add_0_r. reflexivity.
  - rewrite word_sub_fits by lia. cbn [bind]. replace (N.of_nat n - 1)%N with (N.of_nat (n - 1)) by lia.
    rewrite IH by lia. do 3 f_equal. lia.
  - rewrite word_fits by lia. cbn [bind]. replace (N.of_nat i + 1)%N with (N.of_nat (i + 1)) by lia.
    rewrite IH by lia. do 3 f_equal; lia.
  - rewrite word_fits by lia. cbn [bind]. replace (N.of_nat j + 1)%N with (N.of_nat (j + 1)) by lia.
    rewrite IH by lia. do 3 f_equal; lia.
Qed.

Lemma m_choice_loop_ok (n k : N) : (k <= n)%N -> (n < 2 ^ w)%N -> forall todo i num den,
  1 <= i -> (N.of_nat (i + todo) <= k + 1)%N -> (den <> 0)%N ->
  choice_loop w n k i todo num den <> Panic ->
  m_choice_loop bd n k (N.of_nat i) todo num den = choice_loop w n k i todo num den /\
  (forall a d, choice_loop w n k i todo num den = Ret (Some (a, d)) -> (d <> 0)%N).
Proof.
  intros K M. induction todo as [|todo IH]; intros i num den I L D NP; cbn [m_choice_loop choice_loop] in *.
  - split; auto. intros a d [= <- <-]. auto.
  - rewrite word_sub_fits by lia. cbn [bind]. rewrite word_fits by lia. cbn [bind].
    destruct (N.ltb_spec (num * (n - k + N.of_nat i)) (2 ^ w)) as [A|A]; [|split; [auto|discriminate]].
    destruct (N.ltb_spec (den * N.of_nat i) (2 ^ w)) as [B|B]; [|contradiction].
    rewrite word_fits by auto. cbn [bind]. replace (N.of_nat i + 1)%N with (N.of_nat (S i)) by lia.
    apply IH; auto; try lia.
Qed.

Lemma m_choice_ok n k : (0 < w)%N -> k <= n -> (N.of_nat n < 2 ^ w)%N ->
  m_choice bd (N.of_nat n) (N.of_nat k) = choice w (N.of_nat n) (N.of_nat k).
Proof.
  intros W L M. unfold m_choice. rewrite word_sub_fits by lia. cbn [bind].
  assert (NP : choice w (N.of_nat n) (N.of_nat k) <> Panic).
  { rewrite choice_ok by auto. destruct (_ <? _)%N; discriminate. }
  unfold choice in *. destruct (N.ltb_spec (N.of_nat n) (N.of_nat k)); [lia|].
  set (k' := N.min (N.of_nat k) (N.of_nat n - N.of_nat k)) in *.
  assert (NL : choice_loop w (N.of_nat n) k' 1 (N.to_nat k') 1 1 <> Panic) by (intros E; rewrite E in NP; apply NP; reflexivity).
  destruct (m_choice_loop_ok (N.of_nat n) k' ltac:(lia) M (N.to_nat k') 1 1%N 1%N ltac:(lia) ltac:(lia) ltac:(lia) NL) as [E D].
  change (N.of_nat 1) with 1%N in E. rewrite E. destruct (choice_loop _ _ _ _ _ _ _) as [[[a d]|]| | |]; auto. cbn [bind].
  specialize (D a d eq_refl). apply N.eqb_neq in D. rewrite D. reflexivity.
Qed.

Lemma factorial_big n : forall f, checked_factorial w n = Some f -> (2 ^ (N.of_nat n - 1) <= f)%N /\ (0 < n -> (f < 2 ^ w)%N).
Proof.
  induction n as [|n IH]; intros f H; [injection H as <-; split; [cbn; lia|lia]|]. cbn [checked_factorial] in H.
  destruct (checked_factorial w n) as [g|]; [|discriminate]. destruct (IH g eq_refl) as [A B].
  destruct (N.ltb_spec (g * N.of_nat (S n)) (2 ^ w)); [|discriminate]. injection H as <-.
  split; [|auto]. destruct n as [|n]; [cbn in *; lia|].
  replace (N.of_nat (S (S n)) - 1)%N with (N.succ (N.of_nat (S n) - 1)) by lia. rewrite N.pow_succ_r'. nia.
Qed.

Lemma m_checked_factorial_ok n : m_checked_factorial bd (N.of_nat n) = checked_factorial w n.
Proof.
  unfold m_checked_factorial. destruct (N.ltb_spec (w + 1) (N.of_nat n)) as [L|L]; [|rewrite Nat2N.id; auto].
  destruct (checked_factorial w n) as [f|] eqn:E; auto. apply factorial_big in E as [A B]. specialize (B ltac:(lia)).
  assert (2 ^ w <= 2 ^ (N.of_nat n - 1))%N by (apply N.pow_le_mono_r; lia). lia.
Qed.

Lemma m_num_matching_value es s : (0 < w)%N -> (N.of_nat s < 2 ^ w)%N -> (N.of_nat (length es) < 2 ^ w)%N ->
  length (bells_written es) + count_any es <= s ->
  m_num_matching_rows bd es (N.of_nat s) =
    let u := s - length (bells_written es) in let i := count_any es in let j := count_glob es in
    if (N.of_nat (binomial u i * fact (Nat.min i (u - i))) <? 2 ^ w)%N then
      if (N.of_nat (fact (u - i + (i - 1))) <? 2 ^ w)%N then
        if (N.of_nat (fact (j - 1)) <? 2 ^ w)%N then
          res <- word bd (N.of_nat (binomial u i) * (N.of_nat (fact (u - i + (i - 1))) / N.of_nat (fact (j - 1))))%N;; Ret (Some res)
        else Ret None
      else Ret None
    else Ret None.
Proof.
  intros W S Le L. cbv zeta. unfold m_num_matching_rows. rewrite length_elems in Le.
  change 0%N with (N.of_nat 0). rewrite m_count_elems_ok by lia. cbn [bind]. rewrite !Nat.add_0_l.
  rewrite m_choice_ok by (auto; lia). rewrite choice_ok by (auto; lia). destruct (N.ltb _ _); auto. cbn [bind].
  rewrite word_sub_fits by lia. cbn [bind]. rewrite word_fits by lia. cbn [bind].
  replace (N.of_nat (s - length (bells_written es)) - N.of_nat (count_any es) + (N.of_nat (count_any es) - 1))%N
    with (N.of_nat (s - length (bells_written es) - count_any es + (count_any es - 1))) by lia.
  replace (N.of_nat (count_glob es) - 1)%N with (N.of_nat (count_glob es - 1)) by lia.
  rewrite !m_checked_factorial_ok, !checked_factorial_ok by auto.
  destruct (N.ltb (N.of_nat (fact (s - length (bells_written es) - count_any es + (count_any es - 1)))) _); auto.
  destruct (N.ltb (N.of_nat (fact (count_glob es - 1))) _); auto.
Qed.

(** A regex which is too long: with overflow checks. *)
Lemma m_count_elems_few es : forall n i j, n < length (bells_written es) -> checked bd = true ->
  (N.of_nat (i + count_any es) < 2 ^ w)%N -> (N.of_nat (j + count_glob es) < 2 ^ w)%N ->
  m_count_elems bd es (N.of_nat n) (N.of_nat i) (N.of_nat j) = Panic.
Proof.
  induction es as [|[b| |] es IH]; intros n i j B C I J; cbn [m_count_elems bells_written count_any count_glob length] in *; [lia| | |].
  - destruct n as [|n].
    + unfold word_sub. cbn. rewrite C. reflexivity.
    + rewrite word_sub_fits by lia. cbn [bind]. replace (N.of_nat (S n) - 1)%N with (N.of_nat n) by lia. apply IH; auto; lia.
  - rewrite word_fits by lia. cbn [bind]. replace (N.of_nat i + 1)%N with (N.of_nat (i + 1)) by lia. apply IH; auto; lia.
  - rewrite word_fits by lia. cbn [bind]. replace (N.of_nat j + 1)%N with (N.of_nat (j + 1)) by lia. apply IH; auto; lia.
Qed.

Lemma m_num_matching_long es s : (N.of_nat s < 2 ^ w)%N -> (N.of_nat (length es) < 2 ^ w)%N -> checked bd = true ->
  s < length (bells_written es) + count_any es -> m_num_matching_rows bd es (N.of_nat s) = Panic.
Proof.
  intros S Le C L. unfold m_num_matching_rows. rewrite length_elems in Le. change 0%N with (N.of_nat 0).
  destruct (Nat.leb_spec (length (bells_written es)) s).
  - rewrite m_count_elems_ok by lia. cbn [bind]. unfold m_choice, word_sub.
    destruct (N.leb_spec (N.of_nat (0 + count_any es)) (N.of_nat (s - length (bells_written es)))); [lia|]. rewrite C. reflexivity.
  - rewrite m_count_elems_few by (auto; lia). reflexivity.
Qed.

(** Without overflow checks, the number of bells left over wraps around. *)
Lemma m_count_elems_wrap es : forall (n : N) i j, checked bd = false -> (n < 2 ^ w)%N -> (N.of_nat (length (bells_written es)) <= 2 ^ w)%N ->
  (N.of_nat (i + count_any es) < 2 ^ w)%N -> (N.of_nat (j + count_glob es) < 2 ^ w)%N ->
  m_count_elems bd es n (N.of_nat i) (N.of_nat j) =
  Ret (if (N.of_nat (length (bells_written es)) <=? n)%N then (n - N.of_nat (length (bells_written es)))%N
       else (n + 2 ^ w - N.of_nat (length (bells_written es)))%N, N.of_nat (i + count_any es), N.of_nat (j + count_glob es)).
Proof.
  induction es as [|[b| |] es IH]; intros n i j C M B I J; cbn [m_count_elems bells_written count_any count_glob length] in *.
  - rewrite !Nat.add_0_r. destruct (N.leb_spec (N.of_nat 0) n); [|lia]. do 3 f_equal. lia.
  - unfold word_sub. rewrite C. destruct (N.leb_spec 1 n); cbn [bind].
    + rewrite IH by (auto; lia). do 3 f_equal.
      destruct (N.leb_spec (N.of_nat (length (bells_written es))) (n - 1)), (N.leb_spec (N.of_nat (S (length (bells_written es)))) n); lia.
    + rewrite IH by (auto; lia). do 3 f_equal.
      destruct (N.leb_spec (N.of_nat (length (bells_written es))) (n + 2 ^ w - 1)), (N.leb_spec (N.of_nat (S (length (bells_written es)))) n); lia.
  - rewrite word_fits by lia. cbn [bind]. replace (N.of_nat i + 1)%N with (N.of_nat (i + 1)) by lia. rewrite IH by (auto; lia).
    do 3 f_equal. lia.
  - rewrite word_fits by lia. cbn [bind]. replace (N.of_nat j + 1)%N with (N.of_nat (j + 1)) by lia. rewrite IH by (auto; lia).
    do 3 f_equal. lia.
Qed.

Lemma pow_big : (4 <= w)%N -> (w + 3 <= 2 ^ (w - 1))%N /\ (2 ^ w = 2 * 2 ^ (w - 1))%N.
Proof.
  intros W. split; [|rewrite <- N.pow_succ_r'; f_equal; lia].
  assert (G : forall n : nat, (N.of_nat n + 7 <= 2 ^ (N.of_nat n + 3))%N).
  { induction n as [|n IH]; [vm_compute; discriminate|]. replace (N.of_nat (S n) + 3)%N with (N.succ (N.of_nat n + 3)) by lia.
    rewrite N.pow_succ_r'. lia. }
  specialize (G (N.to_nat (w - 4))). rewrite N2Nat.id in G. replace (w - 4 + 3)%N with (w - 1)%N in G by lia. lia.
Qed.

Lemma m_num_matching_too_many es s : (4 <= w)%N -> (N.of_nat s < 2 ^ w)%N -> (N.of_nat (length es) < 2 ^ (w - 1))%N -> checked bd = false ->
  s < length (bells_written es) -> m_num_matching_rows bd es (N.of_nat s) = Ret None.
Proof.
  intros W S Le C L. destruct (pow_big W) as [P1 P2]. unfold m_num_matching_rows. rewrite length_elems in Le. change 0%N with (N.of_nat 0).
  rewrite m_count_elems_wrap by (auto; lia). cbn [bind]. rewrite !Nat.add_0_l.
  destruct (N.leb_spec (N.of_nat (length (bells_written es))) (N.of_nat s)); [lia|].
  set (u := (N.of_nat s + 2 ^ w - N.of_nat (length (bells_written es)))%N). rewrite <- (N2Nat.id u).
  rewrite m_choice_ok by lia. rewrite choice_ok by lia. destruct (_ <? _)%N; cbn [bind]; [|reflexivity].
  rewrite word_sub_fits by lia. cbn [bind]. rewrite word_fits by lia. cbn [bind].
  unfold m_checked_factorial. match goal with |- context [(w + 1 <? ?x)%N] => replace (w + 1 <? x)%N with true end; [reflexivity|].
  symmetry. apply N.ltb_lt. lia.
Qed.
End Build.
