(** Lemmas for C156: counting in lists which have every row equally often. *)
From Coq Require Import Permutation.
From Verif Require Import Base Spec SpecMask ListFacts Row RowFacts MulFacts CourseExtentFacts.
Local Open Scope list_scope.

Lemma filter_rounds_of {A} (f : A -> bool) l : forall k, length (filter f (concat (repeat l k))) = k * length (filter f l).
Proof. induction k as [|k IH]; auto. cbn [repeat concat]. rewrite filter_app, app_length, IH. auto. Qed.

Lemma count_rounds_of (l : list row) x : forall k, count_occ (list_eq_dec Nat.eq_dec) (concat (repeat l k)) x = k * count_occ (list_eq_dec Nat.eq_dec) l x.
Proof. induction k as [|k IH]; auto. cbn [repeat concat]. rewrite count_occ_app, IH. auto. Qed.

Lemma filter_length_perm {A} (f : A -> bool) l l' : Permutation l l' -> length (filter f l) = length (filter f l').
Proof. induction 1; cbn [filter]; auto; try congruence; repeat match goal with |- context [f ?x] => destruct (f x) end; cbn [length]; congruence. Qed.

Lemma often s k (l : list row) (f : row -> bool) c : Forall (vrow s) l ->
  (forall r, valid_row r -> length r = s -> count_occ (list_eq_dec Nat.eq_dec) l r = k) ->
  0 < s -> there_are c (fun r => valid_row r /\ length r = s /\ f r = true) -> length (filter f l) = k * c.
Proof.
  intros V K Hs (m & Lm & Nm & Im). destruct (there_are_rows s Hs) as (a & _ & Na & Ia).
  assert (P : Permutation l (concat (repeat a k))).
  { apply (Permutation_count_occ (list_eq_dec Nat.eq_dec)). intros x. rewrite count_rounds_of.
    destruct (in_dec (list_eq_dec Nat.eq_dec) x a) as [I|I].
    - rewrite (proj1 (NoDup_count_occ' _ a) Na x I). apply Ia in I as [I1 I2]. rewrite K by auto. lia.
    - rewrite (proj1 (count_occ_not_In _ a x) I), Nat.mul_0_r. apply count_occ_not_In. intros J. apply I, Ia. rewrite Forall_forall in V. apply V. auto. }
  rewrite (filter_length_perm f _ _ P), filter_rounds_of. f_equal. rewrite <- Lm. apply Permutation_length. apply NoDup_Permutation; auto.
  - apply NoDup_filter. auto.
  - intros r. rewrite filter_In, Im, Ia. tauto.
Qed.
