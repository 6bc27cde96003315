(** Facts about the room asked for in advance. *)
From Verif Require Import Base Bell Stage Row Utils SameStageVec Music Machine Room.
Local Open Scope list_scope.

Lemma mapM_ret {A B} (f : A -> exec B) (g : A -> B) l : (forall x, In x l -> f x = Ret (g x)) -> mapM f l = Ret (map g l).
Proof.
  induction l as [|x l IH]; intros H; cbn [mapM map]; auto. rewrite (H x (or_introl eq_refl)). cbn [bind].
  rewrite IH by (intros y Hy; apply H; right; auto). reflexivity.
Qed.

Lemma m_room_fits bd size n : (n * size < 2 ^ (width bd - 1))%N -> m_room bd size n = Ret n.
Proof. intros H. unfold m_room. apply N.ltb_lt in H. rewrite H. reflexivity. Qed.
Lemma m_room_panic bd size n : (2 ^ (width bd - 1) <= n * size)%N -> m_room bd size n = Panic.
Proof. intros H. unfold m_room. apply N.ltb_ge in H. rewrite H. reflexivity. Qed.

Lemma m_runs_eq bd patterns size s len : (N.of_nat s < 2 ^ width bd)%N -> len <= s ->
  m_runs bd patterns size s len =
  (n <- word bd (N.of_nat (s - 3) * 2);; _ <- m_room bd size n;; Ret (flat_map (fun i => patterns (run_iterator i len)) (range 0 (s - len + 1)))).
Proof.
  intros W L. unfold m_runs. rewrite (proj2 (Nat.ltb_ge s len) L).
  rewrite (mapM_ret _ (fun i => patterns (run_iterator i len))).
  - cbn [bind]. rewrite flat_map_concat_map. reflexivity.
  - intros i Hi. unfold m_run_iterator, range in *. apply in_seq in Hi. unfold word.
    replace (N.of_nat i + N.of_nat len <? 2 ^ width bd)%N with true by (symmetry; apply N.ltb_lt; lia). cbn [bind].
    unfold run_iterator, range. rewrite Nnat.N2Nat.inj_add, !Nnat.Nat2N.id. reflexivity.
Qed.

Lemma half_lt w : (0 < w)%N -> (2 ^ (w - 1) < 2 ^ w)%N.
Proof. intros H. apply N.pow_lt_mono_r; lia. Qed.

Lemma flat_map_two {A} (p : nat -> list A) k : (forall i, length (p i) = 2) -> forall a, length (flat_map p (seq a k)) = 2 * k.
Proof. intros H. induction k as [|k IH]; intros a; cbn [seq flat_map]; auto. rewrite app_length, IH, H. lia. Qed.
