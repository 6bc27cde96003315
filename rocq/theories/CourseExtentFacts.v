(** All the rows of a stage, and the places of one bell in them. *)
From Verif Require Import Base Spec ListFacts Row RowFacts MulFacts GroupFacts SameStageVec SpecVec SsvFacts Block SpecBlock BlockFacts Class SpecClass ClassFacts ClassFacts2 SpecMask MaskFacts ExtentFacts.
Local Open Scope list_scope.

Lemma there_are_rows s : 0 < s -> there_are (fact s) (fun r => valid_row r /\ length r = s).
Proof.
  intros H. assert (W : well_formed_mask (repeat None s)).
  { assert (N : forall p b, ~ specifies (repeat None s) p b).
    { intros p b E. unfold specifies in E. apply nth_error_In, repeat_spec in E. discriminate. }
    split; [destruct s; [lia|discriminate]|split; [|intros p b E; destruct (N p b E)]]. intros p q b E. destruct (N p b E). }
  pose proof (count_fits _ W) as C. replace (nopen (repeat None s)) with s in C by (clear; unfold nopen; induction s; cbn; auto).
  eapply there_are_iff; [|apply C]. intros r. unfold fits. rewrite repeat_length. split; [tauto|]. intros [V L]. splits; auto.
  intros p b E. unfold specifies in E. apply nth_error_In, repeat_spec in E. discriminate.
Qed.

Lemma there_are_rows_with s t q : t < s -> q < s -> there_are (fact (s - 1)) (fun r => valid_row r /\ length r = s /\ place_in r t = q).
Proof.
  intros T Q. set (m := repeat None q ++ [Some t] ++ repeat (@None nat) (s - 1 - q)).
  assert (Lm : length m = s) by (unfold m; rewrite !app_length, !repeat_length; cbn; lia).
  assert (Sp : forall p b, specifies m p b <-> p = q /\ b = t).
  { intros p b. unfold specifies, m. destruct (Nat.lt_trichotomy p q) as [D|[D|D]].
    - rewrite nth_error_app1 by (rewrite repeat_length; auto). split; [|lia]. intros E. apply nth_error_In, repeat_spec in E. discriminate.
    - subst p. rewrite nth_error_app2 by (rewrite repeat_length; auto). rewrite repeat_length, Nat.sub_diag. cbn. split; [intros E; injection E; auto|intros [_ ->]; auto].
    - rewrite nth_error_app2 by (rewrite repeat_length; lia). rewrite repeat_length. replace (p - q) with (S (p - q - 1)) by lia. cbn. split; [|lia].
      intros E. apply nth_error_In, repeat_spec in E. discriminate. }
  assert (W : well_formed_mask m).
  { split; [intros E; rewrite E in Lm; cbn in Lm; lia|split; [intros p p' b A B; apply Sp in A, B; lia|intros p b A; apply Sp in A; lia]]. }
  pose proof (count_fits _ W) as C. replace (nopen m) with (s - 1) in C.
  2: { unfold nopen, m. rewrite !filter_app, !app_length. cbn.
       assert (G : forall k, length (filter (fun x : option nat => match x with None => true | Some _ => false end) (repeat None k)) = k) by (induction k; cbn; auto).
       rewrite !G. lia. }
  eapply there_are_iff; [|apply C]. intros r. cbn beta. unfold fits. rewrite Lm. split.
  - intros (V & L & F). splits; auto. apply place_in_unique; auto. apply F, Sp. auto.
  - intros (V & L & P). splits; auto. intros p b E. apply Sp in E as [-> ->]. rewrite <- P. apply place_in_ok; auto. lia.
Qed.

Lemma visits_repeat p q k : visits (concat (repeat p k)) q = k * visits p q.
Proof. unfold visits. induction k as [|k IH]; auto. cbn [repeat concat]. rewrite count_occ_app, IH. lia. Qed.

Lemma visits_filter (l : list (list nat)) t q : visits (map (fun r => place_in r t) l) q = length (filter (fun r => place_in r t =? q) l).
Proof.
  unfold visits. induction l as [|r l IH]; auto. cbn [map count_occ filter]. destruct (Nat.eq_dec (place_in r t) q) as [E|E].
  - rewrite E, Nat.eqb_refl. cbn. auto.
  - rewrite (proj2 (Nat.eqb_neq _ _)) by auto. auto.
Qed.
