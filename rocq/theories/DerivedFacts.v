(** Facts about the derived comparisons. *)
From Verif Require Import Base Bell Stage Row Utils SameStageVec Block PlaceNot Mask Music ListFacts Derived.
Local Open Scope list_scope.

Lemma vec_eqb_ok {T} (eqb : T -> T -> bool) (H : forall x y, eqb x y = true <-> x = y) a b : vec_eqb eqb a b = true <-> a = b.
Proof.
  revert b. induction a as [|x a IH]; intros [|y b]; cbn; try (split; intros; (discriminate || reflexivity)).
  rewrite Bool.andb_true_iff, H, IH. split; [intros [-> ->]; auto|intros [= -> ->]; auto].
Qed.

(** A way to feed values is prefix free if what follows does not matter. *)
Definition separated {T} (feed : T -> list nat) : Prop :=
  forall x y l m, feed x ++ l = feed y ++ m -> x = y /\ l = m.

Lemma vec_separated {T} (feed : T -> list nat) : separated feed -> separated (vec_feed feed).
Proof.
  intros S a b l m E. unfold vec_feed in E. cbn [app] in E. injection E as L E. revert b L E.
  induction a as [|x a IH]; intros [|y b] L E; try discriminate L; cbn in *; [auto|].
  rewrite <- !app_assoc in E. apply S in E. destruct E as [-> E]. apply IH in E; [|lia]. destruct E as [-> ->]. auto.
Qed.

Lemma separated_eq {T} (feed : T -> list nat) : separated feed -> forall x y, feed x = feed y <-> x = y.
Proof.
  intros S x y. split; [|intros ->; auto]. intros E. apply (S x y [] []). rewrite !app_nil_r. auto.
Qed.

Lemma nat_separated : separated (fun x : nat => [x]).
Proof. intros x y l m [= -> ->]. auto. Qed.

Lemma pn_separated : separated pn_feed.
Proof.
  intros [p s] [q t] l m E. unfold pn_feed in E. cbn [pn_places pn_stage] in E. rewrite <- !app_assoc in E.
  apply (vec_separated _ nat_separated) in E. destruct E as [-> E]. cbn in E. injection E as -> ->. auto.
Qed.

Lemma pn_eqb_ok p q : pn_eqb p q = true <-> p = q.
Proof.
  destruct p, q. unfold pn_eqb. cbn. rewrite Bool.andb_true_iff, (vec_eqb_ok _ Nat.eqb_eq), Nat.eqb_eq.
  split; [intros [-> ->]; auto|intros [= -> ->]; auto].
Qed.

Lemma pn_block_eqb_ok a b : pn_block_eqb a b = true <-> a = b.
Proof. apply (vec_eqb_ok _ pn_eqb_ok). Qed.

Lemma mask_eqb_ok a b : mask_eqb a b = true <-> a = b.
Proof.
  apply vec_eqb_ok. intros [x|] [y|]; cbn; rewrite ?Nat.eqb_eq; split; intros H; try discriminate H; try subst; auto; congruence.
Qed.

Lemma regex_eqb_ok a b : regex_eqb a b = true <-> a = b.
Proof.
  apply vec_eqb_ok. intros [x| |] [y| |]; cbn; rewrite ?Nat.eqb_eq; split; intros H; try discriminate H; try subst; auto; congruence.
Qed.

Lemma mask_separated : separated mask_feed.
Proof. apply vec_separated. intros [x|] [y|] l m E; cbn in E; try discriminate E; injection E; intros; subst; auto. Qed.

Lemma regex_separated : separated regex_feed.
Proof. apply vec_separated. intros [x| |] [y| |] l m E; cbn in E; try discriminate E; injection E; intros; subst; auto. Qed.

Lemma NoDup_unspecified m : NoDup (mask_unspecified_places m).
Proof.
  unfold mask_unspecified_places, enumerate. generalize 0.
  assert (G : forall n l x, In x (map fst (filter (fun '(_, b) => match b with None => true | Some _ => false end) (enumerate_from (A := option bell) n l))) -> n <= x).
  { intros n l. revert n. induction l as [|[b|] l IH]; intros n x H; cbn in H; [contradiction| |].
    - apply IH in H. lia.
    - destruct H as [<-|H]; auto. apply IH in H. lia. }
  induction m as [|[b|] m IH]; intros n; cbn; [constructor|apply IH|]. constructor; [|apply IH]. intros H. apply G in H. lia.
Qed.
