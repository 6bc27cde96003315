(** Facts about how a change moves the bells. *)
From Verif Require Import Base Spec SpecPn ListFacts Row RowFacts MulFacts PlaceNot.
Local Open Scope list_scope.

Lemma rings_moves made i r r' : rings made i r r' -> forall j b, nth_error r j = Some b ->
  exists j', nth_error r' j' = Some b /\
    (In (i + j) made /\ j' = j \/ ~ In (i + j) made /\ ~ In (i + j') made /\ (j' = S j \/ j = S j')).
Proof.
  induction 1 as [i|i x r r' I H IH|i x y r r' I1 I2 H IH]; intros j b E.
  - destruct j; discriminate.
  - destruct j as [|j]; cbn in E.
    + injection E as ->. exists 0. split; auto. left. rewrite Nat.add_0_r. auto.
    + destruct (IH j b E) as (j' & E' & D). exists (S j'). split; auto.
      replace (i + S j) with (i + 1 + j) by lia. replace (i + S j') with (i + 1 + j') by lia.
      destruct D as [[D1 D2]|(D1 & D2 & D3)]; [left; split; auto|right; splits; auto; lia].
  - destruct j as [|[|j]]; cbn in E.
    + injection E as ->. exists 1. split; auto. right. rewrite Nat.add_0_r. auto.
    + injection E as ->. exists 0. split; auto. right. rewrite Nat.add_0_r. auto.
    + destruct (IH j b E) as (j' & E' & D). exists (S (S j')). split; auto.
      replace (i + S (S j)) with (i + 2 + j) by lia. replace (i + S (S j')) with (i + 2 + j') by lia.
      destruct D as [[D1 D2]|(D1 & D2 & D3)]; [left; split; auto|right; splits; auto; lia].
Qed.

Lemma Forall2_len {A B} (P : A -> B -> Prop) l m : Forall2 P l m -> length l = length m.
Proof. induction 1; cbn; auto. Qed.

Lemma nth_error_rmul a b i : nth_error (rmul a b) i = option_map (fun x => nth x a 0) (nth_error b i).
Proof. apply nth_error_map. Qed.
