(** Lemmas about the effective stage of changes rung from a row. *)
From Verif Require Import Base Bell Stage Row Utils SameStageVec Block PlaceNot Spec SpecVec SpecBlock SpecPn ListFacts
  BellFacts RowFacts MulFacts GroupFacts SsvFacts BlockFacts PnFacts PnFacts2 PnFacts3 LawFacts.
Local Open Scope list_scope.

Definition fixes_from (n : nat) (r : list nat) : Prop := forall i x, n <= i -> nth_error r i = Some x -> x = i.
Definition makes_from (s n : nat) (pn : place_not) : Prop := forall i, n <= i -> i < s -> In i (pn_places pn).

Lemma rung_fixes s n : forall pns r rs x, vrow s r -> rung r pns rs x -> fixes_from n r ->
  (Forall (fixes_from n) rs <-> Forall (makes_from s n) pns).
Proof.
  induction pns as [|pn pns IH]; intros r rs x V R F; inversion R as [|? ? ? r1 rs0 ? Rg Rn]; subst.
  - split; auto.
  - assert (V1 : vrow s r1) by (eapply rings_vrow; eauto).
    assert (St : forall i, i < s -> (In i (pn_places pn) <-> nth_error r i = nth_error r1 i)).
    { intros i Hi. rewrite <- (proj2 V) in Hi. pose proof (rings_stays _ 0 r r1 i (proj1 (proj2 (proj1 V))) Rg Hi) as Q. cbn in Q. rewrite <- Q. split; congruence. }
    assert (E : fixes_from n r1 <-> makes_from s n pn).
    { split.
      - intros F1 i Hi Ls. apply St; auto.
        destruct (nth_error r i) as [a|] eqn:Ea; [|apply nth_error_None in Ea; rewrite (proj2 V) in Ea; lia].
        destruct (nth_error r1 i) as [b|] eqn:Eb; [|apply nth_error_None in Eb; rewrite (proj2 V1) in Eb; lia].
        rewrite (F i a Hi Ea), (F1 i b Hi Eb). reflexivity.
      - intros M i y Hi Ey. assert (Ls : i < s) by (rewrite <- (proj2 V1); apply nth_error_Some; congruence).
        apply (F i y Hi). rewrite (proj1 (St i Ls) (M i Hi Ls)). exact Ey. }
    rewrite !Forall_cons_iff, E. split; intros [A B]; split; auto; apply (IH r1 rs0 x); auto; apply E; auto.
Qed.

Lemma fixes_rounds n s : fixes_from n (seq 0 s).
Proof.
  intros i x _ E. assert (H : i < s) by (rewrite <- (seq_length s 0); apply nth_error_Some; rewrite E; discriminate).
  rewrite (nth_error_nth' _ 0), seq_nth in E by (rewrite ?seq_length; auto). injection E as <-. reflexivity.
Qed.
