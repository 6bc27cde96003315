(** Property theorems C152: double changes lead to every row of the same parity on five bells or more. *)

(* Generated from tools/props/Double.src: the proofs behind PropsDouble.v. *)
From Coq Require Import Permutation.
From Verif Require Import Base Bell Stage Parity Row Utils SameStageVec Block PlaceNot Spec SpecVec SpecBlock SpecPn SpecClass ListFacts
  BellFacts RowFacts MulFacts GroupFacts ParityFacts SsvFacts BlockFacts PnFacts PnFacts2 PnFacts3 LawFacts BetweenFacts PlainChangesFacts DoubleFacts.
From Verif Require Import PnThms LawsThms BetweenThms.
Local Open Scope list_scope.

Lemma pf_C152_double_changes :
  forall a b fuel pa pb ra rb, valid_row a -> valid_row b -> length b = length a -> 5 <= length a -> 2 * length a < fuel ->
    row_parity fuel a = Ret (ra, pa) -> row_parity fuel b = Ret (rb, pb) ->
    (pa = pb <->
     exists pns v rows, pns <> [] /\ pn_block_from_vec pns = Ok pns /\ pn_block_to_rows pns a = Ret (Ok v) /\ ssv_rows v = Ret (a :: rows) /\
       last rows [] = b /\
       forall i r r', nth_error (a :: rows) i = Some r -> nth_error (a :: rows) (i + 1) = Some r' ->
         exists p q m, p + 2 <= q /\ row_swap r p (p + 1) = Ret m /\ row_swap m q (q + 1) = Ret r').
Proof.
  intros a b fuel pa pb ra rb Va Vb L La Hf Pa Pb.
  destruct (row_parity_ok a fuel Va Hf) as [Ea _]. destruct (row_parity_ok b fuel Vb ltac:(lia)) as [Eb _].
  rewrite Ea in Pa. rewrite Eb in Pb. injection Pa as _ <-. injection Pb as _ <-.
  assert (V1 : vrow (length a) a) by (split; auto). assert (V2 : vrow (length a) b) by (split; auto). split.
  - intros E. assert (S' : sgn a = sgn b) by (destruct (sgn a), (sgn b); congruence).
    assert (W : exists rows, 0 < length rows /\ Forall (vrow (length a)) (a :: rows) /\ last rows [] = b /\
      forall i x y, nth_error (a :: rows) i = Some x -> nth_error (a :: rows) (i + 1) = Some y -> adj2 x y).
    { destruct (reach_rows (length a) a b V1 (reach_even _ a b La V1 V2 S')) as ([|r rows] & F & E' & J).
      - cbn in E'. subst b. destruct a as [|c0 [|c1 [|c2 [|c3 t]]]]; try (cbn in La; lia).
        assert (A : adj2 (c0 :: c1 :: c2 :: c3 :: t) (c1 :: c0 :: c3 :: c2 :: t)) by (exists [], c0, c1, [], c2, c3, t; auto).
        exists [c1 :: c0 :: c3 :: c2 :: t; c0 :: c1 :: c2 :: c3 :: t]. split; [cbn; lia|]. split; [|split; [reflexivity|]].
        + apply Forall_cons; [exact V1|]. apply Forall_cons; [exact (vrow_same _ _ _ V1 (adj2_perm _ _ A))|]. exact F.
        + intros [|[|i]] x y Ex Ey; [| |exfalso; apply nth_error_In in Ey as Ey'; assert (Q : nth_error [c0 :: c1 :: c2 :: c3 :: t; c1 :: c0 :: c3 :: c2 :: t; c0 :: c1 :: c2 :: c3 :: t] (S (S i) + 1) <> None) by congruence; apply nth_error_Some in Q; cbn in Q; lia]; cbn in Ex, Ey.
          * injection Ex as <-. injection Ey as <-. exact A.
          * injection Ex as <-. injection Ey as <-. apply adj2_sym. exact A.
      - exists (r :: rows). splits; auto. cbn. lia. }
    destruct W as (rows & P & F & E' & J).
    destruct (pf_C128_rows_without_jumps_are_rung (length a) a rows P F) as (pns & v & L1 & E1 & E2 & E3 & _).
    + intros i x y Ex Ey bell p q. apply (adj2_no_jump x y); [|apply (J i); auto]. rewrite Forall_forall in F. apply (F x (nth_error_In _ _ Ex)).
    + exists pns, v, rows. split; [intros ->; cbn in L1; lia|]. split; [auto|]. split; [auto|]. split; [auto|]. split; [auto|].
      intros i r r' Er Er'. apply adj2_swaps. apply (J i); auto.
  - intros (pns & v & rows & Np & _ & E1 & E2 & E3 & J).
    assert (H : forall rows a, vrow (length a) a -> 
      (forall i r r', nth_error (a :: rows) i = Some r -> nth_error (a :: rows) (i + 1) = Some r' -> adj2 r r') -> sgn (last (a :: rows) []) = sgn a).
    { clear. induction rows as [|r rows IH]; intros a V J; [auto|]. assert (A : adj2 a r) by (apply (J 0); auto).
      change (last (a :: r :: rows) []) with (last (r :: rows) []). rewrite (IH r).
      - symmetry. apply adj2_sgn; auto. apply V.
      - rewrite <- (Permutation_length (adj2_perm _ _ A)). apply (vrow_same _ a); auto. apply adj2_perm; auto.
      - intros i x y Ex Ey. apply (J (S i)); auto. }
    destruct rows as [|r rows]; [cbn in E3; subst b; destruct (proj1 Vb); auto|].
    pose proof (H (r :: rows) a V1) as H'. change (last (a :: r :: rows) []) with (last (r :: rows) []) in H'. rewrite E3 in H'. rewrite H'; [auto|].
    intros i x y Ex Ey. apply adj2_swaps. apply (J i); auto.
Qed.

Lemma pf_C152_four_bells_are_too_few :
  row_parity 9 [0; 1; 2; 3] = Ret ([0; 1; 2; 3], Even) /\ row_parity 9 [0; 2; 3; 1] = Ret ([0; 1; 2; 3], Even) /\
  forall rows,
    (forall i r r', nth_error ([0; 1; 2; 3] :: rows) i = Some r -> nth_error ([0; 1; 2; 3] :: rows) (i + 1) = Some r' ->
       exists p q m, p + 2 <= q /\ row_swap r p (p + 1) = Ret m /\ row_swap m q (q + 1) = Ret r') ->
    ~ In [0; 2; 3; 1] rows.
Proof.
  split; [reflexivity|]. split; [reflexivity|]. intros rows J.
  assert (H : forall rows a, a = [0; 1; 2; 3] \/ a = [1; 0; 3; 2] ->
    (forall i r r', nth_error (a :: rows) i = Some r -> nth_error (a :: rows) (i + 1) = Some r' -> adj2 r r') ->
    forall r, In r rows -> r = [0; 1; 2; 3] \/ r = [1; 0; 3; 2]).
  { clear. induction rows as [|r rows IH]; intros a Ha J x [].
    - subst x. assert (A : adj2 a r) by (apply (J 0); auto). destruct A as (x & c0 & c1 & y & c2 & c3 & z & E & ->).
      assert (L : length (x ++ c0 :: c1 :: y ++ c2 :: c3 :: z) = 4) by (rewrite <- E; destruct Ha; subst a; auto).
      rewrite app_length in L. cbn in L. rewrite app_length in L. cbn in L.
      destruct x; [|cbn in L; lia]. destruct y; [|cbn in L; lia]. destruct z; [|cbn in L; lia]. cbn in *.
      destruct Ha; subst a; injection E as <- <- <- <-; auto.
    - assert (A : adj2 a r) by (apply (J 0); auto). apply (IH r); auto.
      + destruct A as (x1 & c0 & c1 & y & c2 & c3 & z & E & ->).
        assert (L : length (x1 ++ c0 :: c1 :: y ++ c2 :: c3 :: z) = 4) by (rewrite <- E; destruct Ha; subst a; auto).
        rewrite app_length in L. cbn in L. rewrite app_length in L. cbn in L.
        destruct x1; [|cbn in L; lia]. destruct y; [|cbn in L; lia]. destruct z; [|cbn in L; lia]. cbn in *.
        destruct Ha; subst a; injection E as <- <- <- <-; auto.
      + intros i r1 r2 E1 E2. apply (J (S i)); auto. }
  intros I. destruct (H rows [0; 1; 2; 3] (or_introl eq_refl)) with (r := [0; 2; 3; 1]) as [E|E]; auto; try discriminate.
  intros i r r' Er Er'. apply adj2_swaps. apply (J i); auto.
Qed.
