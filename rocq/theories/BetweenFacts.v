(** Facts about the place notation between two rows, for property C128. *)
From Verif Require Import Base Bell Stage Row PlaceNot Spec SpecPn ListFacts RowFacts MulFacts GroupFacts PnFacts PnFacts2.
Local Open Scope list_scope.

(** no bell moves by more than one place *)
Definition near (r r' : list nat) : Prop := forall b p q, nth_error r p = Some b -> nth_error r' q = Some b -> p <= q + 1 /\ q <= p + 1.

Lemma rings_weaken made made' i r r' : rings made i r r' -> (forall p, i <= p -> (In p made <-> In p made')) -> rings made' i r r'.
Proof.
  induction 1 as [i|i x r r' I H IH|i x y r r' I1 I2 H IH]; intros K.
  - constructor.
  - constructor; [apply K; auto|]. apply IH. intros p P. apply K. lia.
  - constructor; [rewrite <- K by lia; auto|rewrite <- K by lia; auto|]. apply IH. intros p P. apply K. lia.
Qed.

Lemma legal_from_ge s i l : legal_from s i l -> forall p, In p l -> i <= p.
Proof. induction 1 as [|i l L H IH|i l L H IH]; intros p I; [destruct I| |]. destruct I as [<-|I]; auto. specialize (IH p I); lia. specialize (IH p I); lia. Qed.

Lemma near_rings : forall n i r r', length r <= n -> length r' = length r -> NoDup r -> NoDup r' -> (forall b, In b r <-> In b r') -> near r r' ->
  exists made, legal_from (i + length r) i made /\ rings made i r r'.
Proof.
  induction n as [|n IH]; intros i r r' Ln L N N' I H.
  - destruct r; [|cbn in Ln; lia]. destruct r'; [|discriminate]. exists []. rewrite Nat.add_0_r. split; constructor.
  - destruct r as [|x r]; [destruct r'; [|discriminate]; exists []; rewrite Nat.add_0_r; split; constructor|].
    destruct r' as [|y r']; [discriminate|]. cbn [length] in *. injection L as L. inversion N as [|? ? Nx Nr]; inversion N' as [|? ? Ny Nr']; subst.
    destruct (Nat.eq_dec x y) as [<-|D].
    + destruct (IH (i + 1) r r') as (made & M1 & M2); auto; [lia| | |].
      * intros b. specialize (I b). cbn [In] in I. split; intros B; [destruct (proj1 I (or_intror B)) as [<-|]|destruct (proj2 I (or_intror B)) as [<-|]]; auto; contradiction.
      * intros b p q P Q. specialize (H b (S p) (S q) P Q). lia.
      * exists (i :: made). replace (i + S (length r)) with (i + 1 + length r) by lia. split.
        -- constructor; auto. lia.
        -- constructor; [left; auto|]. apply (rings_weaken made); auto. intros p P. cbn [In]. split; [auto|]. intros [E|E]; [lia|auto].
    + assert (X : nth_error r' 0 = Some x).
      { assert (J : In x (y :: r')) by (apply I; left; auto). destruct J as [J|J]; [congruence|]. apply In_nth_error in J as (q & J).
        specialize (H x 0 (S q) eq_refl J). assert (q = 0) by lia. subst; auto. }
      assert (Y : nth_error r 0 = Some y).
      { assert (J : In y (x :: r)) by (apply I; left; auto). destruct J as [J|J]; [congruence|]. apply In_nth_error in J as (q & J).
        specialize (H y (S q) 0 J eq_refl). assert (q = 0) by lia. subst; auto. }
      destruct r as [|y2 r]; [discriminate|]. cbn in Y. injection Y as ->. destruct r' as [|x2 r']; [discriminate|]. cbn in X. injection X as ->.
      cbn [length] in *. injection L as L. inversion Nr as [|? ? Nx2 Nr2]; inversion Nr' as [|? ? Ny2 Nr2']; subst.
      destruct (IH (i + 2) r r') as (made & M1 & M2); auto; [lia| | |].
      * intros b. specialize (I b). cbn [In] in *. split; intros B.
        -- destruct (proj1 I (or_intror (or_intror B))) as [<-|[<-|]]; auto; tauto.
        -- destruct (proj2 I (or_intror (or_intror B))) as [<-|[<-|]]; auto; tauto.
      * intros b p q P Q. specialize (H b (S (S p)) (S (S q)) P Q). lia.
      * exists made. replace (i + S (S (length r))) with (i + 2 + length r) by lia. pose proof (legal_from_ge _ _ _ M1) as G. split.
        -- constructor; auto. lia.
        -- constructor; auto; intros J; apply G in J; lia.
Qed.

Lemma rings_map f made i r r' : rings made i r r' -> rings made i (map f r) (map f r').
Proof. induction 1; cbn [map]; constructor; auto. Qed.

Lemma rings_near made i r r' : NoDup r -> rings made i r r' -> near r r'.
Proof.
  intros N R. revert N. induction R as [i|i x r r' I H IH|i x y r r' I1 I2 H IH]; intros N b p q P Q.
  - destruct p; discriminate.
  - inversion N as [|? ? N1 N2]; subst. assert (Im : forall z, In z r' -> In z r).
    { intros z Z. clear - H Z. induction H; cbn [In] in *; tauto. }
    destruct p as [|p], q as [|q]; cbn in P, Q; try lia.
    + injection P as <-. apply nth_error_In, Im in Q. contradiction.
    + injection Q as <-. apply nth_error_In in P. contradiction.
    + specialize (IH N2 b p q P Q). lia.
  - inversion N as [|? ? N1 N2]; inversion N2 as [|? ? N3 N4]; subst. assert (Im : forall z, In z r' -> In z r).
    { intros z Z. clear - H Z. induction H; cbn [In] in *; tauto. }
    cbn [In] in *. destruct p as [|[|p]], q as [|[|q]]; cbn in P, Q; try lia.
    + injection P as <-. apply nth_error_In, Im in Q. tauto.
    + injection P as <-. apply nth_error_In, Im in Q. tauto.
    + injection Q as <-. apply nth_error_In in P. tauto.
    + injection Q as <-. apply nth_error_In in P. tauto.
    + specialize (IH N4 b p q P Q). lia.
Qed.
