(** Facts about all the changes of a stage, and about reaching rows by changes. *)
From Coq Require Import Permutation.
From Verif Require Import Base Spec SpecPn SpecMask SpecCount ListFacts Row RowFacts MulFacts GroupFacts PlaceNot PnFacts PnFacts2 PnFacts3.
Local Open Scope list_scope.

(** ** Listing the changes *)
Fixpoint all_changes (k i : nat) : list (list nat) :=
  match k with
  | O => [[]]
  | S m => map (cons i) (all_changes m (i + 1)) ++ match m with O => [] | S k' => all_changes k' (i + 2) end
  end.

Lemma all_changes_S2 k i : all_changes (S (S k)) i = map (cons i) (all_changes (S k) (i + 1)) ++ all_changes k (i + 2).
Proof. reflexivity. Qed.

Lemma two_step (P : nat -> Prop) : P 0 -> P 1 -> (forall k, P k -> P (S k) -> P (S (S k))) -> forall k, P k.
Proof. intros A B C. assert (forall k, P k /\ P (S k)) by (induction k as [|k [X Y]]; split; auto). intros k. apply H. Qed.

Lemma all_changes_length k : forall i, length (all_changes k i) = number_of_changes k.
Proof.
  induction k as [| |k IH IH'] using two_step; intros i; try reflexivity.
  rewrite all_changes_S2, app_length, map_length, IH, IH'. reflexivity.
Qed.

Lemma all_changes_ok k : forall s i l, i + k = s -> (In l (all_changes k i) <-> legal_from s i l).
Proof.
  induction k as [| |k IH IH'] using two_step; intros s i l E.
  - cbn. split.
    + intros [<-|[]]. replace i with s by lia. constructor.
    + intros H. inversion H; subst; [auto|lia|lia].
  - cbn. split.
    + intros [<-|[]]. constructor; [lia|]. replace (i + 1) with s by lia. constructor.
    + intros H. inversion H as [|? l' A B|? ? A B]; subst; [lia| |lia]. left. f_equal. inversion B; subst; [auto|lia|lia].
  - rewrite all_changes_S2, in_app_iff, in_map_iff. split.
    + intros [(x & <- & X)|X].
      * constructor; [lia|]. apply (IH' s (i + 1)); auto. lia.
      * apply lf_swap; [lia|]. apply (IH s (i + 2)); auto. lia.
    + intros H. inversion H as [|? l' A B|? ? A B]; subst; [lia| |].
      * left. exists l'. split; auto. apply (IH' (i + S (S k)) (i + 1)); auto. lia.
      * right. apply (IH (i + S (S k)) (i + 2)); auto. lia.
Qed.

Lemma legal_from_above s i l p : legal_from s i l -> In p l -> i <= p.
Proof.
  induction 1 as [|i l A B IH|i l A B IH]; intros I; [destruct I| |].
  - destruct I as [->|I]; [auto|]. specialize (IH I). lia.
  - specialize (IH I). lia.
Qed.

Lemma all_changes_NoDup k : forall i, NoDup (all_changes k i).
Proof.
  induction k as [| |k IH IH'] using two_step; intros i.
  - cbn. constructor; [intros []|constructor].
  - cbn. constructor; [intros []|constructor].
  - rewrite all_changes_S2. apply NoDup_app_intro; auto.
    + apply NoDup_map_inj; auto. intros x y _ _ E. congruence.
    + intros x X Y. apply in_map_iff in X as (l & <- & _). apply (all_changes_ok k (i + 2 + k)) in Y; auto.
      pose proof (legal_from_above _ _ _ i Y (or_introl eq_refl)). lia.
Qed.

(** ** Reaching rows *)
Inductive steps : list nat -> list nat -> list nat -> Prop :=
| steps_end r : steps r [] r
| steps_more r j r1 js r' : (exists a x y b, r = a ++ x :: y :: b /\ r1 = a ++ y :: x :: b /\ length a = j) -> steps r1 js r' -> steps r (j :: js) r'.

Lemma steps_app r js r1 ks r2 : steps r js r1 -> steps r1 ks r2 -> steps r (js ++ ks) r2.
Proof. induction 1; intros; cbn; auto. econstructor; eauto. Qed.

Lemma steps_cons c r js r' : steps r js r' -> steps (c :: r) (map S js) (c :: r').
Proof.
  induction 1 as [|r j r1 js r' (a & x & y & b & -> & -> & L) H IH]; cbn [map]; econstructor; [|exact IH].
  exists (c :: a), x, y, b. cbn. auto.
Qed.

Lemma perm_steps r r' : Permutation r r' -> exists js, steps r js r'.
Proof.
  induction 1 as [|c r r' _ (js & IH)|x y l|l l' l'' _ (js & IH) _ (ks & IH')].
  - exists []. constructor.
  - exists (map S js). apply steps_cons; auto.
  - exists [0]. econstructor; [|constructor]. exists [], y, x, l. auto.
  - exists (js ++ ks). eapply steps_app; eauto.
Qed.

Definition one_swap (s j : nat) : place_not := {| pn_places := seq 0 j ++ seq (j + 2) (s - (j + 2)); pn_stage := s |}.

Lemma legal_seq s k : forall i l, i + k <= s -> legal_from s (i + k) l -> legal_from s i (seq i k ++ l).
Proof.
  induction k as [|k IH]; intros i l H L; [rewrite Nat.add_0_r in L; auto|]. cbn [seq app]. constructor; [lia|].
  rewrite Nat.add_1_r. apply IH; [lia|]. replace (S i + k) with (i + S k) by lia. auto.
Qed.

Lemma one_swap_legal s j : j + 1 < s -> legal (one_swap s j).
Proof.
  intros H. split; cbn [pn_stage pn_places one_swap]; [lia|]. apply (legal_seq s j 0); [lia|]. cbn [Nat.add].
  apply lf_swap; [auto|]. rewrite <- (app_nil_r (seq _ _)). apply legal_seq; [lia|]. replace (j + 2 + (s - (j + 2))) with s by lia. constructor.
Qed.

Lemma rings_made made r : forall i, (forall p, i <= p < i + length r -> In p made) -> rings made i r r.
Proof.
  induction r as [|b r IH]; intros i H; constructor; [apply H; cbn; lia|]. apply IH. intros p P. apply H. cbn. lia.
Qed.

Lemma rings_front made a : forall i r r', (forall p, i <= p < i + length a -> In p made) -> rings made (i + length a) r r' -> rings made i (a ++ r) (a ++ r').
Proof.
  induction a as [|b a IH]; intros i r r' H R; [cbn in *; rewrite Nat.add_0_r in R; auto|]. cbn [app]. constructor; [apply H; cbn; lia|].
  apply IH; [intros p P; apply H; cbn; lia|]. replace (i + 1 + length a) with (i + length (b :: a)) by (cbn; lia). auto.
Qed.

Lemma one_swap_rings s a x y b : length (a ++ x :: y :: b) = s -> rings (pn_places (one_swap s (length a))) 0 (a ++ x :: y :: b) (a ++ y :: x :: b).
Proof.
  intros L. rewrite app_length in L. cbn [length] in L. unfold one_swap. cbn [pn_places]. apply rings_front.
  - intros p P. apply in_app_iff. left. apply in_seq. lia.
  - cbn [Nat.add]. constructor; try (rewrite in_app_iff, !in_seq; lia). apply rings_made. intros p P. apply in_app_iff. right. apply in_seq. lia.
Qed.

Lemma steps_rung s r js r' : steps r js r' -> length r = s ->
  exists rs, Forall (fun pn => legal pn /\ pn_stage pn = s) (map (one_swap s) js) /\ rung r (map (one_swap s) js) rs r'.
Proof.
  induction 1 as [r|r j r1 js r' (a & x & y & b & E & E1 & La) H IH]; intros L.
  - exists []. split; constructor.
  - assert (L1 : length r1 = s) by (subst; rewrite !app_length; reflexivity).
    destruct (IH L1) as (rs & F & R). exists (r1 :: rs). cbn [map]. split.
    + constructor; auto. split; [|reflexivity]. apply one_swap_legal. subst. rewrite app_length. cbn. lia.
    + econstructor; [|exact R]. subst r r1 j. apply one_swap_rings. auto.
Qed.

Lemma vrow_perm s r r' : vrow s r -> vrow s r' -> Permutation r r'.
Proof.
  intros ((_ & N & H) & L) ((_ & N' & H') & L'). apply NoDup_Permutation; auto. intros x. rewrite H, H', L, L'. tauto.
Qed.
