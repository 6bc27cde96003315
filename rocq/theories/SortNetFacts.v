(** Lemmas for C150: as many changes as bells are enough to come from any row to any other.  Neighbouring pairs are put in order, at one change from
    the first place on and at the next from the second place on. *)
From Coq Require Import Permutation.
From Verif Require Import Base Spec ListFacts.
Local Open Scope list_scope.

Section Net.
  Context (f : nat -> nat).

  Fixpoint pairs (l : list nat) : list nat :=
    match l with
    | a :: ((b :: t) as _r) => if f b <? f a then b :: a :: pairs t else a :: b :: pairs t
    | _ => l
    end.

  Definition turn (odd : bool) (l : list nat) : list nat :=
    if odd then match l with [] => [] | x :: t => x :: pairs t end else pairs l.

  Fixpoint sweep (l : list nat) (t : nat) : list nat :=
    match t with O => l | S t' => turn (Nat.odd t') (sweep l t') end.

  Lemma pair_ind (P : list nat -> Prop) : P [] -> (forall x, P [x]) -> (forall a b t, P t -> P (a :: b :: t)) -> forall l, P l.
  Proof.
    intros H0 H1 H2 l. enough (P l /\ forall x, P (x :: l)) by tauto. induction l as [|y l [IH1 IH2]]; split; auto.
  Qed.

  Lemma pairs_perm : forall l, Permutation (pairs l) l.
  Proof.
    apply pair_ind; auto. intros a b t IH. cbn [pairs]. destruct (f b <? f a).
    - etransitivity; [apply perm_swap|]. do 2 constructor. auto.
    - do 2 constructor. auto.
  Qed.

  Lemma turn_perm o l : Permutation (turn o l) l.
  Proof. unfold turn. destruct o; [|apply pairs_perm]. destruct l; auto. constructor. apply pairs_perm. Qed.

  Lemma sweep_perm l : forall t, Permutation (sweep l t) l.
  Proof. induction t as [|t IH]; cbn [sweep]; auto. etransitivity; [apply turn_perm|]. auto. Qed.

  Lemma pairs_near : forall l p b, nth_error (pairs l) p = Some b ->
    exists q, nth_error l q = Some b /\ p <= q + 1 /\ q <= p + 1.
  Proof.
    apply (pair_ind (fun l => forall p b, nth_error (pairs l) p = Some b -> exists q, nth_error l q = Some b /\ p <= q + 1 /\ q <= p + 1)).
    - intros p b E. destruct p; discriminate.
    - intros x p b E. exists p. split; auto. lia.
    - intros x y t IH p b E. cbn [pairs] in E. destruct p as [|[|p]].
      + destruct (f y <? f x); cbn in E; [exists 1|exists 0]; cbn; split; auto; lia.
      + destruct (f y <? f x); cbn in E; [exists 0|exists 1]; cbn; split; auto; lia.
      + assert (E' : nth_error (pairs t) p = Some b) by (destruct (f y <? f x); auto).
        destruct (IH p b E') as (q & Q & L). exists (S (S q)). split; auto. lia.
  Qed.

  Lemma turn_near o l p b : nth_error (turn o l) p = Some b -> exists q, nth_error l q = Some b /\ p <= q + 1 /\ q <= p + 1.
  Proof.
    unfold turn. destruct o; [|apply pairs_near]. destruct l as [|x t]; [destruct p; discriminate|]. destruct p as [|p]; cbn [nth_error]; intros E.
    - exists 0. split; auto. lia.
    - destruct (pairs_near t p b E) as (q & Q & L). exists (S q). split; auto. lia.
  Qed.

  (** How many of the bells from place [p] on belong to place [v] or above. *)
  Definition above (v : nat) (l : list nat) (p : nat) : nat := length (filter (fun b => v <=? f b) (skipn p l)).

  Context (v : nat).
  Local Notation A := (above v).

  Definition one (b : nat) : nat := if v <=? f b then 1 else 0.
  Lemma above_cons b t : A (b :: t) 0 = one b + A t 0.
  Proof. unfold above, one. cbn [skipn filter]. destruct (v <=? f b); auto. Qed.
  Lemma above_S b t p : A (b :: t) (S p) = A t p.
  Proof. reflexivity. Qed.
  Lemma above_nil p : A [] p = 0.
  Proof. unfold above. rewrite skipn_nil. auto. Qed.
  Lemma above_end : forall l p, length l <= p -> A l p = 0.
  Proof. intros l p H. unfold above. rewrite skipn_all2 by auto. auto. Qed.
  Lemma above_step : forall l p, A l (S p) <= A l p <= A l (S p) + 1.
  Proof.
    induction l as [|b t IH]; intros p; [rewrite !above_nil; lia|]. destruct p as [|p].
    - rewrite above_S, above_cons. unfold one. destruct (v <=? f b); lia.
    - rewrite !above_S. apply IH.
  Qed.

  Lemma pairs_even : forall l p, Nat.even p = true -> A (pairs l) p = A l p.
  Proof.
    apply (pair_ind (fun l => forall p, Nat.even p = true -> A (pairs l) p = A l p)); auto.
    intros a b t IH p E. cbn [pairs]. destruct p as [|[|p]]; [|discriminate|].
    - pose proof (IH 0 eq_refl) as I0. destruct (f b <? f a); rewrite !above_cons, I0; lia.
    - cbn [Nat.even] in E. destruct (f b <? f a); rewrite !above_S; auto.
  Qed.

  Lemma pairs_odd : forall l p, Nat.even p = true -> S p < length l -> A (pairs l) (S p) = Nat.min (A l p) (A l (S (S p)) + 1).
  Proof.
    apply (pair_ind (fun l => forall p, Nat.even p = true -> S p < length l -> A (pairs l) (S p) = Nat.min (A l p) (A l (S (S p)) + 1))).
    - cbn. lia.
    - cbn. lia.
    - intros a b t IH p E L. cbn [pairs]. destruct p as [|[|p]]; [|discriminate|].
      + pose proof (pairs_even t 0 eq_refl) as I0. destruct (f b <? f a) eqn:Q; rewrite !above_S, !above_cons, I0; unfold one;
          (apply Nat.ltb_lt in Q || apply Nat.ltb_ge in Q); destruct (Nat.leb_spec v (f a)), (Nat.leb_spec v (f b)); lia.
      + cbn [Nat.even length] in *. destruct (f b <? f a); rewrite !above_S; apply IH; auto; lia.
  Qed.

  Lemma turn_same o l p : Nat.odd p = o -> A (turn o l) p = A l p.
  Proof.
    intros E. unfold turn. destruct o.
    - destruct l as [|x t]; auto. destruct p as [|p]; [discriminate|]. rewrite !above_S. apply pairs_even. rewrite Nat.odd_succ in E. auto.
    - apply pairs_even. rewrite <- Nat.negb_odd, E. auto.
  Qed.

  Lemma turn_next o l p : Nat.odd p = o -> S p < length l -> A (turn o l) (S p) = Nat.min (A l p) (A l (S (S p)) + 1).
  Proof.
    intros E L. unfold turn. destruct o.
    - destruct l as [|x t]; [cbn in L; lia|]. destruct p as [|p]; [discriminate|]. rewrite !above_S. cbn [length] in L. apply pairs_odd; [|lia].
      rewrite Nat.odd_succ in E. auto.
    - apply pairs_odd; auto. rewrite <- Nat.negb_odd, E. auto.
  Qed.

  Lemma turn_total o l : A (turn o l) 0 = A l 0.
  Proof.
    unfold turn. destruct o; [|apply pairs_even; auto]. destruct l as [|x t]; auto. rewrite !above_cons, pairs_even; auto.
  Qed.

  Lemma turn_more o l p : A l p <= A (turn o l) p.
  Proof.
    destruct (Bool.bool_dec (Nat.odd p) o) as [E|E]; [rewrite turn_same; auto|]. destruct p as [|p]; [rewrite turn_total; auto|].
    destruct (Nat.lt_ge_cases (S p) (length l)) as [L|L]; [|rewrite above_end; auto; lia].
    rewrite turn_next; auto.
    - pose proof (above_step l p). pose proof (above_step l (S p)). lia.
    - rewrite Nat.odd_succ, <- Nat.negb_odd in E. destruct (Nat.odd p), o; cbn in E; congruence.
  Qed.

  Lemma above_left : forall p l, A l 0 <= A l p + p.
  Proof. induction p as [|p IH]; intros l; [lia|]. pose proof (IH l). pose proof (above_step l p). lia. Qed.

  (** The [i]-th bell from behind which belongs above is held up [i] changes, at most. *)
  Lemma sweep_far l n m d : length l = n -> A l 0 = m -> d <= 1 -> Nat.even (m + d) = true -> forall t i, 1 <= i <= m ->
    i <= A (sweep l t) (Nat.min (n - i) ((m - i) + (t + d - i))).
  Proof.
    intros Ln Em D Ev. assert (Mn : m <= n).
    { rewrite <- Em, <- Ln. pose proof (above_left (length l) l). rewrite (above_end l (length l)) in H by auto. lia. }
    induction t as [|t IH]; intros i Hi.
    - cbn [sweep Nat.add]. replace (d - i) with 0 by lia. replace (Nat.min (n - i) (m - i + 0)) with (m - i) by lia. pose proof (above_left (m - i) l). lia.
    - cbn [sweep]. set (b := Nat.min (n - i) (m - i + (t + d - i))) in *. assert (Lt : length (sweep l t) = n) by (rewrite (Permutation_length (sweep_perm l t)); auto).
      destruct (Nat.eq_dec (Nat.min (n - i) (m - i + (S t + d - i))) b) as [Q|Q].
      + rewrite Q. etransitivity; [apply (IH i Hi)|]. apply turn_more.
      + assert (T : i <= t + d /\ b = m - i + (t + d - i) /\ b < n - i /\ Nat.min (n - i) (m - i + (S t + d - i)) = S b) by (unfold b in *; lia).
        destruct T as (T1 & T2 & T3 & T4). rewrite T4. rewrite turn_next.
        * pose proof (IH i Hi) as I1. fold b in I1. assert (I2 : i <= A (sweep l t) (S (S b)) + 1); [|lia].
          destruct (Nat.eq_dec i 1) as [->|Ni]; [lia|]. assert (Hi' : 1 <= i - 1 <= m) by lia. pose proof (IH (i - 1) Hi') as I2.
          replace (Nat.min (n - (i - 1)) (m - (i - 1) + (t + d - (i - 1)))) with (S (S b)) in I2 by lia. lia.
        * assert (Z : b + 2 * i = (m + d) + t) by lia. apply (f_equal Nat.odd) in Z. rewrite !Nat.odd_add, Nat.odd_mul in Z. cbn [Nat.odd Nat.even negb andb] in Z.
          rewrite <- (Nat.negb_odd (m + d)) in Ev. rewrite Nat.odd_add in Ev. apply Bool.negb_true_iff in Ev. rewrite Ev in Z.
          destruct (Nat.odd b), (Nat.odd t); cbn in Z; auto.
        * rewrite Lt. lia.
  Qed.

  Lemma sweep_end l n m : length l = n -> A l 0 = m -> m <= A (sweep l n) (n - m).
  Proof.
    intros Ln Em. destruct m as [|m]; [lia|]. assert (Mn : S m <= n).
    { rewrite <- Em, <- Ln. pose proof (above_left (length l) l). rewrite (above_end l (length l)) in H by auto. lia. }
    destruct (Nat.even (S m)) eqn:Ev.
    - assert (Hm : 1 <= S m <= S m) by lia. assert (Ev0 : Nat.even (S m + 0) = true) by (rewrite Nat.add_0_r; auto).
      pose proof (sweep_far l n (S m) 0 Ln Em ltac:(lia) Ev0 n (S m) Hm) as Q. replace (Nat.min (n - S m) (S m - S m + (n + 0 - S m))) with (n - S m) in Q by lia. auto.
    - assert (Hm : 1 <= S m <= S m) by lia. assert (Ev1 : Nat.even (S m + 1) = true).
      { rewrite Nat.even_add, Ev. auto. }
      pose proof (sweep_far l n (S m) 1 Ln Em ltac:(lia) Ev1 n (S m) Hm) as Q. replace (Nat.min (n - S m) (S m - S m + (n + 1 - S m))) with (n - S m) in Q by lia. auto.
  Qed.
End Net.
