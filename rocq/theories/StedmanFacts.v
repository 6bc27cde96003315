(** Stedman. *)
From Coq Require Import Permutation.
From Verif Require Import Base Spec SpecBlock Class SpecClass SpecVec SpecPn SpecSym SpecHunt SpecGrandsire SpecStedman ListFacts Row RowFacts MulFacts GroupFacts SameStageVec Block SsvFacts BlockFacts
  PlaceNot PnFacts PnFacts2 PnFacts3 LawFacts ClassFacts ClassFacts2 ClassFacts3 TouchFacts SymFacts SymFacts2 SymFacts3 ShapeFacts HuntFacts BobFacts GrandsireFacts.
Local Open Scope list_scope.

Definition st_ok (n m : nat) : Prop := n = 2 * m + 1 /\ 2 <= m.

Lemma st_even n m : st_ok n m -> Nat.even n = false.
Proof. intros [-> _]. apply even21. Qed.

Lemma st_length n : length (stedman n) = 12.
Proof. reflexivity. Qed.

Lemma st_nonempty n : stedman n <> [].
Proof. discriminate. Qed.

Lemma st_legal n m : st_ok n m -> Forall (fun pn => legal pn /\ pn_stage pn = n) (stedman n).
Proof.
  intros S0. pose proof (st_even n m S0) as E. destruct S0 as [En Hm].
  pose proof (gs_first_legal n ltac:(lia)) as G. unfold gs_first in G. rewrite E in G.
  pose proof (hunting_legal n ltac:(lia)) as H. unfold hunting in H. rewrite E in H. inversion H as [|? ? [A _] B]; subst. inversion B as [|? ? [C _] _]; subst.
  unfold stedman. repeat (apply Forall_cons; [split; auto|]). apply Forall_nil.
Qed.

(** Where the bell in place [p] comes from in change [t]. *)
Definition st_from (n t : nat) : nat -> nat :=
  nth t [gs_from n; second_from n; first_from n; gs_from n; second_from n; gs_from n; second_from n; gs_from n; first_from n; second_from n; gs_from n; second_from n] (fun p => p).

Lemma trof_st n m t : st_ok n m -> t < 12 -> trof n (stedman n) t = map (st_from n t) (seq 0 n).
Proof.
  intros S0 Ht. pose proof (st_even n m S0) as E. assert (Hn : 5 <= n) by (destruct S0; lia).
  destruct (trof_ok n (stedman n) ltac:(lia) (st_nonempty n) (st_legal n m S0) t) as (pn & Q & R). rewrite rounds_seq in R.
  rewrite st_length, Nat.mod_small in Q by lia.
  pose proof (gs_first_rings n ltac:(lia)) as G. unfold gs_first in G. rewrite E in G. cbn [pn_places] in G.
  pose proof (first_rings n ltac:(lia)) as H. pose proof (second_rings n ltac:(lia)) as K. rewrite E in H, K.
  assert (Z : forall made f, pn_places pn = made -> rings made 0 (seq 0 n) (map f (seq 0 n)) -> trof n (stedman n) t = map f (seq 0 n)).
  { intros made f Em Rf. rewrite Em in R. apply (rings_fun _ _ _ _ _ R Rf). }
  destruct t as [|[|[|[|[|[|[|[|[|[|[|[|t]]]]]]]]]]]]; try lia; injection Q as <-;
    first [eapply Z; [reflexivity|exact G]|eapply Z; [reflexivity|exact H]|eapply Z; [reflexivity|exact K]].
Qed.

Definition srow (n t : nat) : row := crs n (trof n (stedman n)) t.
Definition st_head (n : nat) : row := srow n 12.

Lemma st_trof_v n m t : st_ok n m -> vrow n (trof n (stedman n) t).
Proof. intros S0. apply trof_v; eauto using st_legal, st_nonempty. destruct S0; lia. Qed.

Lemma srow_v n m t : st_ok n m -> vrow n (srow n t).
Proof. intros S0. apply crs_v; [destruct S0; lia|]. intros. eapply st_trof_v; eauto. Qed.

Fixpoint st_back (n t p : nat) : nat := match t with O => p | S t' => st_back n t' (st_from n t' p) end.

Lemma gs_from_lt n p : 3 <= n -> p < n -> gs_from n p < n.
Proof. intros H Hp. unfold gs_from. destruct (Nat.even p); bools. Qed.

Lemma second_from_lt n p : p < n -> second_from n p < n.
Proof. intros H. unfold second_from. destruct (Nat.even p); bools. Qed.

Lemma st_from_lt n t p : 3 <= n -> p < n -> st_from n t p < n.
Proof.
  intros H Hp. unfold st_from. destruct t as [|[|[|[|[|[|[|[|[|[|[|[|t]]]]]]]]]]]]; cbn [nth]; auto using gs_from_lt, first_from_lt, second_from_lt. destruct t; auto.
Qed.

Lemma srow_back n m t : st_ok n m -> t <= 12 -> forall p, p < n -> nth p (srow n t) 0 = st_back n t p.
Proof.
  intros S0. assert (Hn : 5 <= n) by (destruct S0; lia). induction t as [|t IH]; intros Ht p Hp.
  - unfold srow. cbn [crs st_back]. rewrite rounds_seq, seq_nth by auto. auto.
  - unfold srow. cbn [crs st_back]. rewrite (trof_st n m) by (auto; lia). rewrite nth_rmul by (rewrite map_length, seq_length; auto).
    rewrite (nth_indep (map (st_from n t) (seq 0 n)) 0 (st_from n t 0)) by (rewrite map_length, seq_length; auto).
    rewrite (map_nth (st_from n t)), seq_nth by auto. cbn [Nat.add]. apply IH; [lia|]. apply st_from_lt; auto. lia.
Qed.

(** ** Steps from known places *)

Lemma g_odd n k : 1 <= k -> 2 * k + 2 < n -> gs_from n (2 * k + 1) = 2 * k + 2.
Proof. intros H L. unfold gs_from. rewrite even21. bools. Qed.
Lemma g_even n k : 1 <= k -> gs_from n (2 * k + 2) = 2 * k + 1.
Proof. intros H. unfold gs_from. replace (2 * k + 2) with (2 * (k + 1)) by lia. rewrite even2. bools. Qed.
Lemma s_odd n k : 2 * k + 2 < n -> second_from n (2 * k + 1) = 2 * k + 2.
Proof. intros L. unfold second_from. rewrite even21. bools. Qed.
Lemma s_even n k : second_from n (2 * k + 2) = 2 * k + 1.
Proof. unfold second_from. replace (2 * k + 2) with (2 * (k + 1)) by lia. rewrite even2. bools. Qed.
Lemma f_odd n k : first_from n (2 * k + 1) = 2 * k.
Proof. unfold first_from. rewrite even21. lia. Qed.
Lemma f_even n k : 2 * k + 1 < n -> first_from n (2 * k) = 2 * k + 1.
Proof. intros L. unfold first_from. rewrite even2. bools. Qed.
Lemma f_last n k : n = 2 * k + 1 -> first_from n (2 * k) = 2 * k.
Proof. intros L. unfold first_from. rewrite even2. bools. Qed.

(** In the back the two changes of a six are the same, and undo each other. *)
Lemma back_pair n m q : st_ok n m -> 3 <= q < n -> gs_from n q = second_from n q /\ gs_from n (second_from n q) = q /\ second_from n (second_from n q) = q /\ 3 <= second_from n q < n.
Proof.
  intros [En Hm] Hq. destruct (parts_of q) as [[_ [k E]]|[_ [k E]]].
  - replace q with (2 * (k - 1) + 2) in * by lia. rewrite s_even, g_even by lia. rewrite g_odd, s_odd by lia. lia.
  - subst q. rewrite s_odd, g_odd by lia. rewrite s_even, g_even by lia. lia.
Qed.

Lemma st_head_back n m p : st_ok n m -> 3 <= p < n -> 3 <= first_from n (second_from n p) ->
  let q := second_from n (first_from n (second_from n p)) in 3 <= first_from n q -> st_back n 12 p = first_from n q.
Proof.
  intros S0 Hp H1 q H2. assert (Hn : 5 <= n) by (destruct S0; lia).
  destruct (back_pair n m p S0 Hp) as (A1 & A2 & A3 & A4).
  assert (L1 : first_from n (second_from n p) < n) by (apply first_from_lt; lia).
  destruct (back_pair n m _ S0 (conj H1 L1)) as (B1 & B2 & B3 & B4). fold q in B1, B2, B3, B4.
  assert (L2 : first_from n q < n) by (apply first_from_lt; lia).
  destruct (back_pair n m _ S0 (conj H2 L2)) as (C1 & C2 & C3 & C4).
  cbn [st_back]. unfold st_from. cbn [nth]. rewrite A2. rewrite ?B1. fold q. 
  rewrite B3. rewrite ?B1. fold q. rewrite B3. rewrite ?B1. fold q. rewrite C2. reflexivity.
Qed.

(** ** Coordinates along the work *)

(** Every bell does the work of the next one a lead later: how many leads a bell is behind the treble. *)
Definition co (m p : nat) : nat :=
  match p with
  | 0 => 0 | 1 => m | 2 => m + 1
  | _ => match p mod 4 with 0 => m - p / 4 | 1 => p / 4 | 2 => 2 * m + 1 - p / 4 | _ => m + 2 + p / 4 end
  end.

Lemma co_gen m i k : 3 <= 4 * i + k -> k < 4 ->
  co m (4 * i + k) = match k with 0 => m - i | 1 => i | 2 => 2 * m + 1 - i | _ => m + 2 + i end.
Proof.
  intros H K. assert (D : (4 * i + k) / 4 = i) by (rewrite Nat.add_comm, Nat.mul_comm, Nat.div_add, Nat.div_small; lia).
  assert (M : (4 * i + k) mod 4 = k) by (rewrite Nat.add_comm, Nat.mul_comm, Nat.mod_add, Nat.mod_small; lia).
  unfold co. destruct (4 * i + k) as [|[|[|x]]] eqn:E; try lia. rewrite D, M. reflexivity.
Qed.

Lemma co_0 m i : 1 <= i -> co m (4 * i) = m - i.
Proof. intros H. pose proof (co_gen m i 0 ltac:(lia) ltac:(lia)) as Q. rewrite Nat.add_0_r in Q. exact Q. Qed.
Lemma co_1 m i : 1 <= i -> co m (4 * i + 1) = i.
Proof. intros H. apply (co_gen m i 1); lia. Qed.
Lemma co_2 m i : 1 <= i -> co m (4 * i + 2) = 2 * m + 1 - i.
Proof. intros H. apply (co_gen m i 2); lia. Qed.
Lemma co_3 m i : co m (4 * i + 3) = m + 2 + i.
Proof. apply (co_gen m i 3); lia. Qed.

Inductive place_kind : nat -> Prop :=
| pk0 : place_kind 0 | pk1 : place_kind 1 | pk2 : place_kind 2
| pk_0 i : 1 <= i -> place_kind (4 * i) | pk_1 i : 1 <= i -> place_kind (4 * i + 1)
| pk_2 i : 1 <= i -> place_kind (4 * i + 2) | pk_3 i : place_kind (4 * i + 3).

Lemma kind_of p : place_kind p.
Proof.
  pose proof (Nat.div_mod p 4 ltac:(lia)) as E. pose proof (Nat.mod_upper_bound p 4 ltac:(lia)) as B. set (i := p / 4) in *. set (k := p mod 4) in *.
  destruct k as [|[|[|[|k]]]]; try lia; rewrite E; [rewrite Nat.add_0_r| | |]; (destruct (Nat.eq_dec i 0) as [->|N]; [try constructor|constructor; lia]).
Qed.

Ltac co_rw := rewrite ?co_3, ?co_2, ?co_1, ?co_0 by lia; cbn [co].

Lemma co_lt n m p : st_ok n m -> p < n -> co m p < n.
Proof. intros [En Hm] Hp. destruct (kind_of p); co_rw; lia. Qed.

Lemma co_inj n m p q : st_ok n m -> p < n -> q < n -> co m p = co m q -> p = q.
Proof. intros [En Hm] Hp Hq. destruct (kind_of p); destruct (kind_of q); co_rw; intros E; lia. Qed.

(** ** The front *)

Definition front (m t p : nat) : nat :=
  nth p (nth t [[0; m; m + 1]; [m; 0; m + 1]; [m; m + 1; 0]; [m + 1; m; m + 2]; [m; m + 1; m + 2]; [m; m + 2; m + 1];
    [m + 2; m; m + 1]; [m + 2; m + 1; m]; [m + 1; m + 2; m]; [m + 2; m + 1; 1]; [m + 2; 1; m + 1]; [1; m + 2; m + 1]] []) 0.

Lemma g012 n : gs_from n 0 = 1 /\ gs_from n 1 = 0 /\ gs_from n 2 = 2.
Proof. repeat split; reflexivity. Qed.

Lemma small n : 7 <= n ->
  (gs_from n 0 = 1 /\ gs_from n 1 = 0 /\ gs_from n 2 = 2 /\ gs_from n 3 = 4 /\ gs_from n 4 = 3 /\ gs_from n 5 = 6 /\ gs_from n 6 = 5) /\
  (second_from n 0 = 0 /\ second_from n 1 = 2 /\ second_from n 2 = 1 /\ second_from n 3 = 4 /\ second_from n 4 = 3 /\ second_from n 5 = 6 /\ second_from n 6 = 5) /\
  (first_from n 0 = 1 /\ first_from n 1 = 0 /\ first_from n 2 = 3 /\ first_from n 3 = 2 /\ first_from n 4 = 5 /\ first_from n 5 = 4).
Proof.
  intros H. pose proof (g012 n) as (A & B & C).
  pose proof (g_odd n 1 ltac:(lia) ltac:(lia)) as G3. pose proof (g_even n 1 ltac:(lia)) as G4. pose proof (g_odd n 2 ltac:(lia) ltac:(lia)) as G5. pose proof (g_even n 2 ltac:(lia)) as G6.
  pose proof (s_odd n 0 ltac:(lia)) as S1. pose proof (s_even n 0) as S2. pose proof (s_odd n 1 ltac:(lia)) as S3. pose proof (s_even n 1) as S4. pose proof (s_odd n 2 ltac:(lia)) as S5. pose proof (s_even n 2) as S6.
  pose proof (f_even n 0 ltac:(lia)) as F0. pose proof (f_odd n 0) as F1. pose proof (f_even n 1 ltac:(lia)) as F2. pose proof (f_odd n 1) as F3. pose proof (f_even n 2 ltac:(lia)) as F4. pose proof (f_odd n 2) as F5.
  cbn [Nat.mul Nat.add] in *. repeat split; auto.
Qed.

Ltac steps H := destruct H as ((? & ? & ? & ? & ? & ? & ?) & (? & ? & ? & ? & ? & ? & ?) & (? & ? & ? & ? & ? & ?)); cbn [st_back]; unfold st_from; cbn [nth].

Ltac walk := repeat match goal with
  | E : gs_from ?n ?k = _ |- context [gs_from ?n ?k] => rewrite E
  | E : second_from ?n ?k = _ |- context [second_from ?n ?k] => rewrite E
  | E : first_from ?n ?k = _ |- context [first_from ?n ?k] => rewrite E
  end.

Lemma co3 m : co m 3 = m + 2.
Proof. pose proof (co_3 m 0) as Q. cbn in Q |- *. lia. Qed.
Lemma co4 m : co m 4 = m - 1.
Proof. apply (co_0 m 1). lia. Qed.
Lemma co5 m : co m 5 = 1.
Proof. apply (co_1 m 1). lia. Qed.
Lemma co6 m : co m 6 = 2 * m.
Proof. pose proof (co_2 m 1 ltac:(lia)) as Q. change (4 * 1 + 2) with 6 in Q. lia. Qed.

Lemma front_ok n m t p : st_ok n m -> t < 12 -> p < 3 -> co m (st_back n t p) = front m t p.
Proof.
  intros [En Hm] Ht Hp. destruct (Nat.eq_dec m 2) as [->|Nm].
  - subst n. destruct t as [|[|[|[|[|[|[|[|[|[|[|[|t]]]]]]]]]]]]; try lia; destruct p as [|[|[|p]]]; try lia; vm_compute; reflexivity.
  - pose proof (small n ltac:(lia)) as H. destruct t as [|[|[|[|[|[|[|[|[|[|[|[|t]]]]]]]]]]]]; try lia; destruct p as [|[|[|p]]]; try lia; steps H; walk; rewrite ?co3, ?co5; reflexivity.
Qed.

(** ** The lead head *)

Lemma step_mod x n : x < n -> (x + 1) mod n = if x + 1 =? n then 0 else x + 1.
Proof. apply mod_next. Qed.

Lemma head_step n m p : st_ok n m -> p < n -> co m (st_back n 12 p) = (co m p + 1) mod n.
Proof.
  intros S0 Hp. pose proof (co_lt n m p S0 Hp) as Lc. rewrite step_mod by auto. pose proof S0 as [En Hm]. destruct (Nat.eq_dec m 2) as [->|Nm].
  - subst n. destruct p as [|[|[|[|[|p]]]]]; try lia; vm_compute; reflexivity.
  - pose proof (small n ltac:(lia)) as H.
    assert (Odd : forall k, 1 <= k -> p = 2 * k + 1 -> st_back n 12 p = if 2 * k + 5 <? n then 2 * k + 5 else if 2 * k + 3 <? n then 2 * k + 4 else 2 * k).
    { intros k Hk Ek.
      assert (E1 : second_from n p = 2 * (k + 1)) by (rewrite Ek, s_odd by lia; lia).
      destruct (Nat.ltb_spec (2 * k + 3) n) as [A|A].
      - assert (E2 : first_from n (second_from n p) = 2 * (k + 1) + 1) by (rewrite E1, f_even by lia; lia).
        assert (E3 : second_from n (first_from n (second_from n p)) = 2 * (k + 2)) by (rewrite E2, s_odd by lia; lia).
        assert (E4 : first_from n (2 * (k + 2)) = if 2 * k + 5 <? n then 2 * k + 5 else 2 * k + 4).
        { destruct (Nat.ltb_spec (2 * k + 5) n); [rewrite f_even by lia; lia|rewrite f_last by lia; lia]. }
        rewrite (st_head_back n m p S0) by (rewrite ?E3, ?E4, ?E2; bools). rewrite E3, E4. reflexivity.
      - assert (E2 : first_from n (second_from n p) = 2 * k + 2) by (rewrite E1, f_last by lia; lia).
        assert (E3 : second_from n (first_from n (second_from n p)) = 2 * k + 1) by (rewrite E2, s_even by lia; lia).
        assert (E4 : first_from n (2 * k + 1) = 2 * k) by (rewrite f_odd; lia).
        rewrite (st_head_back n m p S0) by (rewrite ?E3, ?E4, ?E2; bools). rewrite E3, E4. bools. }
    assert (Ev : forall k, 4 <= k -> p = 2 * k -> st_back n 12 p = 2 * k - 4).
    { intros k Hk Ek.
      assert (E1 : second_from n p = 2 * (k - 1) + 1) by (replace p with (2 * (k - 1) + 2) by lia; rewrite s_even; lia).
      assert (E2 : first_from n (second_from n p) = 2 * (k - 2) + 2) by (rewrite E1, f_odd; lia).
      assert (E3 : second_from n (first_from n (second_from n p)) = 2 * (k - 2) + 1) by (rewrite E2, s_even; lia).
      assert (E4 : first_from n (2 * (k - 2) + 1) = 2 * k - 4) by (rewrite f_odd; lia).
      rewrite (st_head_back n m p S0) by (rewrite ?E3, ?E4, ?E2; lia). rewrite E3, E4. reflexivity. }
    destruct (kind_of p) as [| | |i Hi|i Hi|i Hi|i].
    + steps H. walk. rewrite co5. cbn [co]. bools.
    + steps H. walk. cbn [co]. bools.
    + steps H. walk. rewrite co3. cbn [co]. bools.
    + destruct (Nat.eq_dec i 1) as [->|Ni].
      * change (4 * 1) with 4 in *. steps H. walk. rewrite co4 in *. cbn [co]. bools.
      * rewrite (Ev (2 * i)) by lia. replace (2 * (2 * i) - 4) with (4 * (i - 1)) by lia. rewrite !co_0 by lia. bools.
    + rewrite (Odd (2 * i)) by lia. rewrite co_1 by lia.
      replace (2 * (2 * i) + 5) with (4 * (i + 1) + 1) by lia. replace (2 * (2 * i) + 4) with (4 * (i + 1)) by lia. replace (2 * (2 * i)) with (4 * i) by lia.
      destruct (Nat.ltb_spec (4 * (i + 1) + 1) n); [rewrite co_1 by lia; bools|]. destruct (Nat.ltb_spec (4 * i + 3) n); rewrite co_0 by lia; bools.
    + destruct (Nat.eq_dec i 1) as [->|Ni].
      * change (4 * 1 + 2) with 6 in *. steps H. walk. rewrite co6 in *. cbn [co]. bools.
      * rewrite (Ev (2 * i + 1)) by lia. replace (2 * (2 * i + 1) - 4) with (4 * (i - 1) + 2) by lia. rewrite !co_2 by lia. bools.
    + rewrite (Odd (2 * i + 1)) by lia. rewrite co_3.
      replace (2 * (2 * i + 1) + 5) with (4 * (i + 1) + 3) by lia. replace (2 * (2 * i + 1) + 4) with (4 * (i + 1) + 2) by lia. replace (2 * (2 * i + 1)) with (4 * i + 2) by lia.
      destruct (Nat.ltb_spec (4 * (i + 1) + 3) n); [rewrite co_3 by lia; bools|]. destruct (Nat.ltb_spec (4 * i + 2 + 3) n); [rewrite co_2 by lia; bools|].
      destruct (Nat.eq_dec i 0) as [->|Ni]; [lia|]. rewrite co_2 by lia. bools.
Qed.

(** ** The course *)

Lemma st_head_v n m : st_ok n m -> vrow n (st_head n).
Proof. intros S0. eapply srow_v; eauto. Qed.

Lemma st_pow n m j p : st_ok n m -> p < n -> nth p (rpow (st_head n) j) 0 < n /\ co m (nth p (rpow (st_head n) j) 0) = (co m p + j) mod n.
Proof.
  intros S0 Hp. pose proof (st_head_v n m S0) as [V L]. pose proof S0 as [En Hm]. split.
  - pose proof (vrow_rpow n _ j (conj V L)) as [Vp Lp]. rewrite <- Lp at 2. apply valid_row_nth_lt; auto. lia.
  - revert p Hp. induction j as [|j IH]; intros p Hp; cbn [rpow].
    + rewrite L, rounds_seq, seq_nth by lia. rewrite Nat.add_0_r, Nat.mod_small by (eapply co_lt; eauto). reflexivity.
    + rewrite nth_rmul by lia. rewrite IH by (rewrite <- L at 2; apply valid_row_nth_lt; auto; lia).
      unfold st_head. rewrite (srow_back n m 12 S0) by (auto; lia). rewrite (head_step n m) by auto. rewrite Nat.add_mod_idemp_l by lia. f_equal. lia.
Qed.

Lemma st_home n m j p : st_ok n m -> p < n -> (nth p (rpow (st_head n) j) 0 = p <-> j mod n = 0).
Proof.
  intros S0 Hp. destruct (st_pow n m j p S0 Hp) as [Lt E]. pose proof (co_lt n m p S0 Hp) as Lc. pose proof S0 as [En Hm]. split.
  - intros Q. rewrite Q in E. rewrite <- (Nat.mod_small (co m p) n) in E at 1 by auto. destruct (mod_eq_sub (co m p) (co m p + j) n ltac:(lia) ltac:(lia) E) as [k Ek].
    replace j with (k * n) by lia. apply Nat.mod_mul. lia.
  - intros Q. apply (co_inj n m); auto. rewrite E. apply Nat.mod_divides in Q; [|lia]. destruct Q as [k ->]. rewrite Nat.mul_comm, Nat.mod_add by lia. apply Nat.mod_small. auto.
Qed.

Lemma st_period n m : st_ok n m -> forall t, trof n (stedman n) (t + 12) = trof n (stedman n) t.
Proof. intros S0 t. apply (trof_period n (stedman n) ltac:(destruct S0; lia) (st_nonempty n) (st_legal n m S0) t). Qed.

Lemma st_ends n m : st_ok n m -> ends_after n 12 (trof n (stedman n)) n.
Proof.
  intros S0. pose proof S0 as [En Hm]. pose proof (st_head_v n m S0) as V. assert (Hn : 0 < n) by lia.
  assert (Pow : forall j, crs n (trof n (stedman n)) (j * 12) = rpow (st_head n) j) by (intros j; apply (crs_pow n 12); eauto using st_trof_v, st_period; lia).
  split; [lia|]. split.
  - rewrite Pow. pose proof (vrow_rpow n _ n V) as [_ L]. apply (nth_ext _ _ 0 0); [rewrite length_rounds; auto|]. intros b Hb. rewrite L in Hb. rewrite rounds_seq, seq_nth by auto. cbn [Nat.add].
    apply (st_home n m); auto. apply Nat.mod_same. lia.
  - intros j Hj E. rewrite Pow in E. pose proof (proj1 (st_home n m j 0 S0 ltac:(lia))) as Q. rewrite E, rounds_seq, seq_nth in Q by lia.
    specialize (Q eq_refl). rewrite Nat.mod_small in Q; lia.
Qed.

Lemma srow_split n m : st_ok n m -> forall a, srow n a = rmul (rpow (st_head n) (a / 12)) (srow n (a mod 12)).
Proof.
  intros S0 a. unfold st_head, srow. rewrite <- (crs_add n 12) by (eauto using st_trof_v, st_period; destruct S0; lia). f_equal.
  rewrite (Nat.div_mod a 12) at 1 by lia. lia.
Qed.

Lemma srow_front n m a p : st_ok n m -> p < 3 -> co m (nth p (srow n a) 0) = (front m (a mod 12) p + a / 12) mod n.
Proof.
  intros S0 Hp. pose proof S0 as [En Hm]. rewrite (srow_split n m S0). pose proof (srow_v n m (a mod 12) S0) as [V L].
  assert (Ha : a mod 12 < 12) by (apply Nat.mod_upper_bound; lia).
  rewrite nth_rmul by lia. destruct (st_pow n m (a / 12) (nth p (srow n (a mod 12)) 0) S0) as [_ E].
  { rewrite <- L at 2. apply valid_row_nth_lt; auto. lia. }
  rewrite E. rewrite (srow_back n m) by (auto; lia). rewrite (front_ok n m) by auto. reflexivity.
Qed.

Lemma mod_cases x k y j n : x < n -> k < n -> y < n -> j < n -> (x + k) mod n = (y + j) mod n -> x + k = y + j \/ x + k = y + j + n \/ x + k + n = y + j.
Proof.
  intros Hx Hk Hy Hj E. destruct (Nat.le_gt_cases (x + k) (y + j)) as [L|L].
  - destruct (mod_eq_sub _ _ n ltac:(lia) L E) as [q Q]. destruct q as [|[|q]]; lia.
  - destruct (mod_eq_sub _ _ n ltac:(lia) (Nat.lt_le_incl _ _ L) (eq_sym E)) as [q Q]. destruct q as [|[|q]]; lia.
Qed.

Lemma front_lt n m t p : st_ok n m -> t < 12 -> p < 3 -> front m t p < n.
Proof.
  intros [En Hm] Ht Hp. unfold front. destruct t as [|[|[|[|[|[|[|[|[|[|[|[|t]]]]]]]]]]]]; try lia; destruct p as [|[|[|p]]]; try lia; cbn [nth]; lia.
Qed.

Lemma front_apart n m s u ka kb : st_ok n m -> s < 12 -> u < 12 -> ka < n -> kb < n ->
  (front m s 0 + ka = front m u 0 + kb \/ front m s 0 + ka = front m u 0 + kb + n \/ front m s 0 + ka + n = front m u 0 + kb) ->
  (front m s 1 + ka = front m u 1 + kb \/ front m s 1 + ka = front m u 1 + kb + n \/ front m s 1 + ka + n = front m u 1 + kb) ->
  (front m s 2 + ka = front m u 2 + kb \/ front m s 2 + ka = front m u 2 + kb + n \/ front m s 2 + ka + n = front m u 2 + kb) -> s = u /\ ka = kb.
Proof.
  intros [En Hm] Hs Hu Ha Hb. destruct s as [|[|[|[|[|[|[|[|[|[|[|[|s]]]]]]]]]]]]; try lia; destruct u as [|[|[|[|[|[|[|[|[|[|[|[|u]]]]]]]]]]]]; try lia; unfold front; cbn [nth]; lia.
Qed.

Lemma st_inj n m : st_ok n m -> forall a b, a < n * 12 -> b < n * 12 -> srow n a = srow n b -> a = b.
Proof.
  intros S0 a b Ha Hb E. pose proof S0 as [En Hm].
  assert (A : a mod 12 < 12) by (apply Nat.mod_upper_bound; lia). assert (B : b mod 12 < 12) by (apply Nat.mod_upper_bound; lia).
  assert (Ka : a / 12 < n) by (apply Nat.div_lt_upper_bound; lia). assert (Kb : b / 12 < n) by (apply Nat.div_lt_upper_bound; lia).
  pose proof (Nat.div_mod a 12 ltac:(lia)) as Da. pose proof (Nat.div_mod b 12 ltac:(lia)) as Db.
  assert (Q : forall p, p < 3 -> front m (a mod 12) p + a / 12 = front m (b mod 12) p + b / 12 \/ front m (a mod 12) p + a / 12 = front m (b mod 12) p + b / 12 + n \/
      front m (a mod 12) p + a / 12 + n = front m (b mod 12) p + b / 12).
  { intros p Hp. apply mod_cases; eauto using front_lt. rewrite <- !(srow_front n m) by auto. rewrite E. reflexivity. }
  pose proof (Q 0 ltac:(lia)) as Q0. pose proof (Q 1 ltac:(lia)) as Q1. pose proof (Q 2 ltac:(lia)) as Q2. clear Q E.
  destruct (front_apart n m _ _ _ _ S0 A B Ka Kb Q0 Q1 Q2) as [X Y]. rewrite Da, Db, X, Y. reflexivity.
Qed.

(** Every bell does the work of the treble. *)
Lemma st_same_work n m b : st_ok n m -> b < n -> exists k, k < n /\ forall t p, p < n -> (nth p (srow n t) 0 = b <-> nth p (srow n (t + k * 12)) 0 = 0).
Proof.
  intros S0 Hb. pose proof S0 as [En Hm]. pose proof (co_lt n m b S0 Hb) as Lc. exists ((n - co m b) mod n). split; [apply Nat.mod_upper_bound; lia|]. set (k := (n - co m b) mod n).
  intros t p Hp.
  assert (E : srow n (t + k * 12) = rmul (rpow (st_head n) k) (srow n t)).
  { unfold st_head, srow. rewrite <- (crs_add n 12) by (eauto using st_trof_v, st_period; lia). reflexivity. }
  rewrite E. pose proof (srow_v n m t S0) as [V L]. rewrite nth_rmul by lia.
  assert (Lx : nth p (srow n t) 0 < n) by (rewrite <- L at 2; apply valid_row_nth_lt; auto; lia). set (x := nth p (srow n t) 0) in *.
  destruct (st_pow n m k x S0 Lx) as [Ly Ey]. set (y := nth x (rpow (st_head n) k) 0) in *. pose proof (co_lt n m x S0 Lx) as Lcx.
  assert (Kb : (co m b + k) mod n = 0).
  { unfold k. rewrite Nat.add_mod_idemp_r by lia. replace (co m b + (n - co m b)) with n by lia. apply Nat.mod_same. lia. }
  split.
  - intros ->. apply (co_inj n m); auto; [lia|]. rewrite Ey, Kb. reflexivity.
  - intros Q. apply (co_inj n m); auto. rewrite Q in Ey. cbn [co] in Ey. symmetry in Ey. rewrite <- Kb in Ey.
    assert (Lk : k < n) by (apply Nat.mod_upper_bound; lia). destruct (mod_cases _ _ _ _ n Lcx Lk Lc Lk Ey) as [C|[C|C]]; lia.
Qed.

Lemma srow_add n m t k : st_ok n m -> srow n (t + k * 12) = rmul (rpow (st_head n) k) (srow n t).
Proof. intros S0. unfold st_head, srow. rewrite <- (crs_add n 12) by (eauto using st_trof_v, st_period; destruct S0; lia). reflexivity. Qed.

Lemma st_pow_row n m k : st_ok n m -> rpow (st_head n) k = srow n (k * 12).
Proof. intros S0. symmetry. apply (crs_pow n 12); eauto using st_trof_v, st_period; destruct S0; lia. Qed.
