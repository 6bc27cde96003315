(** Proofs about [Row::parity]. *)
From Verif Require Import Base Bell Stage Parity Row ListFacts BellFacts RowFacts MulFacts Spec.
Local Open Scope list_scope.

(** xor of a boolean function over a list *)
Definition xor_all (p : nat -> bool) (l : list nat) : bool :=
  fold_right (fun x b => xorb (p x) b) false l.

(** parity of the number of inversions *)
Fixpoint sgn (l : list nat) : bool :=
  match l with
  | [] => false
  | x :: t => xorb (xor_all (fun y => y <? x) t) (sgn t)
  end.

Definition cross (a b : list nat) : bool := xor_all (fun x => xor_all (fun y => y <? x) b) a.

Lemma xor_all_app p a b : xor_all p (a ++ b) = xorb (xor_all p a) (xor_all p b).
Proof.
  unfold xor_all. induction a as [|x a IH]; cbn [app fold_right].
  - rewrite xorb_false_l; reflexivity.
  - rewrite IH, xorb_assoc; reflexivity.
Qed.

Lemma xor_all_perm p a b : Permutation a b -> xor_all p a = xor_all p b.
Proof.
  induction 1; cbn [xor_all fold_right] in *.
  - reflexivity.
  - f_equal; auto.
  - rewrite <- !xorb_assoc, (xorb_comm (p y)). reflexivity.
  - congruence.
Qed.

Lemma xor_all_ext p q l : (forall x, In x l -> p x = q x) -> xor_all p l = xor_all q l.
Proof.
  induction l as [|x l IH]; intros H; cbn [xor_all fold_right]; [reflexivity|].
  f_equal; [apply H; left; auto | apply IH; intros; apply H; right; auto].
Qed.

Lemma sgn_app a b : sgn (a ++ b) = xorb (xorb (sgn a) (sgn b)) (cross a b).
Proof.
  induction a as [|x a IH]; cbn [app sgn cross xor_all fold_right].
  - rewrite xorb_false_l, xorb_false_r; reflexivity.
  - rewrite IH, xor_all_app. fold (cross a b).
    change (fold_right (fun x0 b0 => xorb (xor_all (fun y => y <? x0) b) b0) false a) with (cross a b).
    destruct (xor_all _ a), (xor_all _ b), (sgn a), (sgn b), (cross a b); reflexivity.
Qed.

Lemma cross_perm a b b' : Permutation b b' -> cross a b = cross a b'.
Proof. intros H. apply xor_all_ext. intros x _. apply xor_all_perm; auto. Qed.

Lemma xor_lt_gt x B : ~ In x B ->
  xorb (xor_all (fun y => y <? x) B) (xor_all (fun y => x <? y) B) = Nat.odd (length B).
Proof.
  induction B as [|b B IH]; intros H; cbn [xor_all fold_right length]; [reflexivity|].
  rewrite Nat.odd_succ, <- Nat.negb_odd, <- IH by (intros Hin; apply H; right; auto).
  assert (Hb : x <> b) by (intros ->; apply H; left; auto).
  fold (xor_all (fun y => y <? x) B). fold (xor_all (fun y => x <? y) B).
  destruct (Nat.ltb_spec b x), (Nat.ltb_spec x b); try lia;
    destruct (xor_all _ B), (xor_all _ B); reflexivity.
Qed.

Lemma cross_cons_r z B C :
  cross B (z :: C) = xorb (xor_all (fun b => z <? b) B) (cross B C).
Proof.
  induction B as [|b B IH]; [reflexivity|].
  change (cross (b :: B) (z :: C)) with (xorb (xorb (z <? b) (xor_all (fun y => y <? b) C)) (cross B (z :: C))).
  change (cross (b :: B) C) with (xorb (xor_all (fun y => y <? b) C) (cross B C)).
  change (xor_all (fun b0 => z <? b0) (b :: B)) with (xorb (z <? b) (xor_all (fun b0 => z <? b0) B)).
  rewrite IH.
  destruct (z <? b), (xor_all (fun y0 => y0 <? b) C), (xor_all (fun b0 => z <? b0) B), (cross B C);
    reflexivity.
Qed.

Lemma sgn_block x B y C : x <> y -> ~ In x B -> ~ In y B ->
  sgn (x :: B ++ y :: C) = negb (sgn (y :: B ++ x :: C)).
Proof.
  intros Hxy Hx Hy. cbn [sgn]. rewrite !sgn_app, !xor_all_app. cbn [sgn].
  rewrite !cross_cons_r.
  change (xor_all (fun y0 => y0 <? x) (y :: C)) with (xorb (y <? x) (xor_all (fun y0 => y0 <? x) C)).
  change (xor_all (fun y0 => y0 <? y) (x :: C)) with (xorb (x <? y) (xor_all (fun y0 => y0 <? y) C)).
  pose proof (xor_lt_gt x B Hx) as E1. pose proof (xor_lt_gt y B Hy) as E2.
  rewrite <- E2 in E1. clear E2.
  assert (E3 : (y <? x) = negb (x <? y)).
  { destruct (Nat.ltb_spec x y), (Nat.ltb_spec y x); try reflexivity; lia. }
  rewrite E3. revert E1.
  generalize (xor_all (fun y0 => y0 <? x) B) (xor_all (fun y0 => x <? y0) B)
             (xor_all (fun y0 => y0 <? y) B) (xor_all (fun y0 => y <? y0) B)
             (xor_all (fun y0 => y0 <? x) C) (xor_all (fun y0 => y0 <? y) C)
             (sgn B) (sgn C) (cross B C) (x <? y).
  intros [] [] [] [] [] [] [] [] [] []; cbn; intros; try reflexivity; discriminate.
Qed.

(** Decomposition of a list around two places. *)
Lemma split_two (l : list nat) i j x y : i < j -> nth_error l i = Some x -> nth_error l j = Some y ->
  exists A B C, l = A ++ x :: B ++ y :: C /\ length A = i /\ length B = j - i - 1.
Proof.
  intros Hij Hi Hj. apply nth_error_split in Hi as (A & M & -> & LA).
  rewrite nth_error_app2 in Hj by lia. replace (j - length A) with (S (j - i - 1)) in Hj by lia.
  cbn [nth_error] in Hj. apply nth_error_split in Hj as (B & C & -> & LB).
  exists A, B, C; auto.
Qed.

Lemma swapped_sym_idx r s i j : swapped r s i j -> swapped r s j i.
Proof. intros (H1 & H2 & H3 & H4 & H5 & H6). unfold swapped. splits; auto. Qed.

Lemma nth_error_cons_app {A} (l1 : list A) x l2 : nth_error (l1 ++ x :: l2) (length l1) = Some x.
Proof. rewrite nth_error_app2, Nat.sub_diag; auto. Qed.

Lemma nth_error_two (A B C : list nat) x y k :
  nth_error (A ++ x :: B ++ y :: C) k =
  if k =? length A then Some x else
  if k =? length A + S (length B) then Some y else
  nth_error (A ++ 0 :: B ++ 0 :: C) k.
Proof.
  destruct (Nat.eqb_spec k (length A)) as [->|H1]; [apply nth_error_cons_app|].
  destruct (Nat.lt_ge_cases k (length A)) as [L|L].
  - destruct (Nat.eqb_spec k (length A + S (length B))) as [->|H2]; [lia|].
    rewrite !nth_error_app1 by auto. reflexivity.
  - rewrite !nth_error_app2 by lia.
    destruct (k - length A) as [|m] eqn:E; [lia|]. cbn [nth_error].
    destruct (Nat.eqb_spec k (length A + S (length B))) as [->|H2].
    + replace m with (length B) by lia. apply nth_error_cons_app.
    + destruct (Nat.lt_ge_cases m (length B)) as [L2|L2]; [rewrite !nth_error_app1 by auto; reflexivity|].
      rewrite !nth_error_app2 by lia. destruct (m - length B) as [|q] eqn:E2; [lia|]. reflexivity.
Qed.

Lemma swapped_shape r s i j : i < j -> swapped r s i j ->
  exists A x B y C, r = A ++ x :: B ++ y :: C /\ s = A ++ y :: B ++ x :: C.
Proof.
  intros Hij H. pose proof H as (H1 & H2 & H3 & H4 & H5 & H6).
  destruct (nth_error r i) as [x|] eqn:Ex; [|apply nth_error_None in Ex; lia].
  destruct (nth_error r j) as [y|] eqn:Ey; [|apply nth_error_None in Ey; lia].
  destruct (split_two r i j x y Hij Ex Ey) as (A & B & C & Er & LA & LB).
  exists A, x, B, y, C. split; auto. apply (swapped_fun r s _ i j H).
  subst r. unfold swapped. splits; auto.
  - rewrite !app_length. cbn [length]. rewrite !app_length. cbn. lia.
  - rewrite Ey, nth_error_two. rewrite <- LA, Nat.eqb_refl. reflexivity.
  - rewrite Ex, nth_error_two. replace (j =? length A) with false by (symmetry; apply Nat.eqb_neq; lia).
    replace (j =? length A + S (length B)) with true by (symmetry; apply Nat.eqb_eq; lia). reflexivity.
  - intros k Hk1 Hk2. rewrite (nth_error_two A B C y x), (nth_error_two A B C x y).
    replace (k =? length A) with false by (symmetry; apply Nat.eqb_neq; lia).
    replace (k =? length A + S (length B)) with false by (symmetry; apply Nat.eqb_neq; lia). reflexivity.
Qed.

Lemma sgn_swap r s i j : NoDup r -> i <> j -> swapped r s i j -> sgn r = negb (sgn s).
Proof.
  assert (Hlt : forall i j, NoDup r -> i < j -> swapped r s i j -> sgn r = negb (sgn s)).
  { clear i j. intros i j Hnd Hij H. apply swapped_shape in H as (A & x & B & y & C & -> & ->); auto.
    rewrite !sgn_app.
    assert (Hp : Permutation (x :: B ++ y :: C) (y :: B ++ x :: C)).
    { rewrite (Permutation_app_comm B (y :: C)), (Permutation_app_comm B (x :: C)). cbn [app].
      apply perm_swap. }
    rewrite (cross_perm A _ _ Hp).
    apply NoDup_app_elim in Hnd as (_ & Hnd & _).
    inversion Hnd as [|? ? Hx Hnd']; subst. rewrite in_app_iff in Hx. cbn [In] in Hx.
    apply NoDup_remove_2 in Hnd'. rewrite in_app_iff in Hnd'.
    rewrite sgn_block by (intuition congruence).
    destruct (sgn A), (sgn (y :: B ++ x :: C)), (cross A _); reflexivity. }
  intros Hnd Hne H. destruct (Nat.lt_trichotomy i j) as [L|[L|L]]; [eauto | lia|].
  apply swapped_sym_idx in H. eauto.
Qed.

Lemma swaps_to_NoDup r n s : NoDup r -> swaps_to r n s -> NoDup s.
Proof.
  intros Hnd H. induction H as [|r i j s n t Hne Hsw H IH]; auto. apply IH.
  eapply Permutation_NoDup; [eapply swapped_Permutation; eauto | auto].
Qed.

Lemma sgn_swaps r n s : NoDup r -> swaps_to r n s -> sgn r = xorb (Nat.odd n) (sgn s).
Proof.
  intros Hnd H. induction H as [|r i j s n t Hne Hsw H IH].
  - cbn. destruct (sgn r); reflexivity.
  - rewrite (sgn_swap r s i j) by auto. rewrite IH.
    + rewrite Nat.odd_succ, <- Nat.negb_odd. destruct (Nat.odd n), (sgn t); reflexivity.
    + eapply Permutation_NoDup; [eapply swapped_Permutation; eauto | auto].
Qed.

Lemma sgn_rounds n k : sgn (seq k n) = false.
Proof.
  revert k; induction n as [|n IH]; intros k; cbn [seq sgn]; [reflexivity|].
  rewrite IH, xorb_false_r.
  rewrite (xor_all_ext _ (fun _ => false)).
  - generalize (seq (S k) n). intros l; induction l as [|x l IHl]; cbn [xor_all fold_right]; [reflexivity|]. rewrite xorb_false_l; exact IHl.
  - intros x Hx. apply in_seq in Hx. apply Nat.ltb_ge; lia.
Qed.

(** ** the loop *)

Definition not_home (r : row) : nat :=
  length (filter (fun i => negb (nth i r 0 =? i)) (seq 0 (length r))).

Lemma filter_length_le {A} (p q : A -> bool) l :
  (forall x, In x l -> p x = true -> q x = true) -> length (filter p l) <= length (filter q l).
Proof.
  induction l as [|x l IH]; intros H; cbn [filter]; [lia|].
  assert (IH' := IH (fun x Hx => H x (or_intror Hx))).
  destruct (p x) eqn:Ep; [rewrite (H x (or_introl eq_refl) Ep); cbn; lia|].
  destruct (q x); cbn; lia.
Qed.

Lemma filter_length_lt {A} (p q : A -> bool) l z :
  (forall x, In x l -> p x = true -> q x = true) -> In z l -> p z = false -> q z = true ->
  length (filter p l) < length (filter q l).
Proof.
  induction l as [|x l IH]; intros H Hz Hp Hq; [destruct Hz|]. cbn [filter].
  assert (Hle := filter_length_le p q l (fun x Hx => H x (or_intror Hx))).
  destruct Hz as [->|Hz].
  - rewrite Hp, Hq. cbn; lia.
  - specialize (IH (fun x Hx => H x (or_intror Hx)) Hz Hp Hq).
    destruct (p x) eqn:Ep; [rewrite (H x (or_introl eq_refl) Ep); cbn; lia|].
    destruct (q x); cbn; lia.
Qed.

Lemma parity_loop_spec fuel : forall r i n,
  valid_row r -> i <= length r -> (forall k, k < i -> nth k r 0 = k) ->
  (length r - i) + not_home r < fuel ->
  exists k, parity_loop fuel r i n = Ret (row_rounds (length r), n + k) /\
            swaps_to r k (row_rounds (length r)).
Proof.
  induction fuel as [|fuel IH]; intros r i n Hv Hi Hhome Hfuel; [lia|].
  cbn [parity_loop]. rewrite valid_row_stage by auto. cbn [bind].
  destruct (Nat.ltb_spec i (length r)) as [Hlt|Hge].
  - rewrite (idx_ret 0) by auto. cbn [bind].
    destruct (Nat.eqb_spec (nth i r 0) i) as [E|E].
    + apply IH; auto; [|lia].
      intros k Hk. destruct (Nat.eq_dec k i) as [->|]; auto. apply Hhome; lia.
    + set (c := nth i r 0) in *.
      assert (Hc : c < length r) by (apply valid_row_nth_lt; auto).
      rewrite row_swap_ok by auto. cbn [bind]. fold c.
      set (r' := upd (upd r i (nth c r 0)) c c).
      assert (Hsw : swapped r r' i c) by (apply row_swap_swapped; auto).
      assert (Hv' : valid_row r') by (eapply swapped_valid; eauto).
      assert (L : length r' = length r) by (unfold r'; rewrite !length_upd; auto).
      assert (Hci : i < c).
      { destruct (Nat.lt_trichotomy c i) as [Hl|[Hl|Hl]]; auto; [|congruence].
        exfalso. apply E. symmetry.
        apply (proj1 (NoDup_nth r 0) (valid_row_NoDup r Hv)); auto.
        fold c. rewrite (Hhome c Hl). reflexivity. }
      destruct (IH r' i (S n)) as (k & Hk & Hsk); auto; [lia| |..].
      * intros k Hk. unfold r'. rewrite !nth_upd_other by lia. apply Hhome; lia.
      * assert (not_home r' < not_home r); [|lia].
        unfold not_home. rewrite L. apply filter_length_lt with (z := c).
        -- intros x Hx Hp. unfold r' in Hp. rewrite nth_upd in Hp.
           destruct (Nat.eqb_spec x c) as [->|Hxc].
           { exfalso. rewrite length_upd in Hp.
             rewrite (proj2 (Nat.ltb_lt _ _) Hc) in Hp. cbn [andb] in Hp.
             rewrite Nat.eqb_refl in Hp. discriminate. }
           cbn [andb] in Hp. rewrite nth_upd in Hp.
           destruct (Nat.eqb_spec x i) as [->|Hxi].
           { fold c. apply negb_true_iff, Nat.eqb_neq; auto. }
           exact Hp.
        -- apply in_seq; lia.
        -- unfold r'. rewrite nth_upd_same by (rewrite length_upd; auto).
           rewrite Nat.eqb_refl; reflexivity.
        -- apply negb_true_iff, Nat.eqb_neq. intros Hcc.
           assert (c = i); [|lia].
           apply (proj1 (NoDup_nth r 0) (valid_row_NoDup r Hv)); auto.
      * exists (S k). rewrite Hk, L. split; [f_equal; f_equal; lia|].
        rewrite L in Hsk. eapply swaps_more; [|exact Hsw|exact Hsk]. lia.
  - exists 0. assert (r = row_rounds (length r)) as Er.
    { apply row_ext; [rewrite length_rounds; auto|]. intros k Hk. rewrite nth_rounds by auto.
      apply Hhome; lia. }
    rewrite <- Er. split; [f_equal; f_equal; lia | constructor].
Qed.

Lemma not_home_le r : not_home r <= length r.
Proof.
  unfold not_home. rewrite <- (seq_length (length r) 0) at 2.
  generalize (seq 0 (length r)) as l. intros l. generalize (fun i => negb (nth i r 0 =? i)) as p.
  intros p. induction l as [|x l IH]; cbn; [lia|]. destruct (p x); cbn; lia.
Qed.

Lemma parity_from_number_odd n : parity_from_number n = if Nat.odd n then Odd else Even.
Proof.
  unfold parity_from_number, parity_from_is_odd.
  assert (H : (n mod 2 =? 0) = Nat.even n).
  { destruct (Nat.even n) eqn:E.
    - apply Nat.even_spec in E as (k & ->). apply Nat.eqb_eq.
      rewrite Nat.mul_comm. apply Nat.mod_mul; lia.
    - apply Nat.eqb_neq. intros H. apply Nat.mod_divides in H as (k & ->); [|lia].
      assert (Nat.even (2 * k) = true) by (apply Nat.even_spec; exists k; auto). congruence. }
  rewrite H, Nat.negb_even. reflexivity.
Qed.

Lemma row_parity_ok r fuel : valid_row r -> 2 * length r < fuel ->
  row_parity fuel r = Ret (row_rounds (length r), if sgn r then Odd else Even) /\
  exists k, swaps_to r k (row_rounds (length r)).
Proof.
  intros Hv Hf. pose proof (not_home_le r).
  destruct (parity_loop_spec fuel r 0 0 Hv) as (k & Hk & Hs); [lia | intros; lia | lia|].
  unfold row_parity. rewrite Hk. cbn [bind]. split; [|eauto].
  rewrite parity_from_number_odd. apply sgn_swaps in Hs; [|apply valid_row_NoDup; auto].
  rewrite rounds_seq, sgn_rounds, xorb_false_r in Hs. rewrite Hs. reflexivity.
Qed.

Lemma swapped_rmul a b b' i j : swapped b b' i j -> swapped (rmul a b) (rmul a b') i j.
Proof.
  intros (H1 & H2 & H3 & H4 & H5 & H6). unfold swapped. rewrite !length_rmul. splits; auto.
  - unfold rmul. rewrite !nth_error_map. congruence.
  - unfold rmul. rewrite !nth_error_map. congruence.
  - intros k K1 K2. unfold rmul. rewrite !nth_error_map, H6; auto.
Qed.

Lemma swaps_to_rmul a b n c : swaps_to b n c -> swaps_to (rmul a b) n (rmul a c).
Proof.
  induction 1 as [|r i j s n t Hne Hsw H IH]; [constructor|].
  econstructor; [exact Hne | apply swapped_rmul; exact Hsw | exact IH].
Qed.

Lemma sgn_rmul n a b : vrow n a -> vrow n b -> sgn (rmul a b) = xorb (sgn a) (sgn b).
Proof.
  intros Ha Hb. destruct (row_parity_ok b (S (2 * length b)) (proj1 Hb)) as [_ (k & Hk)]; [lia|].
  pose proof (swaps_to_rmul a _ _ _ Hk) as Hk'. rewrite (proj2 Hb) in *.
  rewrite rmul_rounds_r in Hk' by apply Ha.
  apply sgn_swaps in Hk; [|apply valid_row_NoDup, Hb].
  apply sgn_swaps in Hk'; [|eapply valid_row_NoDup, valid_rmul; eauto].
  rewrite rounds_seq, sgn_rounds, xorb_false_r in Hk. rewrite Hk', Hk. apply xorb_comm.
Qed.
