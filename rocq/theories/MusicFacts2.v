(** Proofs about runs, counting and binomial coefficients. *)
From Verif Require Import Base Bell Stage Row Utils Music Mask Spec SpecMask ListFacts BellFacts RowFacts MulFacts MaskFacts MaskFacts2 MusicFacts.
From Coq Require Import Sorted.
Local Open Scope list_scope.

(** ** Binomial coefficients *)

Lemma binomial_0 n : binomial n 0 = 1. Proof. destruct n; auto. Qed.
Lemma binomial_gt n k : n < k -> binomial n k = 0.
Proof.
  revert k; induction n as [|n IH]; intros [|k] H; try lia; auto. cbn [binomial]. rewrite !IH by lia. reflexivity.
Qed.
Lemma binomial_nn n : binomial n n = 1.
Proof. induction n as [|n IH]; auto. cbn [binomial]. rewrite IH, binomial_gt by lia. reflexivity. Qed.

Lemma binomial_fact n k : k <= n -> binomial n k * (fact k * fact (n - k)) = fact n.
Proof.
  revert k; induction n as [|n IH]; intros k H.
  - assert (k = 0) as -> by lia. reflexivity.
  - destruct k as [|k]; [rewrite binomial_0, Nat.sub_0_r; cbn [fact]; lia|].
    cbn [binomial]. destruct (Nat.eq_dec k n) as [->|D].
    + rewrite binomial_nn, binomial_gt, Nat.sub_diag by lia. change (fact 0) with 1. lia.
    + pose proof (IH k ltac:(lia)) as A. pose proof (IH (S k) ltac:(lia)) as B.
      replace (S n - S k) with (n - k) by lia.
      replace (n - k) with (S (n - S k)) in * by lia.
      change (fact (S k)) with (S k * fact k) in *. change (fact (S n)) with (S n * fact n).
      change (fact (S (n - S k))) with (S (n - S k) * fact (n - S k)) in *.
      set (c1 := binomial n k) in *. set (c2 := binomial n (S k)) in *. set (f := fact k) in *. set (g := fact (n - S k)) in *.
      transitivity (S k * (c1 * (f * (S (n - S k) * g))) + S (n - S k) * (c2 * (S k * f * g))); [ring|].
      rewrite A, B, <- Nat.mul_add_distr_r. f_equal. lia.
Qed.

Lemma fact_pos n : 0 < fact n. Proof. apply lt_O_fact. Qed.

Lemma binomial_pos n k : k <= n -> 0 < binomial n k.
Proof. intros H. apply binomial_fact in H. pose proof (fact_pos n). nia. Qed.

Lemma binomial_sym n k : k <= n -> binomial n (n - k) = binomial n k.
Proof.
  intros H. pose proof (binomial_fact n k H) as A. pose proof (binomial_fact n (n - k) ltac:(lia)) as B.
  replace (n - (n - k)) with k in B by lia. pose proof (fact_pos k). pose proof (fact_pos (n - k)).
  rewrite (Nat.mul_comm (fact (n - k))) in B. apply (Nat.mul_cancel_r _ _ (fact k * fact (n - k))); nia.
Qed.

(** The product of [i] consecutive numbers from [a + 1] on. *)
Definition rising (a i : nat) : nat := binomial (a + i) i * fact i.

Lemma rising_fact a i : rising a i * fact a = fact (a + i).
Proof.
  unfold rising. rewrite <- (binomial_fact (a + i) i) by lia. replace (a + i - i) with a by lia. ring.
Qed.

Lemma rising_S a i : rising a (S i) = rising a i * (a + S i).
Proof.
  apply (Nat.mul_cancel_r _ _ (fact a)); [pose proof (fact_pos a); lia|].
  transitivity (rising a i * fact a * (a + S i)); [|ring]. rewrite !rising_fact, Nat.add_succ_r. cbn [fact]. lia.
Qed.

Lemma rising_mono a i j : i <= j -> rising a i <= rising a j.
Proof. induction 1 as [|j H IH]; auto. rewrite rising_S. nia. Qed.

Lemma fact_le_rising a i : fact i <= rising a i.
Proof. unfold rising. pose proof (binomial_pos (a + i) i ltac:(lia)). nia. Qed.

Lemma choice_loop_ok w a k todo done : done + todo = k -> (N.of_nat (rising a done) < 2 ^ w)%N ->
  choice_loop w (N.of_nat (a + k)) (N.of_nat k) (S done) todo (N.of_nat (rising a done)) (N.of_nat (fact done)) =
  Ret (if (N.of_nat (rising a k) <? 2 ^ w)%N then Some (N.of_nat (rising a k), N.of_nat (fact k)) else None).
Proof.
  revert done; induction todo as [|todo IH]; intros done E H; cbn [choice_loop].
  - assert (done = k) as -> by lia. destruct (N.ltb_spec (N.of_nat (rising a k)) (2 ^ w)); [reflexivity|lia].
  - replace (N.of_nat (rising a done) * (N.of_nat (a + k) - N.of_nat k + N.of_nat (S done)))%N with (N.of_nat (rising a (S done)))
      by (rewrite rising_S, Nat2N.inj_mul; f_equal; lia).
    destruct (N.ltb_spec (N.of_nat (rising a (S done))) (2 ^ w)) as [L|L].
    + replace (N.of_nat (fact done) * N.of_nat (S done))%N with (N.of_nat (fact (S done))) by (rewrite <- Nat2N.inj_mul; f_equal; cbn [fact]; lia).
      pose proof (fact_le_rising a (S done)).
      destruct (N.ltb_spec (N.of_nat (fact (S done))) (2 ^ w)) as [L2|L2]; [|lia].
      apply IH; auto; lia.
    + pose proof (rising_mono a (S done) k ltac:(lia)).
      destruct (N.ltb_spec (N.of_nat (rising a k)) (2 ^ w)); [lia|reflexivity].
Qed.

Lemma choice_ok w n k : (0 < w)%N -> k <= n ->
  choice w (N.of_nat n) (N.of_nat k) =
  Ret (if (N.of_nat (binomial n k * fact (Nat.min k (n - k))) <? 2 ^ w)%N then Some (N.of_nat (binomial n k)) else None).
Proof.
  intros Hw H. unfold choice. destruct (N.ltb_spec (N.of_nat n) (N.of_nat k)); [lia|].
  set (k' := Nat.min k (n - k)).
  replace (N.min (N.of_nat k) (N.of_nat n - N.of_nat k)) with (N.of_nat k') by (unfold k'; lia).
  rewrite Nat2N.id. set (a := n - k').
  assert (B : binomial n k' = binomial n k).
  { unfold k'. destruct (Nat.min_spec k (n - k)) as [[_ ->]|[_ ->]]; auto. apply binomial_sym; auto. }
  assert (En : n = a + k') by (unfold a, k'; lia).
  assert (R0 : rising a 0 = 1) by (unfold rising; rewrite binomial_0; reflexivity).
  assert (P : (1 < 2 ^ w)%N) by (apply N.pow_gt_1; lia).
  rewrite En at 1. pose proof (choice_loop_ok w a k' k' 0 eq_refl) as C. rewrite R0 in C. cbn [fact] in C.
  change (N.of_nat 1) with 1%N in C. rewrite C by auto. cbn [bind].
  assert (E : rising a k' = binomial n k * fact k') by (unfold rising; rewrite <- En, B; reflexivity).
  rewrite E. destruct (N.ltb_spec (N.of_nat (binomial n k * fact k')) (2 ^ w)); auto.
  rewrite Nat2N.inj_mul, N.div_mul; auto. pose proof (fact_pos k'). lia.
Qed.

Lemma choice_panic w n k : n < k -> choice w (N.of_nat n) (N.of_nat k) = Panic.
Proof. intros H. unfold choice. destruct (N.ltb_spec (N.of_nat n) (N.of_nat k)); [reflexivity|lia]. Qed.

(** ** Factorials *)

Lemma fact_mono a b : a <= b -> fact a <= fact b. Proof. apply fact_le. Qed.

Lemma checked_factorial_ok w n : (0 < w)%N ->
  checked_factorial w n = if (N.of_nat (fact n) <? 2 ^ w)%N then Some (N.of_nat (fact n)) else None.
Proof.
  intros Hw. assert (P : (1 < 2 ^ w)%N) by (apply N.pow_gt_1; lia).
  induction n as [|n IH]; cbn [checked_factorial].
  - change (N.of_nat (fact 0)) with 1%N. destruct (N.ltb_spec 1 (2 ^ w)); [auto|lia].
  - rewrite IH. pose proof (fact_mono n (S n) ltac:(lia)).
    destruct (N.ltb_spec (N.of_nat (fact n)) (2 ^ w)).
    + replace (N.of_nat (fact n) * N.of_nat (S n))%N with (N.of_nat (fact (S n))) by (rewrite <- Nat2N.inj_mul; f_equal; cbn [fact]; lia).
      reflexivity.
    + destruct (N.ltb_spec (N.of_nat (fact (S n))) (2 ^ w)); [lia|reflexivity].
Qed.

(** ** Counting *)

Lemma count_elems_ok es n i j :
  count_elems es n i j = if length (bells_written es) <=? n then Ret (n - length (bells_written es), i + count_any es, j + count_glob es) else Panic.
Proof.
  revert n i j; induction es as [|[b| |] es IH]; intros n i j; cbn [count_elems bells_written count_any count_glob].
  - cbn. rewrite Nat.sub_0_r, !Nat.add_0_r. reflexivity.
  - destruct n as [|n]; auto. rewrite IH. reflexivity.
  - rewrite IH. replace (i + 1 + count_any es) with (i + S (count_any es)) by lia. reflexivity.
  - rewrite IH. replace (j + 1 + count_glob es) with (j + S (count_glob es)) by lia. reflexivity.
Qed.

Definition tomask (e : regex_elem) : option nat := match e with RBell b => Some b | _ => None end.

Lemma fits_app a b r : fits (a ++ b) r <-> exists r1 r2, r = r1 ++ r2 /\ fits a r1 /\ fits b r2.
Proof.
  revert r; induction a as [|x a IH]; intros r; cbn [app].
  - split; [intros H; exists [], r; repeat split; auto; try apply H; intros [|p] c; discriminate|].
    intros (r1 & r2 & -> & H & H2). apply fits_nil in H; subst; auto.
  - destruct r as [|y r].
    + split; [intros [L _]; discriminate L|]. intros (r1 & r2 & E & [L _] & _). symmetry in E. apply app_eq_nil in E as [-> ->]. discriminate L.
    + rewrite fits_cons, IH. split.
      * intros (H & r1 & r2 & -> & H1 & H2). exists (y :: r1), r2. split; auto. split; auto. apply fits_cons; auto.
      * intros (r1 & r2 & E & H1 & H2). destruct r1 as [|z r1]; [destruct H1 as [L _]; discriminate L|]. cbn in E. injection E as <- ->.
        apply fits_cons in H1 as [H1 H3]. split; auto. eauto.
Qed.

Lemma fits_repeat g l : fits (repeat None g) l <-> length l = g.
Proof.
  unfold fits. rewrite repeat_length. split; [tauto|]. intros H; split; auto. intros p b Hp.
  apply nth_error_In, repeat_spec in Hp. discriminate.
Qed.

Lemma described_mask es l : count_glob es = 0 -> (described es l <-> fits (map tomask es) l).
Proof.
  revert l; induction es as [|[b| |] es IH]; intros l H; cbn in H; try discriminate; cbn [map tomask].
  - rewrite described_nil_inv, fits_nil. reflexivity.
  - rewrite described_bell_inv. destruct l as [|x l].
    + split; [intros (bs & E & _); discriminate|intros [L _]; discriminate L].
    + rewrite fits_cons, <- IH by auto. split; [intros (bs & [= -> ->] & D); auto|intros [-> D]; eauto].
  - rewrite described_any_inv. destruct l as [|x l].
    + split; [intros (y & bs & E & _); discriminate|intros [L _]; discriminate L].
    + rewrite fits_cons, <- IH by auto. split; [intros (y & bs & [= -> ->] & D); auto|intros [_ D]; eauto].
Qed.

Lemma mbells_app a b : mbells (a ++ b) = mbells a ++ mbells b. Proof. apply filter_map_app. Qed.
Lemma nopen_app a b : nopen (a ++ b) = nopen a + nopen b.
Proof. unfold nopen. rewrite filter_app, app_length. reflexivity. Qed.
Lemma mbells_tomask es : mbells (map tomask es) = bells_written es.
Proof. unfold mbells. induction es as [|[b| |] es IH]; cbn; auto. f_equal; auto. Qed.
Lemma nopen_tomask es : nopen (map tomask es) = count_any es + count_glob es.
Proof. unfold nopen. induction es as [|[b| |] es IH]; cbn; auto. lia. Qed.
Lemma mbells_repeat g : mbells (repeat None g) = []. Proof. induction g; cbn; auto. Qed.
Lemma nopen_repeat g : nopen (repeat None g) = g. Proof. unfold nopen. induction g; cbn; auto. Qed.

Lemma length_elems es : length es = length (bells_written es) + count_any es + count_glob es.
Proof. induction es as [|[b| |] es IH]; cbn; lia. Qed.

Lemma wf_of_bells m bs : mbells m = bs -> m <> [] -> NoDup bs -> Forall (fun b => b < length m) bs -> well_formed_mask m.
Proof.
  intros <- N D F. unfold well_formed_mask. splits; auto; [apply NoDup_once; auto|].
  intros p b Hp. rewrite Forall_forall in F. apply F, In_mbells. eauto.
Qed.

Lemma one_glob es : count_glob es = 1 -> exists pre post, es = pre ++ RGlob :: post /\ count_glob pre = 0 /\ count_glob post = 0.
Proof.
  induction es as [|[b| |] es IH]; cbn; intros H; try discriminate.
  - destruct (IH H) as (pre & post & -> & ?). exists (RBell b :: pre), post. auto.
  - destruct (IH H) as (pre & post & -> & ?). exists (RAny :: pre), post. auto.
  - exists [], es. repeat split; auto; lia.
Qed.

(** A regex with one glob matches as many rows as there are orders of the bells not written. *)
Lemma count_one_glob es s : 0 < s -> NoDup (bells_written es) -> Forall (fun b => b < s) (bells_written es) ->
  count_glob es = 1 -> length (bells_written es) + count_any es <= s ->
  there_are (fact (s - length (bells_written es))) (fun r => valid_row r /\ length r = s /\ described es r).
Proof.
  intros Hs N F G L. destruct (one_glob es G) as (pre & post & E & G1 & G2).
  set (g := s - length pre - length post).
  pose proof (length_elems es) as Le. assert (Lp : length es = length pre + S (length post)) by (rewrite E, app_length; reflexivity).
  set (m := map tomask pre ++ repeat None g ++ map tomask post).
  assert (Lm : length m = s) by (unfold m, g; rewrite !app_length, !map_length, repeat_length; lia).
  assert (Bm : mbells m = bells_written es).
  { unfold m. rewrite !mbells_app, !mbells_tomask, mbells_repeat, E, bells_app. reflexivity. }
  assert (W : well_formed_mask m).
  { apply (wf_of_bells m _ Bm); auto; [intros K; rewrite K in Lm; cbn in Lm; lia|rewrite Lm; auto]. }
  pose proof (length_mbells m) as Lo. rewrite Bm, Lm in Lo.
  replace (s - length (bells_written es)) with (nopen m) by lia.
  destruct (count_fits m W) as (l & L1 & L2 & L3). exists l. splits; auto.
  intros r. rewrite L3. split.
  - intros [V Fr]. split; auto. split; [rewrite <- Lm; apply Fr|].
    unfold m in Fr. apply fits_app in Fr as (r1 & r2 & -> & F1 & F2). apply fits_app in F2 as (r3 & r4 & -> & F3 & F4).
    rewrite E. apply described_app. exists r1, (r3 ++ r4). split; auto. split; [apply described_mask; auto|].
    constructor. apply described_mask; auto.
  - intros (V & Lr & D). split; auto. rewrite E in D. apply described_app in D as (r1 & r2 & -> & D1 & D2).
    apply described_glob_inv in D2 as (r3 & r4 & -> & D4). apply described_mask in D1, D4; auto.
    unfold m. apply fits_app. exists r1, (r3 ++ r4). split; auto. split; auto. apply fits_app. exists r3, r4. split; auto. split; auto.
    apply fits_repeat. destruct D1 as [K1 _], D4 as [K4 _]. rewrite map_length in K1, K4. rewrite !app_length in Lr. unfold g. lia.
Qed.

Lemma count_no_glob es s : 0 < s -> NoDup (bells_written es) -> Forall (fun b => b < s) (bells_written es) ->
  count_glob es = 0 -> length (bells_written es) + count_any es = s ->
  there_are (fact (count_any es)) (fun r => valid_row r /\ length r = s /\ described es r).
Proof.
  intros Hs N F G L. pose proof (length_elems es) as Le. set (m := map tomask es).
  assert (Lm : length m = s) by (unfold m; rewrite map_length; lia).
  assert (Bm : mbells m = bells_written es) by apply mbells_tomask.
  assert (W : well_formed_mask m).
  { apply (wf_of_bells m _ Bm); auto; [intros K; rewrite K in Lm; cbn in Lm; lia|rewrite Lm; auto]. }
  replace (count_any es) with (nopen m) by (unfold m; rewrite nopen_tomask; lia).
  destruct (count_fits m W) as (l & L1 & L2 & L3). exists l. splits; auto.
  intros r. rewrite L3. unfold m. rewrite described_mask by auto. split; [|tauto].
  intros [V Fr]. splits; auto. rewrite <- Lm. apply Fr.
Qed.

Lemma num_matching_value w es s : (0 < w)%N -> length (bells_written es) + count_any es <= s ->
  num_matching_rows w es s =
    let u := s - length (bells_written es) in let i := count_any es in let j := count_glob es in
    if (N.of_nat (binomial u i * fact (Nat.min i (u - i))) <? 2 ^ w)%N then
      if (N.of_nat (fact (u - i + (i - 1))) <? 2 ^ w)%N then
        if (N.of_nat (fact (j - 1)) <? 2 ^ w)%N then
          let res := (N.of_nat (binomial u i) * (N.of_nat (fact (u - i + (i - 1))) / N.of_nat (fact (j - 1))))%N in
          if (res <? 2 ^ w)%N then Ret (Some res) else Panic
        else Ret None
      else Ret None
    else Ret None.
Proof.
  intros Hw L. cbv zeta. unfold num_matching_rows. rewrite count_elems_ok.
  destruct (Nat.leb_spec (length (bells_written es)) s); [|lia]. cbn [bind]. rewrite !Nat.add_0_l.
  rewrite choice_ok by (auto; lia). cbn [bind]. destruct (N.ltb _ _); auto.
  destruct (Nat.leb_spec (count_any es) (s - length (bells_written es))); [|lia]. cbn [assert_ bind].
  rewrite !checked_factorial_ok by auto.
  destruct (N.ltb (N.of_nat (fact (s - length (bells_written es) - count_any es + (count_any es - 1)))) _); auto.
  destruct (N.ltb (N.of_nat (fact (count_glob es - 1))) _); auto.
Qed.

(** ** Runs *)

Lemma described_bells bs es l : described (map RBell bs ++ es) l <-> exists t, l = bs ++ t /\ described es t.
Proof.
  revert l; induction bs as [|b bs IH]; intros l; cbn.
  - split; [eauto|intros (t & -> & H); auto].
  - rewrite described_bell_inv. split.
    + intros (t & -> & H). apply IH in H as (t' & -> & H). eauto.
    + intros (t & -> & H). exists (bs ++ t). split; auto. apply IH; eauto.
Qed.

Lemma described_globend l : described [RGlob] l.
Proof. apply described_glob_inv. exists l, []. rewrite app_nil_r. split; auto. constructor. Qed.

Lemma rev_map_bells bs : rev (map RBell bs) = map RBell (rev bs).
Proof. symmetry. apply map_rev. Qed.

Lemma nf_bells bs es : nf es -> nf (map RBell bs ++ es).
Proof. induction bs; cbn; auto. Qed.

Lemma run_iterator_seq i len : run_iterator i len = map RBell (seq i len).
Proof. unfold run_iterator, range. do 2 f_equal. lia. Qed.

Lemma run_up_seq r p len : 0 < len -> (run_up r p len <-> exists pre post, r = pre ++ seq (nth p r 0) len ++ post /\ length pre = p).
Proof.
  intros Hl. split.
  - intros [L H]. exists (firstn p r), (skipn len (skipn p r)). split; [|rewrite firstn_length; lia].
    assert (E : firstn len (skipn p r) = seq (nth p r 0) len).
    { apply nth_error_ext. intros j. rewrite nth_error_firstn, nth_error_skipn, nth_error_seq.
      destruct (Nat.ltb_spec j len) as [J|J]; auto.
      induction j as [|j IH]; [rewrite Nat.add_0_r; rewrite (nth_error_nth' r 0) by lia; f_equal; lia|].
      specialize (IH ltac:(lia)). destruct (nth_error r (p + S j)) as [y|] eqn:Ey; [|apply nth_error_None in Ey; lia].
      rewrite (H j _ _ J IH Ey). f_equal. lia. }
    rewrite <- E, firstn_skipn, firstn_skipn. reflexivity.
  - intros (pre & post & E & <-). set (x := nth (length pre) r 0) in *. clearbody x. subst r. split; [rewrite !app_length, seq_length; lia|].
    intros j a b J Ha Hb. rewrite nth_error_app2 in Ha, Hb by lia.
    rewrite nth_error_app1 in Ha, Hb by (rewrite seq_length; lia). rewrite nth_error_seq in Ha, Hb.
    replace (length pre + j - length pre) with j in Ha by lia. replace (length pre + S j - length pre) with (S j) in Hb by lia.
    destruct (Nat.ltb_spec j len); [|lia]. destruct (Nat.ltb_spec (S j) len); [|lia]. injection Ha as <-. injection Hb as <-. lia.
Qed.

Lemma nth_error_rev_seq x n j : j < n -> nth_error (rev (seq x n)) j = Some (x + (n - 1 - j)).
Proof.
  intros H. rewrite (nth_error_nth' _ 0) by (rewrite rev_length, seq_length; auto). f_equal.
  rewrite rev_nth by (rewrite seq_length; auto). rewrite seq_length, seq_nth by lia. lia.
Qed.

Lemma run_down_seq r p len : 0 < len ->
  (run_down r p len <-> exists pre post, r = pre ++ rev (seq (nth (p + (len - 1)) r 0) len) ++ post /\ length pre = p).
Proof.
  intros Hl. split.
  - intros [L H]. exists (firstn p r), (skipn len (skipn p r)). split; [|rewrite firstn_length; lia].
    set (x := nth (p + (len - 1)) r 0).
    assert (K : forall d, d < len -> nth_error r (p + (len - 1 - d)) = Some (x + d)).
    { induction d as [|d IH]; intros D.
      - rewrite Nat.sub_0_r, Nat.add_0_r. apply nth_error_nth'. lia.
      - specialize (IH ltac:(lia)). destruct (nth_error r (p + (len - 1 - S d))) as [y|] eqn:Ey; [|apply nth_error_None in Ey; lia].
        replace (p + (len - 1 - d)) with (p + S (len - 1 - S d)) in IH by lia.
        rewrite (H (len - 1 - S d) y (x + d)); auto; try lia; f_equal; lia. }
    assert (E : firstn len (skipn p r) = rev (seq x len)).
    { apply nth_error_ext. intros j. rewrite nth_error_firstn, nth_error_skipn.
      destruct (Nat.ltb_spec j len) as [J|J].
      - rewrite nth_error_rev_seq by auto. specialize (K (len - 1 - j) ltac:(lia)).
        replace (p + (len - 1 - (len - 1 - j))) with (p + j) in K by lia. auto.
      - symmetry. apply nth_error_None. rewrite rev_length, seq_length. auto. }
    rewrite <- E, firstn_skipn, firstn_skipn. reflexivity.
  - intros (pre & post & E & <-). set (x := nth _ r 0) in *. clearbody x. subst r. split; [rewrite !app_length, rev_length, seq_length; lia|].
    intros j a b J Ha Hb. rewrite nth_error_app2 in Ha, Hb by lia.
    rewrite nth_error_app1 in Ha, Hb by (rewrite rev_length, seq_length; lia).
    replace (length pre + j - length pre) with j in Ha by lia. replace (length pre + S j - length pre) with (S j) in Hb by lia.
    rewrite nth_error_rev_seq in Ha, Hb by lia. injection Ha as <-. injection Hb as <-. lia.
Qed.

(** A run somewhere, as a segment made of consecutive bells of the stage. *)
Lemma run_segment r p len : valid_row r -> p + len <= length r ->
  (run_at r p len <-> exists i pre post, i + len <= length r /\ length pre = p /\
     (r = pre ++ seq i len ++ post \/ r = pre ++ rev (seq i len) ++ post)).
Proof.
  intros V L. destruct (Nat.eq_dec len 0) as [->|D].
  - split.
    + intros _. exists 0, (firstn p r), (skipn p r). cbn. splits; try lia; [rewrite firstn_length; lia|left; symmetry; apply firstn_skipn].
    + intros _. left. split; auto. intros; lia.
  - unfold run_at. rewrite run_up_seq, run_down_seq by lia. split.
    + intros [(pre & post & E & Lp)|(pre & post & E & Lp)].
      * set (x := nth p r 0) in *. exists x, pre, post. splits; auto.
        assert (In (x + (len - 1)) r) by (rewrite E; apply in_or_app; right; apply in_or_app; left; apply in_seq; lia).
        apply V in H. lia.
      * set (x := nth (p + (len - 1)) r 0) in *. exists x, pre, post. splits; auto.
        assert (In (x + (len - 1)) r) by (rewrite E; apply in_or_app; right; apply in_or_app; left; apply in_rev; rewrite rev_involutive; apply in_seq; lia).
        apply V in H. lia.
    + intros (i & pre & post & Li & Lp & [E|E]).
      * left. exists pre, post. split; auto. rewrite E at 1. repeat f_equal. subst p. rewrite E, app_nth2, Nat.sub_diag by lia.
        rewrite app_nth1 by (rewrite seq_length; lia). rewrite seq_nth by lia. lia.
      * right. exists pre, post. split; auto. rewrite E at 1. repeat f_equal. subst p. rewrite E, app_nth2 by lia.
        rewrite app_nth1 by (rewrite rev_length, seq_length; lia). rewrite rev_nth by (rewrite seq_length; lia). rewrite seq_length, seq_nth by lia. lia.
Qed.

Lemma In_runs_front s len es : len <= s ->
  (In es (runs_front s len) <-> exists i, i + len <= s /\ (es = map RBell (seq i len) ++ [RGlob] \/ es = map RBell (rev (seq i len)) ++ [RGlob])).
Proof.
  intros L. unfold runs_front. destruct (Nat.ltb_spec s len); [lia|]. rewrite in_flat_map. unfold range. split.
  - intros (i & Hi & H1). apply in_seq in Hi. rewrite run_iterator_seq, rev_map_bells in H1. exists i. split; [lia|].
    destruct H1 as [<-|[<-|[]]]; auto.
  - intros (i & Hi & H1). exists i. split; [apply in_seq; lia|]. rewrite run_iterator_seq, rev_map_bells. cbn. intuition.
Qed.

Lemma In_runs_back s len es : len <= s ->
  (In es (runs_back s len) <-> exists i, i + len <= s /\ (es = RGlob :: map RBell (seq i len) \/ es = RGlob :: map RBell (rev (seq i len)))).
Proof.
  intros L. unfold runs_back. destruct (Nat.ltb_spec s len); [lia|]. rewrite in_flat_map. unfold range. split.
  - intros (i & Hi & H1). apply in_seq in Hi. rewrite run_iterator_seq, rev_map_bells in H1. exists i. split; [lia|].
    destruct H1 as [<-|[<-|[]]]; auto.
  - intros (i & Hi & H1). exists i. split; [apply in_seq; lia|]. rewrite run_iterator_seq, rev_map_bells. cbn. intuition.
Qed.

Lemma In_all_runs s len es : len <= s ->
  (In es (all_runs s len) <-> exists i, i + len <= s /\
     (es = RGlob :: map RBell (seq i len) ++ [RGlob] \/ es = RGlob :: map RBell (rev (seq i len)) ++ [RGlob])).
Proof.
  intros L. unfold all_runs. destruct (Nat.ltb_spec s len); [lia|]. rewrite in_flat_map. unfold range. split.
  - intros (i & Hi & H1). apply in_seq in Hi. rewrite run_iterator_seq, rev_map_bells in H1. exists i. split; [lia|].
    destruct H1 as [<-|[<-|[]]]; auto.
  - intros (i & Hi & H1). exists i. split; [apply in_seq; lia|]. rewrite run_iterator_seq, rev_map_bells. cbn. intuition.
Qed.

Lemma nf_glob_bells bs es : bs <> [] -> nf es -> nf (RGlob :: map RBell bs ++ es).
Proof. intros B H. destruct bs as [|b bs]; [congruence|]. cbn. apply nf_bells; auto. Qed.

Lemma seq_nonempty i len : 0 < len -> seq i len <> [].
Proof. destruct len; [lia|discriminate]. Qed.
Lemma rev_seq_nonempty i len : 0 < len -> rev (seq i len) <> [].
Proof. intros H K. apply (f_equal (@length nat)) in K. rewrite rev_length, seq_length in K. cbn in K. lia. Qed.

Lemma runs_front_nf s len es : In es (runs_front s len) -> nf es.
Proof.
  destruct (le_lt_dec len s) as [L|L].
  - rewrite In_runs_front by auto. intros (i & _ & [->| ->]); apply nf_bells; cbn; auto.
  - unfold runs_front. destruct (Nat.ltb_spec s len); [intros []|lia].
Qed.

Lemma nf_glob_bells_end bs : nf (RGlob :: map RBell bs).
Proof. destruct bs as [|b bs]; cbn; auto. rewrite <- (app_nil_r (map RBell bs)). apply nf_bells. cbn; auto. Qed.

Lemma runs_back_nf s len es : In es (runs_back s len) -> nf es.
Proof.
  destruct (le_lt_dec len s) as [L|L].
  - rewrite In_runs_back by auto. intros (i & _ & [->| ->]); apply nf_glob_bells_end.
  - unfold runs_back. destruct (Nat.ltb_spec s len); [intros []|lia].
Qed.

Lemma all_runs_nf s len es : 0 < len -> In es (all_runs s len) -> nf es.
Proof.
  intros P. destruct (le_lt_dec len s) as [L|L].
  - rewrite In_all_runs by auto. intros (i & _ & [->| ->]); apply nf_glob_bells; cbn; auto using seq_nonempty, rev_seq_nonempty.
  - unfold all_runs. destruct (Nat.ltb_spec s len); [intros []|lia].
Qed.

Lemma described_glob_bells bs es l : described (RGlob :: map RBell bs ++ es) l <-> exists pre post, l = pre ++ bs ++ post /\ described es post.
Proof.
  rewrite described_glob_inv. split.
  - intros (xs & t & -> & H). apply described_bells in H as (post & -> & H). eauto.
  - intros (pre & post & -> & H). exists pre, (bs ++ post). split; auto. apply described_bells; eauto.
Qed.

(** ** run_len *)

Lemma run_windows_cons x y l :
  run_windows (x :: y :: l) = if (Z.abs (Z.of_nat x - Z.of_nat y) =? 1)%Z then S (run_windows (y :: l)) else 0.
Proof. reflexivity. Qed.

Lemma run_len_ok l : l <> [] -> stepwise_prefix l (run_len l) /\ forall n, stepwise_prefix l n -> n <= run_len l.
Proof.
  unfold run_len. destruct l as [|x l]; [congruence|]. intros _. revert x; induction l as [|y l IH]; intros x.
  - cbn. split; [split; cbn; [lia|intros; lia]|]. intros n [L _]. cbn in L. lia.
  - rewrite run_windows_cons. destruct (Z.eqb_spec (Z.abs (Z.of_nat x - Z.of_nat y)) 1) as [E|E].
    + destruct (IH y) as [[L H] M]. split.
      * split; [cbn in *; lia|]. intros [|j] a b J Ha Hb.
        -- cbn in Ha, Hb. injection Ha as <-. injection Hb as <-. lia.
        -- apply (H j); auto. lia.
      * intros [|n] [L2 H2]; [lia|]. assert (stepwise_prefix (y :: l) n); [|specialize (M n H0); lia].
        split; [cbn in *; lia|]. intros j a b J Ha Hb. apply (H2 (S j)); auto. lia.
    + split; [split; cbn; [lia|intros; lia]|]. intros n [L H]. destruct (le_lt_dec n 1); [lia|].
      exfalso. destruct (H 0 x y); auto; lia.
Qed.

(** ** Text *)

Lemma bell_char_regex c b : bell_from_name c = Some b -> regex_char c = Some (RBell b).
Proof. intros H. apply regex_char_ok. constructor. apply from_name_to_char in H. exact H. Qed.

Lemma regex_display_parse es : Forall (fun b => b < 33) (bells_written es) -> filter_map regex_char (regex_display es) = es.
Proof.
  unfold regex_display. induction es as [|[b| |] es IH]; intros F; cbn [bells_written map concat] in *; auto; rewrite filter_map_app.
  - inversion F; subst. rewrite IH by auto. destruct (bell_name_small b ltac:(auto)) as (c & E & Hc). cbn [elem_display]. rewrite E.
    apply from_name_to_char, bell_char_regex in Hc. cbn [filter_map]. rewrite Hc. reflexivity.
  - rewrite IH by auto. reflexivity.
  - rewrite IH by auto. reflexivity.
Qed.

Lemma mask_char_ok c e : mask_char c = Some e <-> char_mask c e.
Proof.
  unfold mask_char. split.
  - destruct (N.eqb_spec c 120) as [->|D1]; cbn [orb]; [intros [= <-]; constructor; auto|].
    destruct (N.eqb_spec c 88) as [->|D2]; cbn [orb]; [intros [= <-]; constructor; auto|].
    destruct (N.eqb_spec c 46) as [->|D3]; cbn [orb]; [intros [= <-]; constructor; auto|].
    destruct (bell_from_name c) as [b|] eqn:E; [|discriminate]. intros [= <-]. constructor. apply from_name_to_char in E. exact E.
  - intros H. inversion H as [c' [E|[E|E]]|c' b Hb]; subst; auto.
    assert (E : bell_from_name c = Some b) by (apply from_name_to_char; exact Hb).
    rewrite E. assert (K : In c (s2l "1234567890ETABCDFGHJKLMNPQRSUVWYZ")) by (eapply nth_error_In; eauto).
    destruct (N.eqb_spec c 120) as [->|D1]; [exfalso; vm_compute in K; intuition discriminate|].
    destruct (N.eqb_spec c 88) as [->|D2]; [exfalso; vm_compute in K; intuition discriminate|].
    destruct (N.eqb_spec c 46) as [->|D3]; [exfalso; vm_compute in K; intuition discriminate|]. reflexivity.
Qed.

Lemma mask_text_ok t m : mask_text t m <-> mask_parse t = m.
Proof.
  unfold mask_parse. split.
  - induction 1 as [|c e t es H _ IH|c t es H _ IH]; cbn; auto.
    + apply mask_char_ok in H. rewrite H, IH; auto.
    + destruct (mask_char c) as [e|] eqn:E; auto. apply mask_char_ok in E. exfalso; eapply H; eauto.
  - intros <-. induction t as [|c t IH]; cbn; [constructor|].
    destruct (mask_char c) as [e|] eqn:E.
    + constructor; auto. apply mask_char_ok; auto.
    + apply mt_skip; auto. intros e H. apply mask_char_ok in H. congruence.
Qed.

Lemma mask_display_parse m : (forall p b, specifies m p b -> b < 33) -> mask_parse (mask_display m) = m.
Proof.
  unfold mask_parse, mask_display. induction m as [|[b|] m IH]; intros F; cbn [map concat]; auto; rewrite filter_map_app.
  - rewrite IH by (intros p c Hp; apply (F (S p) c Hp)).
    destruct (bell_name_small b (F 0 b eq_refl)) as (c & E & Hc). rewrite E.
    assert (M : mask_char c = Some (Some b)) by (apply mask_char_ok; constructor; exact Hc). cbn [filter_map]. rewrite M. reflexivity.
  - rewrite IH by (intros p c Hp; apply (F (S p) c Hp)). reflexivity.
Qed.
