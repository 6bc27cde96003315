(** How many rows a regex in normal form matches, for any number of globs and wildcards. *)
From Verif Require Import Base Bell Stage Row Utils Music Mask Spec SpecMask ListFacts BellFacts RowFacts MulFacts MaskFacts MaskFacts2 MusicFacts MusicFacts2.
Local Open Scope list_scope.

(** The masks got by giving the globs [n] places between them. *)
Fixpoint expand (es : list regex_elem) (n : nat) : list (list (option nat)) :=
  match es with
  | [] => match n with O => [[]] | _ => [] end
  | RBell b :: t => map (cons (Some b)) (expand t n)
  | RAny :: t => map (cons None) (expand t n)
  | RGlob :: t => flat_map (fun k => map (app (repeat None k)) (expand t (n - k))) (seq 0 (S n))
  end.

Lemma In_expand_glob t n m : In m (expand (RGlob :: t) n) <-> exists k m', k <= n /\ m = repeat None k ++ m' /\ In m' (expand t (n - k)).
Proof.
  cbn [expand]. rewrite in_flat_map. split.
  - intros (k & Hk & Hm). apply in_seq in Hk. apply in_map_iff in Hm as (m' & <- & Hm). exists k, m'. splits; auto. lia.
  - intros (k & m' & Hk & -> & Hm). exists k. split; [apply in_seq; lia|]. apply in_map; auto.
Qed.

Lemma expand_shape es n m : In m (expand es n) ->
  length m = length (bells_written es) + count_any es + n /\ mbells m = bells_written es.
Proof.
  revert n m; induction es as [|[b| |] es IH]; intros n m H.
  - destruct n; cbn in H; [destruct H as [<-|[]]; auto|destruct H].
  - cbn in H. apply in_map_iff in H as (m' & <- & H). apply IH in H as [L B]. unfold mbells in *; cbn. rewrite L, B. split; [lia|auto].
  - cbn in H. apply in_map_iff in H as (m' & <- & H). apply IH in H as [L B]. unfold mbells in *; cbn. rewrite L, B. split; [lia|auto].
  - apply In_expand_glob in H as (k & m' & Hk & -> & H). apply IH in H as [L B].
    rewrite mbells_app, mbells_repeat, app_length, repeat_length, L, B. cbn. split; [lia|auto].
Qed.

Lemma fits_cons_some b m r : fits (Some b :: m) r <-> exists r', r = b :: r' /\ fits m r'.
Proof.
  change (Some b :: m) with ([Some b] ++ m). rewrite fits_app. split.
  - intros (r1 & r2 & -> & [L F] & F2). cbn in L. destruct r1 as [|x [|y r1]]; try discriminate.
    specialize (F 0 b eq_refl). cbn in F. injection F as ->. exists r2. auto.
  - intros (r' & -> & F). exists [b], r'. split; auto. split; auto. split; auto.
    intros [|[|p]] c; unfold specifies; cbn; congruence.
Qed.
Lemma fits_cons_none m r : fits (None :: m) r <-> exists x r', r = x :: r' /\ fits m r'.
Proof.
  change (None :: m) with (repeat None 1 ++ m). rewrite fits_app. split.
  - intros (r1 & r2 & -> & F & F2). apply fits_repeat in F. destruct r1 as [|x [|y r1]]; try discriminate. exists x, r2. auto.
  - intros (x & r' & -> & F). exists [x], r'. splits; auto. apply fits_repeat. reflexivity.
Qed.

Lemma described_expand es r : described es r <-> exists n m, In m (expand es n) /\ fits m r.
Proof.
  revert r; induction es as [|[b| |] es IH]; intros r.
  - rewrite described_nil_inv. split.
    + intros ->. exists 0, []. split; [left; auto|apply fits_nil; auto].
    + intros ([|n] & m & H & F); cbn in H; [|destruct H]. destruct H as [<-|[]]. apply fits_nil; auto.
  - split.
    + intros H. inversion H as [|? ? bs D| |]; subst. apply IH in D as (n & m & Hm & F). exists n, (Some b :: m).
      split; [cbn; apply in_map; auto|]. apply fits_cons_some. eauto.
    + intros (n & m & Hm & F). cbn in Hm. apply in_map_iff in Hm as (m' & <- & Hm).
      apply fits_cons_some in F as (r' & -> & F). constructor. apply IH. eauto.
  - split.
    + intros H. inversion H as [| |x ? bs D|]; subst. apply IH in D as (n & m & Hm & F). exists n, (None :: m).
      split; [cbn; apply in_map; auto|]. apply fits_cons_none. eauto.
    + intros (n & m & Hm & F). cbn in Hm. apply in_map_iff in Hm as (m' & <- & Hm).
      apply fits_cons_none in F as (x & r' & -> & F). constructor. apply IH. eauto.
  - split.
    + intros H. inversion H as [| | |xs ? bs D]; subst. apply IH in D as (n & m & Hm & F). exists (n + length xs), (repeat None (length xs) ++ m).
      split; [apply In_expand_glob; exists (length xs), m; splits; auto; [lia|]; replace (n + length xs - length xs) with n by lia; auto|].
      apply fits_app. exists xs, bs. splits; auto. apply fits_repeat; auto.
    + intros (n & m & Hm & F). apply In_expand_glob in Hm as (k & m' & Hk & -> & Hm).
      apply fits_app in F as (r1 & r2 & -> & F1 & F2). constructor. apply IH. eauto.
Qed.

(** A row can be matched in one way only. *)
Lemma expand_unique es n m m' r : nf es -> NoDup r -> In m (expand es n) -> In m' (expand es n) -> fits m r -> fits m' r -> m = m'.
Proof.
  revert n m m' r; induction es as [|[b| |] es IH]; intros n m m' r F N H H' R R'.
  - destruct n; cbn in H, H'; [|destruct H]. destruct H as [<-|[]], H' as [<-|[]]. auto.
  - cbn in H, H'. apply in_map_iff in H as (p & <- & H), H' as (p' & <- & H').
    apply fits_cons_some in R as (r1 & -> & R). apply fits_cons_some in R' as (r2 & E & R').
    injection E as <-. inversion N; subst. f_equal. eapply IH; eauto.
  - cbn in H, H'. apply in_map_iff in H as (p & <- & H), H' as (p' & <- & H').
    apply fits_cons_none in R as (x & r1 & -> & R). apply fits_cons_none in R' as (x' & r2 & E & R').
    injection E as <- <-. inversion N; subst. f_equal. eapply IH; eauto.
  - apply In_expand_glob in H as (k & p & Hk & -> & H). apply In_expand_glob in H' as (k' & p' & Hk' & -> & H').
    destruct es as [|[b| |] es]; cbn in F; try (destruct F; fail).
    + cbn in H, H'. destruct (n - k) eqn:E; [|destruct H]. destruct (n - k') eqn:E'; [|destruct H'].
      destruct H as [<-|[]], H' as [<-|[]]. replace k' with k by lia. auto.
    + assert (k = k').
      { cbn in H, H'. apply in_map_iff in H as (q & <- & _), H' as (q' & <- & _).
        assert (A : nth_error r k = Some b).
        { apply R. unfold specifies. rewrite nth_error_app2; rewrite repeat_length; auto. rewrite Nat.sub_diag. auto. }
        assert (B : nth_error r k' = Some b).
        { apply R'. unfold specifies. rewrite nth_error_app2; rewrite repeat_length; auto. rewrite Nat.sub_diag. auto. }
        eapply NoDup_nth_error; eauto; [|congruence]. apply nth_error_Some. congruence. }
      subst k'. f_equal. apply fits_app in R as (r1 & r2 & -> & R1 & R2). apply fits_app in R' as (r3 & r4 & E & R3 & R4).
      apply fits_repeat in R1, R3. assert (r2 = r4) as <-.
      { assert (K : skipn k (r1 ++ r2) = skipn k (r3 ++ r4)) by congruence.
        rewrite !skipn_app, R1, R3, Nat.sub_diag, (skipn_all2 r1), (skipn_all2 r3) in K by lia. exact K. }
      eapply (IH (n - k) p p' r2); eauto. clear -N. induction r1 as [|x r1 IH]; auto. inversion N; auto.
Qed.

Lemma NoDup_flat_map {A B} (f : A -> list B) l :
  NoDup l -> (forall x, In x l -> NoDup (f x)) -> (forall x y z, In x l -> In y l -> In z (f x) -> In z (f y) -> x = y) ->
  NoDup (flat_map f l).
Proof.
  induction l as [|a l IH]; intros N F D; cbn; [constructor|]. inversion N; subst.
  assert (NoDup (f a)) as Na by (apply F; left; auto).
  assert (NoDup (flat_map f l)) as Nl.
  { apply IH; auto; [intros; apply F; right; auto|]. intros x y z Hx Hy. apply D; right; auto. }
  assert (Dj : forall z, In z (f a) -> ~ In z (flat_map f l)).
  { intros z Hz Hl. apply in_flat_map in Hl as (x & Hx & Hz'). assert (a = x) as <- by (eapply D; eauto; [left|right]; auto). auto. }
  clear -Na Nl Dj. induction (f a) as [|z t IHt]; cbn; auto. inversion Na; subst. constructor.
  - rewrite in_app_iff. intros [K|K]; auto. apply (Dj z); [left; auto|auto].
  - apply IHt; auto. intros y Hy. apply Dj. right; auto.
Qed.

Lemma NoDup_expand es n : nf es -> NoDup (expand es n).
Proof.
  revert n; induction es as [|[b| |] es IH]; intros n F.
  - destruct n; cbn; repeat constructor; auto.
  - cbn. apply NoDup_map_inj'; [apply IH; auto|]. intros x y _ _ E. injection E; auto.
  - cbn. apply NoDup_map_inj'; [apply IH; auto|]. intros x y _ _ E. injection E; auto.
  - cbn [expand]. apply NoDup_flat_map; [apply seq_NoDup| |].
    + intros k _. apply NoDup_map_inj'; [|intros x y _ _ E; apply app_inv_head in E; auto].
      destruct es as [|[b| |] es]; cbn in F; try (destruct F; fail); [cbn; destruct (n - k); repeat constructor; auto|].
      apply IH; auto.
    + intros k k' m Hk Hk' H H'. apply in_seq in Hk, Hk'. apply in_map_iff in H as (p & <- & H), H' as (p' & E & H').
      destruct es as [|[b| |] es]; cbn in F; try (destruct F; fail).
      * cbn in H, H'. destruct (n - k) eqn:E1; [|destruct H]. destruct (n - k') eqn:E2; [|destruct H']. lia.
      * cbn in H, H'. apply in_map_iff in H as (q & <- & _), H' as (q' & <- & _).
        clear -E. revert k' E; induction k as [|k IH]; intros [|k'] E; cbn in E; try discriminate; auto.
        injection E as E. f_equal. auto.
Qed.

(** The number of ways to give [n] places to [g] globs. *)
Definition shares (g n : nat) : nat :=
  match g with
  | O => match n with O => 1 | _ => 0 end
  | S g' => binomial (n + g') g'
  end.

Lemma shares_S g n : shares (S g) (S n) = shares (S g) n + shares g (S n).
Proof.
  destruct g as [|g]; cbn [shares].
  - rewrite !binomial_0. reflexivity.
  - replace (S n + S g) with (S (n + S g)) by lia. cbn [binomial]. replace (S n + g) with (n + S g) by lia. lia.
Qed.

Lemma sum_shares g n : list_sum (map (fun k => shares g (n - k)) (seq 0 (S n))) = shares (S g) n.
Proof.
  induction n as [|n IH].
  - destruct g as [|g]; [reflexivity|]. change (binomial g g + 0 = binomial (S g) (S g)). rewrite !binomial_nn. reflexivity.
  - rewrite shares_S, <- IH. change (seq 0 (S (S n))) with (0 :: seq 1 (S n)). rewrite <- seq_shift, map_cons, map_map.
    change (list_sum (?a :: ?l)) with (a + list_sum l). rewrite Nat.sub_0_r, Nat.add_comm. f_equal.
Qed.

Lemma flat_map_len {A B} (f : A -> list B) l : length (flat_map f l) = list_sum (map (fun x => length (f x)) l).
Proof. induction l as [|a l IH]; cbn; auto. rewrite app_length, IH. reflexivity. Qed.

Lemma length_expand es n : length (expand es n) = shares (count_glob es) n.
Proof.
  revert n; induction es as [|[b| |] es IH]; intros n; cbn [count_glob].
  - destruct n; auto.
  - cbn [expand]. rewrite map_length. auto.
  - cbn [expand]. rewrite map_length. auto.
  - rewrite <- sum_shares. cbn [expand]. rewrite flat_map_len. f_equal. apply map_ext. intros k. rewrite map_length. auto.
Qed.

(** Counting a union of disjoint sets of the same size. *)
Lemma there_are_union {A} (P : A -> list nat -> Prop) c l :
  NoDup l -> (forall a, In a l -> there_are c (P a)) ->
  (forall a b r, In a l -> In b l -> P a r -> P b r -> a = b) ->
  there_are (c * length l) (fun r => exists a, In a l /\ P a r).
Proof.
  induction l as [|a l IH]; intros N C D.
  - exists []. splits; [cbn; lia|constructor|]. intros r. split; [intros []|intros (a & [] & _)].
  - inversion N; subst. destruct (C a (or_introl eq_refl)) as (l1 & L1 & N1 & S1).
    destruct IH as (l2 & L2 & N2 & S2); auto; [intros; apply C; right; auto| |].
    { intros x y r Hx Hy. apply D; right; auto. }
    exists (l1 ++ l2). splits.
    + rewrite app_length. cbn. nia.
    + assert (Dj : forall r, In r l1 -> ~ In r l2).
      { intros r R1 R2. apply S1 in R1. apply S2 in R2 as (b & Hb & R2).
        assert (a = b) as <- by (eapply D; eauto; [left|right]; auto). auto. }
      clear -N1 N2 Dj. induction l1 as [|z t IHt]; cbn; auto. inversion N1; subst. constructor.
      * rewrite in_app_iff. intros [K|K]; auto. apply (Dj z); [left; auto|auto].
      * apply IHt; auto. intros y Hy. apply Dj. right; auto.
    + intros r. rewrite in_app_iff, S1, S2. split.
      * intros [H|(b & Hb & H)]; [exists a|exists b]; split; auto; [left|right]; auto.
      * intros (b & [<-|Hb] & H); [left|right]; eauto.
Qed.

Lemma there_are_ext n P Q : (forall r, P r <-> Q r) -> there_are n P -> there_are n Q.
Proof. intros E (l & A & B & C). exists l. splits; auto. intros r. rewrite C. auto. Qed.

Lemma there_are_unique n n' P : there_are n P -> there_are n' P -> n = n'.
Proof.
  intros (l & <- & N & C) (l' & <- & N' & C'). apply Nat.le_antisymm; apply NoDup_incl_length; auto.
  - intros r Hr. apply C', C; auto.
  - intros r Hr. apply C, C'; auto.
Qed.

Lemma there_are_none P : (forall r, ~ P r) -> there_are 0 P.
Proof. intros H. exists []. splits; auto; [constructor|]. intros r. split; [intros []|]. intros K. destruct (H r K). Qed.

Lemma described_has es r : described es r -> length (bells_written es) + count_any es <= length r /\ (forall b, In b (bells_written es) -> In b r) /\ (NoDup r -> NoDup (bells_written es)).
Proof.
  induction 1 as [|b es bs D (L & I & N)|x es bs D (L & I & N)|xs es bs D (L & I & N)]; cbn.
  - split; [lia|]. split; auto.
  - split; [lia|]. split; [intros c [->|K]; auto|]. intros M. inversion M; subst. constructor; auto.
  - split; [lia|]. split; [auto|]. intros M. inversion M; auto.
  - rewrite app_length. split; [lia|]. split; [intros b Hb; apply in_app_iff; auto|].
    intros M. apply N. clear -M. induction xs as [|x xs IH]; auto. inversion M; auto.
Qed.

Lemma count_normal es s : 0 < s -> nf es -> NoDup (bells_written es) -> Forall (fun b => b < s) (bells_written es) ->
  length (bells_written es) + count_any es <= s ->
  there_are (fact (s - length (bells_written es)) * shares (count_glob es) (s - length (bells_written es) - count_any es))
    (fun r => valid_row r /\ length r = s /\ described es r).
Proof.
  intros Hs F N B L. set (n := s - length (bells_written es) - count_any es).
  rewrite <- length_expand. eapply there_are_ext; [|apply (there_are_union (fun m r => valid_row r /\ fits m r))].
  - intros r. cbn beta. split.
    + intros (m & Hm & V & R). splits; auto.
      * destruct (expand_shape _ _ _ Hm) as [Lm _]. destruct R as [Lr _]. unfold n in Lm. lia.
      * apply described_expand. eauto.
    + intros (V & Lr & D). apply described_expand in D as (n' & m & Hm & R).
      destruct (expand_shape _ _ _ Hm) as [Lm _]. destruct R as [Lr' R]. assert (n' = n) as -> by (unfold n; lia).
      exists m. splits; auto. split; auto.
  - apply NoDup_expand; auto.
  - intros m Hm. destruct (expand_shape _ _ _ Hm) as [Lm Bm]. pose proof (length_mbells m) as Lo. rewrite Bm in Lo.
    assert (length m = s) by (unfold n in Lm; lia). replace (s - length (bells_written es)) with (nopen m) by lia.
    apply count_fits. apply (wf_of_bells m _ Bm); auto; [intros ->; cbn in *; lia|]. rewrite H; auto.
  - intros m m' r Hm Hm' [V R] [_ R']. apply (expand_unique es n m m' r); auto. apply valid_row_NoDup; auto.
Qed.

(** The code's formula and the right one, for one glob. *)
Lemma binomial_1 n : binomial n 1 = n.
Proof. destruct n as [|n]; auto. induction n as [|n IH]; auto. cbn [binomial] in *. rewrite binomial_0 in *. lia. Qed.

Lemma binomial_gt_n u x : 2 <= x -> x + 2 <= u -> u < binomial u x.
Proof.
  revert x; induction u as [|u IH]; intros x Hx Hu; [lia|].
  destruct x as [|x]; [lia|]. cbn [binomial].
  destruct (Nat.eq_dec (S x + 2) (S u)) as [E|E].
  - assert (u = x + 2) as -> by lia. assert (P : 0 < binomial (x + 2) x) by (apply binomial_pos; lia).
    pose proof (binomial_sym (x + 2) (S x) ltac:(lia)) as S1. replace (x + 2 - S x) with 1 in S1 by lia. rewrite binomial_1 in S1.
    pose proof (binomial_sym (x + 2) x ltac:(lia)) as S2. replace (x + 2 - x) with 2 in S2 by lia.
    assert (2 <= binomial (x + 2) 2); [|lia]. replace (x + 2) with (S (S x)) by lia.
    change (2 <= binomial (S x) 1 + binomial (S x) 2). rewrite binomial_1. lia.
  - assert (H := IH (S x) Hx ltac:(lia)). assert (P : 0 < binomial u x) by (apply binomial_pos; lia). lia.
Qed.

Lemma one_glob_right u x : x <= u ->
  (binomial u x * fact (u - x + (x - 1)) = fact u <-> x <= 1 \/ S x = u).
Proof.
  intros L. destruct x as [|[|x]].
  - rewrite binomial_0. replace (u - 0 + (0 - 1)) with u by lia. lia.
  - rewrite binomial_1. replace (u - 1 + (1 - 1)) with (u - 1) by lia. destruct u as [|u]; [lia|]. cbn [fact].
    replace (S u - 1) with u by lia. lia.
  - destruct u as [|u]; [lia|]. replace (S u - S (S x) + (S (S x) - 1)) with u by lia.
    cbn [fact]. pose proof (fact_pos u) as P. assert (E : forall a, a * fact u = fact u + u * fact u <-> a = S u) by (intros a; split; [intros K; assert (a * fact u = S u * fact u) by lia; nia|intros ->; lia]).
    rewrite E. split.
    + intros B. right. destruct (Nat.eq_dec (S (S x)) (S u)) as [E0|D]; [rewrite E0, binomial_nn in B; lia|].
      destruct (Nat.eq_dec (S (S (S x))) (S u)) as [|D']; auto. exfalso.
      pose proof (binomial_gt_n (S u) (S (S x)) ltac:(lia) ltac:(lia)). lia.
    + intros [K|K]; [lia|]. rewrite <- (binomial_sym (S u) (S (S x))) by lia. replace (S u - S (S x)) with 1 by lia. apply binomial_1.
Qed.
