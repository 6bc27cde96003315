(** Lemmas about the number of rounds taken by loops. *)
From Verif Require Import Base Spec SpecCycle SpecCost ListFacts Bell Stage Row RowFacts MulFacts ParityFacts GroupFacts GroupFacts2 CycleFacts
  Utils SameStageVec SpecVec SsvFacts Block SpecBlock BlockFacts PlaceNot Class Method MethodFacts.
Local Open Scope list_scope.

Lemma takes_closure r : forall f last l, closure_loop f r last = Ret l -> takes (fun k => closure_loop k r last) (length l).
Proof.
  induction f as [|f IH]; intros last l E k; [discriminate|]. cbn [closure_loop] in E.
  destruct (is_rounds last) eqn:I.
  - injection E as <-. cbn [length]. destruct k as [|k]; cbn [closure_loop]; [split; auto|]. rewrite I. split; [discriminate|lia].
  - destruct (mul_unchecked last r) as [x| | |] eqn:M; cbn [bind] in E; try discriminate.
    destruct (closure_loop f r x) as [t| | |] eqn:C; cbn [bind] in E; try discriminate. injection E as <-.
    destruct k as [|k]; cbn [closure_loop length]; [split; auto; lia|]. rewrite I, M. cbn [bind].
    specialize (IH x t C k). cbv beta in IH. rewrite <- Nat.succ_lt_mono, <- IH.
    destruct (closure_loop k r x); cbn [bind]; split; congruence.
Qed.

Lemma takes_closure_from_rounds r : forall f last l, closure_from_rounds_loop f r last = Ret l -> takes (fun k => closure_from_rounds_loop k r last) (length l).
Proof.
  induction f as [|f IH]; intros last l E k; [discriminate|]. cbn [closure_from_rounds_loop] in E.
  destruct (mul_unchecked last r) as [x| | |] eqn:M; cbn [bind] in E; try discriminate.
  destruct (is_rounds x) eqn:I.
  - injection E as <-. cbn [length]. destruct k as [|k]; cbn [closure_from_rounds_loop]; [split; auto|]. rewrite M. cbn [bind]. rewrite I. split; [discriminate|lia].
  - destruct (closure_from_rounds_loop f r x) as [t| | |] eqn:C; cbn [bind] in E; try discriminate. injection E as <-.
    destruct k as [|k]; cbn [closure_from_rounds_loop length]; [split; auto; lia|]. rewrite M. cbn [bind]. rewrite I.
    specialize (IH x t C k). cbv beta in IH. rewrite <- Nat.succ_lt_mono, <- IH.
    destruct (closure_from_rounds_loop k r x); cbn [bind]; split; congruence.
Qed.

Lemma takes_ext {A} (f g : nat -> exec A) n : (forall k, f k = g k) -> takes f n -> takes g n.
Proof. intros E T k. rewrite <- E. apply T. Qed.

Lemma takes_bind {A B} (f : nat -> exec A) (g : A -> exec B) n : (forall a, g a <> NoFuel) -> takes f n -> takes (fun k => bind (f k) g) n.
Proof.
  intros G T k. rewrite <- (T k). destruct (f k) as [a| | |]; cbn [bind]; try tauto; try (split; discriminate).
  split; intros X; [destruct (G a X)|discriminate].
Qed.

Lemma expand_new r rows : forall set fr s' f', lgc_expand r set fr rows = Ret (s', f') ->
  exists new, s' = set ++ new /\ f' = fr ++ new.
Proof.
  induction rows as [|g t IH]; intros set fr s' f' E; cbn [lgc_expand] in E; [injection E as <- <-; exists []; rewrite !app_nil_r; auto|].
  destruct (mul_unchecked r g) as [x| | |]; cbn [bind] in E; try discriminate. destruct (row_mem x set); [eauto|].
  destruct (IH _ _ _ _ E) as (new & -> & ->). exists (x :: new). rewrite <- !app_assoc. auto.
Qed.

Lemma seed_new rows : forall st set fr s' f', lgc_seed st set fr rows = Ret (Ok (s', f')) ->
  exists new, s' = set ++ new /\ f' = fr ++ new.
Proof.
  induction rows as [|g t IH]; intros st set fr s' f' E; cbn [lgc_seed] in E; [injection E as <- <-; exists []; rewrite !app_nil_r; auto|].
  destruct (row_stage g) as [x| | |]; cbn [bind] in E; try discriminate. destruct (test_err_opt st x) as [st' [?|?]]; [|discriminate].
  destruct (row_mem g set); [eauto|]. destruct (IH _ _ _ _ _ E) as (new & -> & ->). exists (g :: new). rewrite <- !app_assoc. auto.
Qed.

Lemma takes_lgc rows : forall f set fr out, lgc_loop f rows set fr = Ret out -> length fr <= length set ->
  length set <= length out /\ takes (fun k => lgc_loop k rows set fr) (S (length out - (length set - length fr))).
Proof.
  induction f as [|f IH]; intros set fr out E L; [discriminate|]. cbn [lgc_loop] in E. destruct fr as [|r fr].
  - injection E as <-. split; auto. intros [|k]; cbn [lgc_loop length]; [split; auto; lia|]. split; [discriminate|lia].
  - destruct (lgc_expand r set fr rows) as [[s' f']| | |] eqn:X; cbn [bind] in E; try discriminate.
    destruct (expand_new _ _ _ _ _ _ X) as (new & -> & ->). cbn [length] in L.
    destruct (IH _ _ _ E) as [Lo T]; [rewrite !app_length; lia|]. rewrite !app_length in *. split; [lia|].
    intros [|k]; cbn [lgc_loop length]; [split; auto; lia|]. rewrite X. cbn [bind]. specialize (T k). cbv beta in T. rewrite T. lia.
Qed.

Lemma parity_rounds m : forall r i n reps, valid_row r -> i <= length r -> (forall k, k < i -> nth k r 0 = k) -> one_of_each_cycle r reps ->
  m = (length r - i) + (length r - length reps) ->
  (exists out, parity_loop (S m) r i n = Ret out) /\ takes (fun k => parity_loop k r i n) (S m).
Proof.
  induction m as [|m IH]; intros r i n reps V Hi Home O Em; pose proof (reps_le r reps O) as Le.
  - assert (i = length r) as -> by lia. split.
    + cbn [parity_loop]. rewrite valid_row_stage by auto. cbn [bind]. rewrite Nat.ltb_irrefl. eauto.
    + intros [|k]; cbn [parity_loop]; [split; auto; lia|]. rewrite valid_row_stage by auto. cbn [bind]. rewrite Nat.ltb_irrefl. split; [discriminate|lia].
  - assert (Hlt : i < length r).
    { destruct (Nat.eq_dec i (length r)) as [->|]; [|lia]. exfalso.
      assert (E : r = seq 0 (length r)).
      { apply (nth_ext _ _ 0 0); [rewrite seq_length; auto|]. intros x X. rewrite seq_nth by auto. auto. }
      assert (L : length r <= length reps).
      { rewrite <- (seq_length (length r) 0) at 1. apply NoDup_incl_length; [apply seq_NoDup|].
        intros x X. apply in_seq in X. destruct O as (_ & R & C & _). destruct (C x ltac:(lia)) as (y & Y & k & S').
        assert (F : forall k, follow r k y = y).
        { induction k0 as [|k0 IHk]; auto. cbn. rewrite IHk, E, seq_nth; auto. }
        rewrite F in S'. subst. auto. }
      lia. }
    assert (St : forall k, parity_loop (S k) r i n =
               if nth i r 0 =? i then parity_loop k r (S i) n else parity_loop k (skip r i (nth i r 0)) i (S n)).
    { intros k. cbn [parity_loop]. rewrite valid_row_stage by auto. cbn [bind]. rewrite (proj2 (Nat.ltb_lt _ _) Hlt).
      rewrite (idx_ret 0) by auto. cbn [bind]. destruct (Nat.eqb_spec (nth i r 0) i) as [E|E]; auto.
      assert (Hc : nth i r 0 < length r) by (apply valid_row_nth_lt; auto).
      rewrite row_swap_ok by auto. cbn [bind]. f_equal.
      apply (nth_ext _ _ 0 0); [rewrite length_skip, !length_upd; auto|]. intros x X. rewrite !length_upd in X.
      rewrite nth_skip by auto. destruct (Nat.eqb_spec x (nth i r 0)) as [->|D].
      - rewrite nth_upd_same; auto. rewrite length_upd; auto.
      - rewrite nth_upd_other by auto. destruct (Nat.eqb_spec x i) as [->|D2]; [apply nth_upd_same; auto|apply nth_upd_other; auto]. }
    destruct (Nat.eqb_spec (nth i r 0) i) as [E|E].
    + destruct (IH r (S i) n reps) as [Ex T]; auto; [|lia|].
      { intros k Hk. destruct (Nat.eq_dec k i) as [->|]; auto. apply Home; lia. }
      split; [rewrite St; exact Ex|]. intros [|k]; [cbn; split; auto; lia|]. rewrite St. specialize (T k). cbv beta in T. rewrite T. lia.
    + set (j := nth i r 0) in *. destruct (skip_reps r i j V Hlt eq_refl E reps O) as (reps' & O' & L').
      pose proof (skip_valid r i j V Hlt eq_refl E) as V'. pose proof (reps_le _ _ O') as Le'. rewrite length_skip in Le'.
      destruct (IH (skip r i j) i (S n) reps') as [Ex T]; auto; rewrite ?length_skip; auto; [|lia|].
      { intros k Hk. rewrite nth_skip by lia. assert (k <> i) by lia. destruct (Nat.eqb_spec k j) as [->|]; auto.
        destruct (Nat.eqb_spec k i); [lia|]. apply Home; auto. }
      split; [rewrite St; exact Ex|]. intros [|k]; [cbn; split; auto; lia|]. rewrite St. specialize (T k). cbv beta in T. rewrite T. lia.
Qed.

Lemma course_rounds s len : forall f b ars lo out, brep s ars lo b -> len <= length ars -> plain_course_loop f len b = Ret out ->
  exists j, takes (fun k => plain_course_loop k len b) (S j) /\ block_len out = block_len b + j * len.
Proof.
  induction f as [|f IH]; intros b ars lo out B L E; [discriminate|]. cbn [plain_course_loop] in E.
  rewrite (brep_leftover _ _ _ _ B) in E. cbn [bind] in E. destruct (is_rounds lo) eqn:I.
  - injection E as <-. exists 0. split; [|lia]. intros [|k]; cbn [plain_course_loop]; [split; auto; lia|].
    rewrite (brep_leftover _ _ _ _ B). cbn [bind]. rewrite I. split; [discriminate|lia].
  - destruct (brep_from_within s _ _ b (Included 0) (Excluded len) B) as (b' & X & R); [cbn; lia|cbn [range_end]; auto|].
    rewrite X in E. cbn [bind] in E. cbn [range_start range_end] in R.
    assert (Lb : block_len b' = block_len b + len).
    { rewrite (brep_len _ _ _ _ R), (brep_len _ _ _ _ B). rewrite app_length, map_length. unfold sublist. cbn [skipn].
      rewrite firstn_length. lia. }
    destruct (IH b' _ _ out R) as (j & T & Lo); auto; [rewrite app_length; lia|]. exists (S j). split; [|lia].
    intros [|k]; cbn [plain_course_loop]; [split; auto; lia|]. rewrite (brep_leftover _ _ _ _ B). cbn [bind]. rewrite I, X. cbn [bind].
    specialize (T k). cbv beta in T. rewrite T. lia.
Qed.
