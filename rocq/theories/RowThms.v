(** Property theorems C04 to C16 and C22: rows. *)

(* Generated from tools/props/Row.src: the proofs behind PropsRow.v. *)
From Verif Require Import Base Bell Stage Parity Row Spec SpecAcc ListFacts BellFacts RowFacts MulFacts
  ParityFacts GroupFacts.
From Coq Require Import Sorting.Sorted.
Local Open Scope list_scope.

Lemma pf_C04_from_vec_accepts_exactly_permutations :
  forall l r, (from_vec l = Ok r <-> valid_row l /\ r = l) /\
              (from_bell_iter l = Ok r <-> valid_row l /\ r = l).
Proof. intros l r. split; apply from_vec_ok. Qed.

Lemma pf_C05_row_errors_are_truthful :
  (forall l, from_vec l = Err NoBells <-> l = []) /\
  (forall l e, l <> [] -> from_vec l = Err e ->
     exists pre b post, l = pre ++ b :: post /\ NoDup pre /\ Forall (fun x => x < length l) pre /\
       ((e = BellOutOfStage b (length l) /\ length l <= b) \/ (e = DuplicateBell b /\ In b pre))) /\
  (forall l b, from_vec l <> Err (MissingBell b)).
Proof.
  splits.
  - intros l. split; [|intros ->; reflexivity]. intros H. apply from_vec_err in H.
    destruct H as [[H _]|[_ (p & b & q & _ & _ & _ & [[H _]|[H _]])]]; auto; discriminate.
  - intros l e Hl H. apply from_vec_err in H. destruct H as [[H _]|[_ H]]; [contradiction|]. exact H.
  - intros l b H. apply from_vec_err in H.
    destruct H as [[_ H]|[_ (p & x & q & _ & _ & _ & [[H _]|[H _]])]]; discriminate.
Qed.

Lemma pf_C06_parse_of_display :
  (forall a junk b, (forall c, In c junk -> ~ is_bell_name_char c) ->
     row_parse (a ++ junk ++ b) = row_parse (a ++ b)) /\
  (forall s r, row_parse s = Ok r -> valid_row r) /\
  (forall r, valid_row r -> length r <= 33 -> row_parse (row_display r) = Ok r) /\
  (forall r, row_display r = concat (map bell_name r)).
Proof.
  splits.
  - apply row_parse_junk.
  - intros s r H. rewrite row_parse_eq in H. apply from_vec_ok in H as [H ->]. exact H.
  - apply parse_display.
  - reflexivity.
Qed.

Lemma pf_C06_parse_of_display_large_refuted :
  forall r, valid_row r -> 33 < length r -> row_parse (row_display r) <> Ok r.
Proof. apply parse_display_large. Qed.

Lemma pf_C06_parse_reads_the_names :
  forall t, exists bells, (forall l, names_bells t l <-> l = bells) /\
    row_parse t = from_vec bells /\ (forall s, row_parse_with_stage t s = from_vec_with_stage bells s) /\
    (forall r, row_parse t = Ok r <-> valid_row bells /\ r = bells).
Proof.
  intros t. exists (filter_map bell_from_name t). splits; auto; try reflexivity; [|intros r; apply from_vec_ok].
  assert (N1 : forall c b, nth_error names_of_bells b = Some c <-> bell_from_name c = Some b).
  { intros c b. rewrite from_name_to_char. reflexivity. }
  assert (N2 : forall c, ~ In c names_of_bells <-> bell_from_name c = None).
  { intros c. split.
    - intros H. destruct (bell_from_name c) as [b|] eqn:E; auto. apply N1, nth_error_In in E. contradiction.
    - intros H I. apply In_nth_error in I as (b & I). apply N1 in I. congruence. }
  intros l. split.
  - induction 1 as [|c b t l C H IH|c t l C H IH]; cbn [filter_map]; auto.
    + apply N1 in C. rewrite C, IH. reflexivity.
    + apply N2 in C. rewrite C. exact IH.
  - intros ->. induction t as [|c t IH]; cbn [filter_map]; [constructor|]. destruct (bell_from_name c) as [b|] eqn:E; constructor; auto.
    + apply N1; auto.
    + apply N2; auto.
Qed.

Lemma pf_C07_with_stage_adds_cover_bells :
  forall l s r, 0 < s ->
    (from_vec_with_stage l s = Ret (Ok r) <->
     NoDup l /\ (forall b, In b l <-> b < length l) /\ length l <= s /\
     r = l ++ seq (length l) (s - length l)) /\
    (from_vec_with_stage l s = Ret (Ok r) -> valid_row r /\ length r = s).
Proof.
  intros l s r Hs.
  assert (A : from_vec_with_stage l s = Ret (Ok r) <->
     NoDup l /\ (forall b, In b l <-> b < length l) /\ length l <= s /\
     r = l ++ seq (length l) (s - length l)).
  { destruct (fvws_cases l s) as [(e & E & (p & b & q & -> & Hn & Hf & Ho)) | (Hn & Hf & [(b & E & H1 & H2 & c & H3 & H4) | (Hi & Hl & E)])];
      rewrite E; split; try discriminate.
    - intros (Hn' & Hb & Hl & _). destruct Ho as [[_ Ho]|[_ Ho]].
      + exfalso. apply (Nat.lt_irrefl b). apply Nat.lt_le_trans with s; auto.
        apply Nat.lt_le_trans with (length (p ++ b :: q)); auto. apply Hb. apply in_or_app; right; left; auto.
      + apply NoDup_remove_2 in Hn'. exfalso; apply Hn', in_or_app; auto.
    - intros (_ & Hb & _). exfalso. apply H1, Hb. apply Nat.lt_trans with c; auto. apply Hb; auto.
    - intros [= <-]. destruct Hi. auto.
    - intros (_ & _ & _ & ->). reflexivity. }
  split; [exact A|]. intros H. apply A in H as (H1 & H2 & H3 & ->). split.
  - apply initial_arrangement_extend; auto. split; auto.
  - rewrite app_length, seq_length. lia.
Qed.

Lemma pf_C07_parse_with_stage_reads_the_bell_names :
  forall t s r, 0 < s ->
    (row_parse_with_stage t s = Ret (Ok r) <->
     exists l, l = filter_map bell_from_name t /\ NoDup l /\ (forall b, In b l <-> b < length l) /\
       length l <= s /\ r = l ++ seq (length l) (s - length l)).
Proof.
  intros t s r Hs. unfold row_parse_with_stage.
  rewrite (proj1 (pf_C07_with_stage_adds_cover_bells _ s r Hs)). split.
  - intros H. eexists; split; [reflexivity|exact H].
  - intros (l & -> & H). exact H.
Qed.

Lemma pf_C08_with_stage_never_panics_and_errors_are_truthful :
  forall l s, 0 < s ->
    exists res, from_vec_with_stage l s = Ret res /\
      match res with
      | Ok r => valid_row r /\ length r = s
      | Err NoBells => False
      | Err (BellOutOfStage b s') =>
          s' = s /\ s <= b /\ exists pre post, l = pre ++ b :: post /\ NoDup pre /\
                                               Forall (fun x => x < s) pre
      | Err (DuplicateBell b) =>
          exists pre post, l = pre ++ b :: post /\ In b pre /\ NoDup pre /\ Forall (fun x => x < s) pre
      | Err (MissingBell b) =>
          ~ In b l /\ (exists c, In c l /\ b < c) /\ (forall c, c < b -> In c l)
      end.
Proof.
  intros l s Hs.
  destruct (fvws_cases l s) as [(e & E & (p & b & q & Hl & Hn & Hf & Ho)) | (Hn & Hf & [(b & E & H1 & H2 & c & H3 & H4) | (Hi & Hl & E)])];
    rewrite E; eexists; (split; [reflexivity|]).
  - destruct Ho as [[-> Ho]|[-> Ho]]; cbn; eauto 10.
  - cbn; eauto 10.
  - cbn. split; [apply initial_arrangement_extend; auto|]. rewrite app_length, seq_length; lia.
Qed.

Lemma pf_C09_standard_rows :
  forall s, 0 < s ->
    (valid_row (row_rounds s) /\ length (row_rounds s) = s /\
     forall i, i < s -> nth_error (row_rounds s) i = Some i) /\
    (valid_row (row_backrounds s) /\ length (row_backrounds s) = s /\
     forall i, i < s -> nth_error (row_backrounds s) i = Some (s - 1 - i)) /\
    (valid_row (row_queens s) /\ length (row_queens s) = s /\
     exists odds evens, row_queens s = odds ++ evens /\
       StronglySorted lt odds /\ StronglySorted lt evens /\
       (forall b, In b odds <-> b < s /\ Nat.odd (bell_number b) = true) /\
       (forall b, In b evens <-> b < s /\ Nat.even (bell_number b) = true)).
Proof.
  intros s Hs. destruct (valid_rounds s Hs), (valid_backrounds s Hs), (valid_queens s Hs). splits; auto.
  - intros i Hi. rewrite rounds_seq. rewrite (nth_error_nth' _ 0) by (rewrite seq_length; auto).
    rewrite seq_nth; auto.
  - intros i Hi. apply nth_backrounds; auto.
  - exists (map (fun i => 2 * i) (seq 0 ((s + 1) / 2))), (map (fun i => 2 * i + 1) (seq 0 (s / 2))).
    split; [apply queens_eq|].
    assert (Hsort : forall f n a, (forall x y, x < y -> f x < f y) -> StronglySorted lt (map f (seq a n))).
    { intros f n. induction n as [|n IH]; intros a Hf; cbn [seq map]; constructor; auto.
      apply Forall_forall. intros x Hx. apply in_map_iff in Hx as (y & <- & Hy). apply in_seq in Hy. apply Hf; lia. }
    splits; try (apply Hsort; intros; lia).
    + intros b. split. { intros Hi. apply in_map_iff in Hi as (i & <- & Hi). apply in_seq in Hi. split.
      * assert (2 * ((s + 1) / 2) <= s + 1) by (apply Nat.mul_div_le; lia). lia.
      * unfold bell_number. replace (2 * i + 1) with (1 + 2 * i) by lia. rewrite Nat.odd_add_mul_2. reflexivity. }
      intros [Hb Ho]. unfold bell_number in Ho. rewrite Nat.add_1_r, Nat.odd_succ in Ho.
      apply Nat.even_spec in Ho as [i ->]. apply in_map. apply in_seq. split; [lia|]. rewrite Nat.add_0_l.
      apply Nat.div_le_lower_bound; lia.
    + intros b. split. { intros Hi. apply in_map_iff in Hi as (i & <- & Hi). apply in_seq in Hi. split.
      * assert (2 * (s / 2) <= s) by (apply Nat.mul_div_le; lia). lia.
      * unfold bell_number. replace (2 * i + 1 + 1) with (0 + 2 * (i + 1)) by lia.
        rewrite Nat.even_add_mul_2. reflexivity. }
      intros [Hb Ho]. unfold bell_number in Ho. rewrite Nat.add_1_r, Nat.even_succ in Ho.
      apply Nat.odd_spec in Ho as [i ->]. apply in_map_iff. exists i. split; auto. apply in_seq. split; [lia|]. rewrite Nat.add_0_l.
      apply Nat.div_le_lower_bound; lia.
Qed.

Lemma pf_C09_rounds_tests :
  forall r, (is_rounds r = true <-> r = row_rounds (length r)) /\
            (is_backrounds r = true <-> r = row_backrounds (length r)).
Proof. intros r. split; [apply is_rounds_iff | apply is_backrounds_iff]. Qed.

Lemma pf_C10_multiplication_is_composition :
  forall a b, valid_row a -> valid_row b ->
    (length a <> length b ->
       mul_result a b = Ret (Err (IncompatibleStages (length a) (length b))) /\
       row_mul a b = Panic) /\
    (length a = length b ->
       exists c, mul_result a b = Ret (Ok c) /\ row_mul a b = Ret c /\ mul_unchecked a b = Ret c /\
                 valid_row c /\ length c = length a /\ composition a b c /\
                 forall i d, i < length b -> nth i c d = nth (nth i b d) a d).
Proof.
  intros a b Ha Hb. split.
  - intros H. split; [apply mul_result_err | apply row_mul_panic]; auto.
  - intros H. assert (Va : vrow (length a) a) by (split; auto). assert (Vb : vrow (length a) b) by (split; auto).
    exists (rmul a b). destruct (valid_rmul _ _ _ Va Vb). splits; auto.
    + apply mul_result_ok with (length a); auto.
    + apply row_mul_ok with (length a); auto.
    + apply mul_unchecked_vrow with (length a); auto.
    + apply composition_vrow with (length a); auto.
    + intros i d Hi. unfold rmul.
      rewrite (nth_indep (map (fun x => nth x a 0) b) d (nth d a 0)) by (rewrite map_length; auto).
      rewrite (map_nth (fun x => nth x a 0)).
      apply nth_indep. rewrite H. apply (valid_row_nth_error_lt b i); auto. apply nth_error_nth'. exact Hi.
Qed.

Lemma pf_C11_rows_form_a_group :
  forall n, 0 < n ->
    let rows r := valid_row r /\ length r = n in
    (forall a b, rows a -> rows b -> exists c, row_mul a b = Ret c /\ rows c) /\
    (forall a b c, rows a -> rows b -> rows c ->
       (ab <- row_mul a b;; row_mul ab c) = (bc <- row_mul b c;; row_mul a bc)) /\
    rows (row_rounds n) /\
    (forall a, rows a -> row_mul a (row_rounds n) = Ret a /\ row_mul (row_rounds n) a = Ret a) /\
    (forall a, rows a -> exists ai, row_inv a = Ret ai /\ rows ai /\ row_inv ai = Ret a /\
       row_mul a ai = Ret (row_rounds n) /\ row_mul ai a = Ret (row_rounds n)) /\
    (forall a b, rows a -> rows b ->
       (ab <- row_mul a b;; row_inv ab) = (bi <- row_inv b;; ai <- row_inv a;; row_mul bi ai)).
Proof.
  intros n Hn rows. change rows with (vrow n). clear rows. splits.
  - intros a b Ha Hb. exists (rmul a b). split; [apply row_mul_ok with n; auto | apply valid_rmul; auto].
  - intros a b c Ha Hb Hc. rewrite (row_mul_ok n a b), (row_mul_ok n b c) by auto. cbn [bind].
    rewrite !(row_mul_ok n) by auto using valid_rmul. f_equal. apply (rmul_assoc_vrow n); auto.
  - apply valid_rounds; auto.
  - intros a Ha. pose proof (valid_rounds n Hn). rewrite !(row_mul_ok n) by auto. split; f_equal.
    + apply rmul_rounds_r; apply Ha.
    + apply rmul_rounds_l_vrow; auto.
  - intros a Ha. pose proof (valid_rinv n a Ha) as Hi. exists (rinv a). splits; try apply Hi.
    + apply row_inv_ok, Ha.
    + rewrite row_inv_ok by apply Hi. f_equal. eapply rinv_rinv; eauto.
    + rewrite (row_mul_ok n) by auto. f_equal. apply rmul_rinv_r; auto.
    + rewrite (row_mul_ok n) by auto. f_equal. apply rmul_rinv_l; auto.
  - intros a b Ha Hb. rewrite (row_mul_ok n a b) by auto. rewrite (row_inv_ok a), (row_inv_ok b) by (apply Ha || apply Hb).
    cbn [bind]. rewrite row_inv_ok by (apply (valid_rmul n); auto).
    rewrite (row_mul_ok n) by auto using valid_rinv. f_equal. eapply rinv_rmul; eauto.
Qed.

Lemma pf_C12_in_place_operations :
  forall a b out, valid_row a -> valid_row b -> valid_row out ->
    (* mul_into *)
    (exists res, mul_result a b = Ret res /\
       mul_into a b out = Ret match res with Ok c => (c, Ok tt) | Err e => (out, Err e) end) /\
    (* mul_into_row *)
    (exists res, mul_result a b = Ret res /\
       mul_into_row a b out =
         Ret match res with
             | Err e => (out, Err (RhsStage e))
             | Ok c => if length a =? length out then (c, Ok tt)
                       else (out, Err (IntoStage (IncompatibleStages (length a) (length out))))
             end) /\
    (* inv_into, inv_into_buf *)
    (exists ai, row_inv a = Ret ai /\
       inv_into a out = Ret (if length a =? length out then (ai, Ok tt)
                             else (out, Err (IncompatibleStages (length a) (length out)))) /\
       inv_into_buf a out = Ret ai) /\
    (* copy_into, overwrite_from *)
    copy_into a out = a /\ overwrite_from out a = a.
Proof.
  intros a b out Ha Hb Ho. assert (Hne : out <> []) by apply Ho. splits.
  - destruct (Nat.eq_dec (length a) (length b)) as [H|H].
    + assert (Va : vrow (length a) a) by (split; auto). assert (Vb : vrow (length a) b) by (split; auto).
      eexists; split; [apply (mul_result_ok (length a)); auto|]. apply (mul_into_ok (length a)); auto.
    + eexists; split; [apply mul_result_err; auto|]. apply mul_into_err; auto.
  - destruct (Nat.eq_dec (length a) (length b)) as [H|H].
    + assert (Va : vrow (length a) a) by (split; auto). assert (Vb : vrow (length a) b) by (split; auto).
      eexists; split; [apply (mul_result_ok (length a)); auto|]. cbn beta iota.
      destruct (Nat.eqb_spec (length a) (length out)) as [E|E].
      * apply (mul_into_row_ok (length a)); auto.
      * rewrite mul_into_row_err by (auto; tauto). rewrite (proj2 (Nat.eqb_eq _ _) H). reflexivity.
    + eexists; split; [apply mul_result_err; auto|]. cbn beta iota.
      rewrite mul_into_row_err by (auto; tauto). rewrite (proj2 (Nat.eqb_neq _ _) H). reflexivity.
  - exists (rinv a). splits.
    + apply row_inv_ok; auto.
    + destruct (Nat.eqb_spec (length a) (length out)) as [E|E].
      * apply inv_into_ok; auto.
      * apply inv_into_err; auto.
    + apply inv_into_buf_ok; auto.
  - reflexivity.
  - reflexivity.
Qed.

Lemma pf_C13_row_equations :
  forall a b, valid_row a -> valid_row b ->
    (length a <> length b ->
       solve_ax_equals_b a b = Ret (Err (IncompatibleStages (length a) (length b))) /\
       solve_xa_equals_b a b = Ret (Err (IncompatibleStages (length b) (length a)))) /\
    (length a = length b ->
       (exists x, solve_ax_equals_b a b = Ret (Ok x) /\ valid_row x /\ length x = length a /\
          composition a x b /\
          forall y, valid_row y -> length y = length a -> composition a y b -> y = x) /\
       (exists x, solve_xa_equals_b a b = Ret (Ok x) /\ valid_row x /\ length x = length a /\
          composition x a b /\
          forall y, valid_row y -> length y = length a -> composition y a b -> y = x)).
Proof.
  intros a b Ha Hb. unfold solve_ax_equals_b, solve_xa_equals_b. rewrite row_inv_ok by auto. cbn [bind].
  pose proof (valid_rinv _ _ (vrow_intro a Ha)) as [Hi Hil]. split.
  - intros H. rewrite !mul_result_err by (auto; lia). rewrite Hil. auto.
  - intros H. set (n := length a) in *.
    assert (Va : vrow n a) by (split; auto). assert (Vb : vrow n b) by (split; auto).
    assert (Vi : vrow n (rinv a)) by (split; auto). split.
    + exists (rmul (rinv a) b). destruct (valid_rmul n _ _ Vi Vb) as [V1 V2]. splits; auto.
      * apply (mul_result_ok n); auto.
      * replace b with (rmul a (rmul (rinv a) b)) at 2.
        { apply (composition_vrow n); auto. split; auto. }
        rewrite <- (rmul_assoc_vrow n), (rmul_rinv_r n) by auto. apply rmul_rounds_l_vrow; auto.
      * intros y Vy Ly C. apply composition_fun in C. subst b.
        rewrite <- (rmul_assoc_vrow n), (rmul_rinv_l n) by (auto; split; auto).
        symmetry; apply rmul_rounds_l_vrow. split; auto.
    + exists (rmul b (rinv a)). destruct (valid_rmul n _ _ Vb Vi) as [V1 V2]. splits; auto.
      * apply (mul_result_ok n); auto.
      * replace b with (rmul (rmul b (rinv a)) a) at 2.
        { apply (composition_vrow n); auto. split; auto. }
        rewrite (rmul_assoc_vrow n), (rmul_rinv_l n) by auto. apply rmul_rounds_r. auto.
      * intros y Vy Ly C. apply composition_fun in C. subst b.
        rewrite (rmul_assoc_vrow n), (rmul_rinv_r n) by auto.
        symmetry; apply rmul_rounds_r. auto.
Qed.

Lemma pf_C14_powers :
  forall r, valid_row r ->
    (forall n, exists p, pow_u r n = Ret p /\ power r n p /\ valid_row p /\ length p = length r) /\
    (forall n, pow_i r (Z.of_nat n) = pow_u r n) /\
    (forall n, pow_i r (- Z.of_nat n) = (ri <- row_inv r;; pow_u ri n)) /\
    (forall x y, exists p q, pow_i r x = Ret p /\ pow_i r y = Ret q /\
                             pow_i r (x + y) = row_mul p q).
Proof.
  intros r H. pose proof (vrow_intro r H) as V. set (n0 := length r) in *.
  pose proof (valid_rinv n0 r V) as Vi. splits.
  - intros n. exists (rpow r n). destruct (vrow_rpow n0 r n V) as [V1 V2]. splits; auto.
    + apply (pow_u_ok n0); auto.
    + apply (power_rpow n0); auto.
  - intros n. rewrite (pow_i_ok n0), (pow_u_ok n0) by auto.
    rewrite (proj2 (Z.ltb_ge _ _)) by lia. rewrite Nat2Z.id. reflexivity.
  - intros n. rewrite (pow_i_ok n0) by auto. rewrite row_inv_ok by auto. cbn [bind].
    rewrite (pow_u_ok n0) by auto. f_equal. destruct (Z.ltb_spec (- Z.of_nat n) 0) as [L|L].
    + f_equal; lia.
    + replace n with 0 by lia. cbn [rpow]. unfold Z.of_nat, Z.opp, Z.to_nat. cbn [rpow].
      rewrite length_rinv. reflexivity.
  - intros x y. exists (zpow r x), (zpow r y). rewrite !(pow_i_ok n0) by auto. fold (zpow r x) (zpow r y) (zpow r (x + y)).
    rewrite (row_mul_ok n0) by auto using vrow_zpow. splits; auto. f_equal. apply (zpow_add n0); auto.
Qed.

Lemma pf_C14_accumulator_steps :
  forall a r, valid_row (acc_total a) -> valid_row r ->
    (length (acc_total a) = length r ->
       (exists a', acc_accumulate a r = Ret (a', Ok tt) /\ valid_row (acc_total a') /\
          composition (acc_total a) r (acc_total a') /\ acc_mul_assign a r = Ret a') /\
       (exists a', acc_pre_accumulate a r = Ret (a', Ok tt) /\ valid_row (acc_total a') /\
          composition r (acc_total a) (acc_total a'))) /\
    (length (acc_total a) <> length r ->
       acc_accumulate a r = Ret (a, Err (IncompatibleStages (length (acc_total a)) (length r))) /\
       acc_pre_accumulate a r = Ret (a, Err (IncompatibleStages (length r) (length (acc_total a)))) /\
       acc_mul_assign a r = Panic) /\
    acc_total (acc_set a r) = r.
Proof.
  intros a r Ha Hr. splits.
  - intros H. assert (Va : vrow (length r) (acc_total a)) by (split; auto). pose proof (vrow_intro r Hr) as Vr. split.
    + eexists. split; [apply (acc_accumulate_ok (length r)); auto|]. cbn [acc_total]. splits.
      * apply (valid_rmul (length r)); auto.
      * apply (composition_vrow (length r)); auto.
      * unfold acc_mul_assign. rewrite (acc_accumulate_ok (length r)) by auto. reflexivity.
    + eexists. split; [apply (acc_pre_accumulate_ok (length r)); auto|]. cbn [acc_total]. splits.
      * apply (valid_rmul (length r)); auto.
      * apply (composition_vrow (length r)); auto.
  - intros H. splits.
    + apply acc_accumulate_err; auto.
    + apply acc_pre_accumulate_err; auto.
    + unfold acc_mul_assign. rewrite acc_accumulate_err by auto. reflexivity.
  - reflexivity.
Qed.

Lemma pf_C14_accumulator_histories :
  forall n r0 (ops : list (bool * list nat)),
    valid_row r0 -> length r0 = n -> Forall (fun op => valid_row (snd op) /\ length (snd op) = n) ops ->
    exists a total,
      (a0 <- acc_new r0;;
       foldM (fun a (op : bool * list nat) => let (front, r) := op in
                '(a', res) <- (if front then acc_pre_accumulate a r else acc_accumulate a r);;
                unwrap_res res;;; Ret a') ops a0) = Ret a /\
      acc_total a = total /\
      is_product (rev (map snd (filter fst ops)) ++ [r0] ++
                  map snd (filter (fun op => negb (fst op)) ops)) total.
Proof.
  intros n r0 ops H0 L0 Hops. unfold acc_new. rewrite valid_row_stage by auto. cbn [bind].
  set (f := fun a (op : bool * list nat) => let (front, r) := op in
                '(a', res) <- (if front then acc_pre_accumulate a r else acc_accumulate a r);;
                unwrap_res res;;; Ret a').
  set (a0 := Accumulator r0 (row_rounds (length r0))).
  set (pre := [] : list (list nat)). set (post := [] : list (list nat)).
  assert (G : forall ops a, Forall (fun op => valid_row (snd op) /\ length (snd op) = n) ops ->
     forall xs, xs <> [] -> Forall (vrow n) xs -> is_product xs (acc_total a) -> vrow n (acc_total a) ->
     exists a', foldM f ops a = Ret a' /\
       is_product (rev (map snd (filter fst ops)) ++ xs ++ map snd (filter (fun op => negb (fst op)) ops)) (acc_total a')).
  { clear. intros ops. induction ops as [|[front r] ops IH]; intros a Hops xs Hxs Hv Hp Ha.
    - exists a. cbn. rewrite app_nil_r. auto.
    - inversion Hops as [|? ? Hr Ht]; subst. cbn [snd] in Hr. cbn [foldM].
      assert (Vr : vrow n r) by exact Hr. destruct front.
      + set (a1 := Accumulator (rmul r (acc_total a)) (acc_total a)).
        assert (E : f a (true, r) = Ret a1).
        { unfold f. rewrite (acc_pre_accumulate_ok n) by auto. reflexivity. }
        rewrite E. cbn [bind].
        destruct (IH a1 Ht (r :: xs)) as (a' & F & P); auto.
        * discriminate.
        * cbn [acc_total a1]. apply is_product_cons with n; auto.
        * apply valid_rmul; auto.
        * exists a'. split; auto. cbn [filter fst map snd rev negb]. rewrite <- app_assoc. exact P.
      + set (a1 := Accumulator (rmul (acc_total a) r) (acc_total a)).
        assert (E : f a (false, r) = Ret a1).
        { unfold f. rewrite (acc_accumulate_ok n) by auto. reflexivity. }
        rewrite E. cbn [bind].
        destruct (IH a1 Ht (xs ++ [r])) as (a' & F & P); auto.
        * intros C. apply app_eq_nil in C as [_ C]. discriminate.
        * apply Forall_app; auto.
        * cbn [acc_total a1]. econstructor; eauto. apply (composition_vrow n); auto.
        * apply valid_rmul; auto.
        * exists a'. split; auto. cbn [filter fst map snd rev negb]. rewrite <- app_assoc in P. exact P. }
  destruct (G ops a0 Hops [r0]) as (a & E & P).
  - discriminate.
  - constructor; [split; auto | constructor].
  - constructor.
  - split; auto.
  - exists a, (acc_total a). auto.
Qed.

Lemma pf_C14_accumulator_any_history :
  forall r0 ops, valid_row r0 -> Forall (fun o => valid_row (acc_row o)) ops ->
    exists a0 log, acc_new r0 = Ret a0 /\ acc_total a0 = r0 /\ acc_calls a0 ops = Ret log /\
      acc_history r0 ops log /\ Forall (fun x => valid_row (fst x)) log /\
      forall log', acc_history r0 ops log' -> log' = log.
Proof.
  intros r0 ops V0 Hops. unfold acc_new. rewrite valid_row_stage by auto. cbn [bind].
  set (a0 := Accumulator r0 (row_rounds (length r0))). exists a0.
  assert (K : forall a, valid_row (acc_total a) -> exists log, acc_calls a ops = Ret log /\
    acc_history (acc_total a) ops log /\ Forall (fun x => valid_row (fst x)) log).
  { clear a0 V0 r0. induction Hops as [|o ops Ho Hops IH]; intros a Ha.
    - exists []. splits; constructor.
    - cbn [acc_calls]. destruct o as [r|r|r]; cbn [acc_row acc_call] in *.
      + destruct (Nat.eq_dec (length (acc_total a)) (length r)) as [E|E].
        * assert (Va : vrow (length r) (acc_total a)) by (split; auto). pose proof (vrow_intro r Ho) as Vr.
          rewrite (acc_accumulate_ok (length r)) by auto. cbn [bind].
          destruct (IH (Accumulator (rmul (acc_total a) r) (acc_total a))) as (log & E1 & E2 & E3).
          { cbn. apply (valid_rmul (length r)); auto. }
          rewrite E1. cbn [bind acc_total reported] in *. eexists. splits; [reflexivity| |constructor; auto].
          -- apply ah_after; auto. apply (composition_vrow (length r)); auto.
          -- cbn. apply (valid_rmul (length r)); auto.
        * rewrite acc_accumulate_err by auto. cbn [bind]. destruct (IH a Ha) as (log & E1 & E2 & E3).
          rewrite E1. cbn [bind reported lhs_stage rhs_stage]. eexists. splits; [reflexivity| |constructor; auto].
          apply ah_after_bad; auto.
      + destruct (Nat.eq_dec (length r) (length (acc_total a))) as [E|E].
        * assert (Va : vrow (length r) (acc_total a)) by (split; auto). pose proof (vrow_intro r Ho) as Vr.
          rewrite (acc_pre_accumulate_ok (length r)) by auto. cbn [bind].
          destruct (IH (Accumulator (rmul r (acc_total a)) (acc_total a))) as (log & E1 & E2 & E3).
          { cbn. apply (valid_rmul (length r)); auto. }
          rewrite E1. cbn [bind acc_total reported] in *. eexists. splits; [reflexivity| |constructor; auto].
          -- apply ah_before; auto. apply (composition_vrow (length r)); auto.
          -- cbn. apply (valid_rmul (length r)); auto.
        * rewrite acc_pre_accumulate_err by auto. cbn [bind]. destruct (IH a Ha) as (log & E1 & E2 & E3).
          rewrite E1. cbn [bind reported lhs_stage rhs_stage]. eexists. splits; [reflexivity| |constructor; auto].
          apply ah_before_bad; auto.
      + cbn [bind]. destruct (IH (acc_set a r)) as (log & E1 & E2 & E3); [exact Ho|].
        rewrite E1. cbn [bind reported]. eexists. splits; [reflexivity| |constructor; auto].
        apply ah_set. exact E2. }
  destruct (K a0 V0) as (log & E1 & E2 & E3). exists log. splits; auto.
  intros log' H'. cbn [a0 acc_total] in E2. clear - E2 H'.
  assert (U : forall a b c d, composition a b c -> composition a b d -> c = d).
  { intros a b c d [L1 C1] [L2 C2]. apply nth_error_ext. intros i. destruct (nth_error b i) as [x|] eqn:X.
    - destruct (C1 i x X) as (y & Y1 & Y2), (C2 i x X) as (z & Z1 & Z2). congruence.
    - apply nth_error_None in X. rewrite (proj2 (nth_error_None c i)), (proj2 (nth_error_None d i)) by lia. reflexivity. }
  revert log' H'. induction E2 as [t|t r t' ops log L C H IH|t r ops log L H IH|t r t' ops log L C H IH|t r ops log L H IH|t r ops log H IH];
    intros log' H'; inversion H' as [|? ? t2 ? log2 L2 C2 H2|? ? ? log2 L2 H2|? ? t2 ? log2 L2 C2 H2|? ? ? log2 L2 H2|? ? ? log2 H2];
    subst; try contradiction; try (f_equal; auto; fail); auto.
  - assert (t2 = t') as -> by (eapply U; eauto). f_equal. auto.
  - assert (t2 = t') as -> by (eapply U; eauto). f_equal. auto.
Qed.

Lemma pf_C15_parity_counts_swaps :
  forall r, valid_row r ->
    exists p, (forall fuel, 2 * length r < fuel -> row_parity fuel r = Ret (row_rounds (length r), p)) /\
      (exists k, swaps_to r k (row_rounds (length r))) /\
      (forall k, swaps_to r k (row_rounds (length r)) -> (p = Even <-> Nat.Even k) /\ (p = Odd <-> Nat.Odd k)).
Proof.
  intros r H. exists (if sgn r then Odd else Even). splits.
  - intros fuel Hf. apply (row_parity_ok r fuel H Hf).
  - destruct (row_parity_ok r (S (2 * length r)) H) as [_ K]; [lia | exact K].
  - intros k H0. apply sgn_swaps in H0; [|apply valid_row_NoDup; auto].
    rewrite rounds_seq, sgn_rounds, xorb_false_r in H0.
    rewrite H0, <- Nat.odd_spec, <- Nat.even_spec, <- Nat.negb_odd.
    destruct (Nat.odd k); cbn; split; split; congruence.
Qed.

Lemma pf_C15_parity_of_products :
  forall a b ab fuel, valid_row a -> valid_row b -> length a = length b -> 2 * length a < fuel ->
    row_mul a b = Ret ab ->
    exists x y z ra rb rab, row_parity fuel a = Ret (ra, x) /\ row_parity fuel b = Ret (rb, y) /\
      row_parity fuel ab = Ret (rab, z) /\ z = parity_mul x y /\
      (z = Even <-> (x = y)).
Proof.
  intros a b ab fuel Ha Hb L Hf E.
  assert (Va : vrow (length a) a) by (split; auto). assert (Vb : vrow (length a) b) by (split; auto).
  rewrite (row_mul_ok (length a)) in E by auto. injection E as <-.
  destruct (valid_rmul _ _ _ Va Vb) as [V1 V2].
  destruct (row_parity_ok a fuel Ha) as [E1 _]; [lia|].
  destruct (row_parity_ok b fuel Hb) as [E2 _]; [lia|].
  destruct (row_parity_ok _ fuel V1) as [E3 _]; [lia|].
  do 6 eexists. split; [exact E1|]. split; [exact E2|]. split; [exact E3|].
  rewrite (sgn_rmul _ _ _ Va Vb). destruct (sgn a), (sgn b); cbn; split; (reflexivity || split; congruence).
Qed.

Lemma pf_C16_effective_stage :
  forall r, valid_row r ->
    exists s, effective_stage r = Ret s /\ 1 <= s <= length r /\
      valid_row (firstn s r) /\
      (forall i b, s <= i -> nth_error r i = Some b -> b = i) /\
      (forall s', 1 <= s' -> (forall i b, s' <= i -> nth_error r i = Some b -> b = i) -> s <= s').
Proof.
  intros r H. destruct (effective_stage_spec r) as (s & E & H1 & H2 & H3 & H4).
  specialize (H2 (proj1 H)). exists s. splits; auto. apply valid_prefix; auto.
Qed.

Lemma pf_C22_place_of_and_fixed_bells :
  forall r, valid_row r ->
    (forall b p, place_of r b = Some p <-> nth_error r p = Some b) /\
    (forall b, place_of r b = None <-> length r <= b) /\
    (forall b, In b (fixed_bells r) <-> nth_error r b = Some b) /\ StronglySorted lt (fixed_bells r).
Proof.
  intros r H. splits.
  - intros; apply place_of_Some; auto.
  - intros; apply place_of_None; auto.
  - apply (proj1 (fixed_bells_spec r)).
  - apply (proj2 (fixed_bells_spec r)).
Qed.

Lemma pf_C22_swap :
  forall r i j, valid_row r ->
    (i < length r -> j < length r -> exists s, row_swap r i j = Ret s /\ swapped r s i j /\ valid_row s) /\
    (~ (i < length r /\ j < length r) -> row_swap r i j = Panic).
Proof.
  intros r i j H. split.
  - intros Hi Hj. eexists. split; [apply row_swap_ok; auto|].
    pose proof (row_swap_swapped r i j Hi Hj). split; auto. eapply swapped_valid; eauto.
  - intros Hn. apply row_swap_panic. lia.
Qed.

Lemma pf_C22_extend_to_stage :
  forall r s, valid_row r ->
    (length r <= s -> exists t, extend_to_stage r s = Ret t /\ valid_row t /\ length t = s /\
       firstn (length r) t = r /\
       forall i, length r <= i < s -> nth_error t i = Some i) /\
    (s < length r -> extend_to_stage r s = Panic).
Proof.
  intros r s H. split; [|apply extend_to_stage_panic; auto].
  intros L. destruct (extend_to_stage_ok r s H L) as [E [V1 V2]]. eexists. split; [exact E|]. splits; auto.
  - rewrite firstn_app, Nat.sub_diag, firstn_all. cbn. apply app_nil_r.
  - intros i Hi. rewrite nth_error_app2 by lia. rewrite (nth_error_nth' _ 0) by (rewrite seq_length; lia).
    rewrite seq_nth by lia. f_equal; lia.
Qed.
