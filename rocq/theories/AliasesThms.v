(** Property theorems C116: operators, conversions and second names. *)

(* Generated from tools/props/Aliases.src: the proofs behind PropsAliases.v. *)
From Verif Require Import Base Bell Spec Stage Row SameStageVec Block PlaceNot Compare SpecVec SpecBlock ListFacts BellFacts RowFacts MulFacts
  GroupFacts SsvFacts BlockFacts Aliases SpecTotals RowThms SsvThms BlockThms PnThms.
Local Open Scope list_scope.

Lemma pf_C116_bells :
  (forall i, bell_index (bell_from_index i) = i) /\ (forall b, bell_from_index (bell_index b) = b) /\
  (forall b, bell_from_number (bell_index b + 1) = Some b /\ bell_number b = bell_index b + 1) /\
  (forall b n, bell_index (bell_add_assign b n) = bell_index b + n /\ bell_sub_assign (bell_add_assign b n) n = Ret b) /\
  (forall b n c, bell_sub_assign b n = Ret c <-> bell_add_assign c n = b) /\
  (forall b n, bell_sub_assign b n = Panic <-> bell_index b < n) /\
  (forall b n, bell_add b n = bell_add_assign b n /\ bell_sub b n = bell_sub_assign b n).
Proof.
  unfold bell_sub_assign, bell_add_assign, bell_sub, bell_add, bell_index, bell_from_index, bell_number. splits; auto.
  - intros b. split; [|auto]. rewrite Nat.add_1_r. reflexivity.
  - intros b n. split; auto. destruct (Nat.leb_spec n (b + n)); [f_equal|]; lia.
  - intros b n c. destruct (Nat.leb_spec n b); split; intros H'; try (discriminate H' || (injection H' as <-)); try lia; f_equal; lia.
  - intros b n. destruct (Nat.leb_spec n b); split; intros; try discriminate; auto; lia.
Qed.

Lemma pf_C116_rows :
  (forall r i b, row_index r i = Ret b <-> nth_error r i = Some b) /\
  (forall r i, row_index r i = Panic <-> length r <= i) /\
  (forall r, valid_row r -> from_vec (into_bell_vec r) = Ok r /\ from_bell_iter (row_slice r) = Ok r /\
     row_to_owned r = r /\ row_to_rc r = r) /\
  (forall a b, (buf_eq_row a b = true <-> forall i, nth_error a i = nth_error b i) /\ row_eq_buf b a = buf_eq_row a b) /\
  (forall r, valid_row r -> length r <= 33 -> row_from_str (row_display r) = Ok r) /\
  (forall t r, row_from_str t = Ok r -> valid_row r /\ names_bells t r).
Proof.
  splits.
  - intros r i b. unfold row_index, row_slice. destruct (nth_error r i); cbn; split; intros H; try discriminate; congruence.
  - intros r i. unfold row_index, row_slice. rewrite <- nth_error_None. destruct (nth_error r i); cbn; split; intros H; try discriminate; auto.
  - intros r V. unfold into_bell_vec, row_slice, row_to_owned, row_to_rc, row_slice. splits; auto;
      apply pf_C04_from_vec_accepts_exactly_permutations; auto.
  - intros a b. assert (L : forall x y, row_eqb x y = true <-> forall i, nth_error x i = nth_error y i).
    { intros x y. unfold row_eqb. rewrite list_eqb_eq. split; [intros <-; auto|]. revert y.
      induction x as [|h t IH]; intros [|h' t'] H; auto; try (specialize (H 0); discriminate H).
      f_equal; [specialize (H 0); cbn in H; congruence|]. apply IH. intros i. apply (H (S i)). }
    unfold buf_eq_row, row_eq_buf. split; [apply L|]. apply Bool.eq_iff_eq_true. rewrite !L. split; intros H i; rewrite H; auto.
  - intros r V Hl. apply pf_C06_parse_of_display; auto.
  - intros t r H. destruct (pf_C06_parse_reads_the_names t) as (bells & N & _ & _ & P). apply P in H. destruct H as [V ->].
    split; auto. apply N. auto.
Qed.

Lemma pf_C116_not :
  forall r, valid_row r ->
    exists y, row_not r = Ret y /\ valid_row y /\ row_not y = Ret r /\
      (forall p b, row_index r p = Ret b <-> row_index y b = Ret p) /\
      row_mul r y = Ret (row_rounds (length r)) /\ row_mul y r = Ret (row_rounds (length r)).
Proof.
  intros r V. pose proof (vrow_intro r V) as V'.
  assert (L0 : 0 < length r) by (destruct V as (Hn & _); destruct r; [congruence|cbn; lia]).
  destruct (pf_C11_rows_form_a_group (length r) L0) as (_ & _ & _ & _ & G & _).
  destruct (G r (conj V eq_refl)) as (y & E & [Vy Ly] & E' & M1 & M2). exists y. splits; auto.
  rewrite row_inv_ok in E by auto. injection E as <-.
  assert (Q : forall i r' b, row_index r' i = Ret b <-> nth_error r' i = Some b) by (intros; apply pf_C116_rows).
  assert (W : forall r' p b, valid_row r' -> nth_error r' p = Some b -> nth_error (rinv r') b = Some p).
  { intros r' p b V2 H. assert (Hp : p < length r') by (apply nth_error_Some; congruence).
    assert (Hb : b < length r') by (apply V2; eapply nth_error_In; eauto).
    rewrite (nth_error_nth' _ 0) by (rewrite length_rinv; auto). f_equal. rewrite nth_rinv by auto.
    apply (nth_error_nth _ _ 0) in H. subst b. apply index_of_nth; auto. apply V2. }
  intros p b. rewrite !Q. split; [apply W; auto|]. intros H. apply W in H; auto.
  rewrite (rinv_rinv (length r)) in H by auto. auto.
Qed.

Lemma pf_C116_accumulated_totals :
  forall a t, accumulated a t -> acc_get_total a = t /\
    (forall r, valid_row r -> exists a' a'' res res',
       acc_accumulate a r = Ret (a', res) /\ acc_pre_accumulate a r = Ret (a'', res') /\
       (length r = length t -> res = Ok tt /\ acc_get_total a' = row_product t r /\ res' = Ok tt /\ acc_get_total a'' = row_product r t) /\
       (length r <> length t -> res = Err (IncompatibleStages (length t) (length r)) /\ a' = a /\
          res' = Err (IncompatibleStages (length r) (length t)) /\ a'' = a)).
Proof.
  assert (K : forall a t, accumulated a t -> valid_row t /\ acc_get_total a = t).
  { induction 1 as [t a V E|s a Hs E|a t r a' H [V IH] Vr L E|a t r a' H [V IH] Vr L E|a t r a' H [V IH] Vr L E|a t r a' res H [V IH] Vr L E|a t r H [V IH] Vr];
      unfold acc_get_total in *.
    - split; auto. unfold acc_new in E. destruct (row_stage t); cbn in E; inversion E; subst. reflexivity.
    - unfold acc_rounds, acc_new in E. destruct (row_stage (row_rounds s)); cbn in E; inversion E; subst. rewrite <- rounds_seq. split; [apply valid_rounds; auto|reflexivity].
    - rewrite (acc_accumulate_ok (length t)) in E by (rewrite ?IH; split; auto). injection E as <-. cbn. rewrite IH.
      split; [apply (valid_rmul (length t)); split; auto|reflexivity].
    - rewrite (acc_pre_accumulate_ok (length t)) in E by (rewrite ?IH; split; auto). injection E as <-. cbn. rewrite IH.
      split; [apply (valid_rmul (length t)); split; auto|reflexivity].
    - unfold acc_mul_assign in E. rewrite (acc_accumulate_ok (length t)) in E by (rewrite ?IH; split; auto). cbn in E. injection E as <-. cbn. rewrite IH.
      split; [apply (valid_rmul (length t)); split; auto|reflexivity].
    - destruct E as [E|E]; [rewrite acc_accumulate_err in E|rewrite acc_pre_accumulate_err in E]; rewrite ?IH; auto; injection E as <- _; auto.
    - split; auto. }
  intros a t H. destruct (K a t H) as [V E]. split; auto. unfold acc_get_total in *. intros r Vr.
  destruct (Nat.eq_dec (length r) (length t)) as [L|L].
  - do 4 eexists. split; [apply (acc_accumulate_ok (length t)); rewrite ?E; split; auto|].
    split; [apply (acc_pre_accumulate_ok (length t)); rewrite ?E; split; auto|]. cbn. rewrite E. split; [|contradiction]. intros _. splits; auto.
  - do 4 eexists. split; [apply acc_accumulate_err; rewrite ?E; auto|]. split; [apply acc_pre_accumulate_err; rewrite ?E; auto|].
    rewrite E. split; [contradiction|]. intros _. splits; auto.
Qed.

Lemma pf_C116_second_names :
  (forall v s rs t, holds v s rs -> valid_row t ->
     (length t = s -> exists v', ssv_permute v t = Ret (v', Ok tt) /\ holds v' s (map (row_product t) rs)) /\
     (length t <> s -> ssv_permute v t = Ret (v, Err (IncompatibleStages (length t) s)))) /\
  (forall A (b : block A) s ars lo t, block_holds b s ars lo -> valid_row t ->
     (length t = s -> exists b', block_permute b t = Ret (b', Ok tt) /\
        block_holds b' s (map (fun ra => (row_product t (fst ra), snd ra)) ars) (row_product t lo)) /\
     (length t <> s -> block_permute b t = Ret (b, Err (IncompatibleStages (length t) s)))) /\
  (forall A (b : block A) s ars lo start, block_holds b s ars lo -> valid_row start ->
     (length start = s -> ars <> [] -> forall k, exists ri outs ri' r a p head item,
        block_repeat_iter b start = Ret (Ok ri) /\ repeat_run ri (repeat None (S k)) = Ret (outs, ri') /\
        nth_error ars (k mod length ars) = Some (r, a) /\ power lo (k / length ars) p /\
        composition start p head /\ composition head r item /\
        nth_error outs k = Some (Some (item, k mod length ars, a))) /\
     (length start <> s -> block_repeat_iter b start = Ret (Err (IncompatibleStages (length start) s)))) /\
  (forall pns l, pn_block_from_iter pns = Ok l <->
     l = pns /\ pns <> [] /\ forall p q, In p pns -> In q pns -> pn_stage p = pn_stage q).
Proof.
  splits.
  - intros v s rs t H V. split; intros Hl.
    + destruct (pf_C28_pre_multiplied v s rs t H V Hl) as ((v' & _ & H' & E) & _). eauto.
    + eapply pf_C24_failed_operations_change_nothing; eauto. all: exact Unbounded || exact v.
  - intros A b s ars lo t H V. pose proof (holds_brep _ _ _ _ H) as H1. split; intros Hl.
    + destruct (brep_pre_multiply s ars lo b t H1 (conj V Hl)) as (b' & E & R).
      exists b'. split; [exact E|]. apply brep_holds. exact R.
    + eapply brep_pre_multiply_err; eauto.
  - intros A b s ars lo start H V. split.
    + intros Hl Ha k. destruct (pf_C34_repeat_iter_items A b s ars lo start (repeat None (S k)) H Ha V Hl) as (ri & outs & ri' & E & R & L & K).
      destruct (K k) as (r & a & p & head & item & W). { rewrite repeat_length. lia. }
      exists ri, outs, ri', r, a, p, head, item. intuition.
    + intros Hl. eapply pf_C34_repeat_iter_incompatible; eauto.
  - intros pns l. apply pf_C45_from_vec.
Qed.
