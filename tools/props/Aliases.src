(** Property theorems C116: operators, conversions and second names. *)
(*IMPORTS*)
From Verif Require Import Base Bell Spec Stage Row SameStageVec Block PlaceNot Compare SpecVec SpecBlock ListFacts BellFacts RowFacts MulFacts
  GroupFacts SsvFacts BlockFacts Aliases SpecTotals RowThms SsvThms BlockThms PnThms.
Local Open Scope list_scope.
(*BODY*)

(** C116: bells and indices are one-to-one, the number is the index plus one, [+=] and [-=] undo each other, and [-=]
    panics exactly when it would leave the bells. *)
Theorem C116_bells :
  (forall i, bell_index (bell_from_index i) = i) /\ (forall b, bell_from_index (bell_index b) = b) /\
  (forall b, bell_from_number (bell_index b + 1) = Some b /\ bell_number b = bell_index b + 1) /\
  (forall b n, bell_index (bell_add_assign b n) = bell_index b + n /\ bell_sub_assign (bell_add_assign b n) n = Ret b) /\
  (forall b n c, bell_sub_assign b n = Ret c <-> bell_add_assign c n = b) /\
  (forall b n, bell_sub_assign b n = Panic <-> bell_index b < n) /\
  (forall b n, bell_add b n = bell_add_assign b n /\ bell_sub b n = bell_sub_assign b n).
Proof.
  unfold bell_sub_assign, bell_add_assign, bell_sub, bell_add, bell_index, bell_from_index, bell_number. splits; auto.
  - intros b. split; [|auto]. rewrite Nat.add_1_r. reflexivity.
  - intros b n. split; auto. destruct (Nat.leb_spec n (b + n)); [f_equal|]; lia.
  - intros b n c. destruct (Nat.leb_spec n b); split; intros H'; try (discriminate H' || (injection H' as <-)); try lia; f_equal; lia.
  - intros b n. destruct (Nat.leb_spec n b); split; intros; try discriminate; auto; lia.
Qed.

(** C116: indexing a row gives the bell in that place and panics exactly beyond the last place; the bells of a row are
    such that building a row from them gives the row back; copies equal the row, and a row and an owned row are equal
    exactly when they have the same bells in the same places. *)
Theorem C116_rows :
  (forall r i b, row_index r i = Ret b <-> nth_error r i = Some b) /\
  (forall r i, row_index r i = Panic <-> length r <= i) /\
  (forall r, valid_row r -> from_vec (into_bell_vec r) = Ok r /\ from_bell_iter (row_slice r) = Ok r /\
     row_to_owned r = r /\ row_to_rc r = r) /\
  (forall a b, (buf_eq_row a b = true <-> forall i, nth_error a i = nth_error b i) /\ row_eq_buf b a = buf_eq_row a b) /\
  (forall r, valid_row r -> length r <= 33 -> row_from_str (row_display r) = Ok r) /\
  (forall t r, row_from_str t = Ok r -> valid_row r /\ names_bells t r).
Proof.
  splits.
  - intros r i b. unfold row_index, row_slice. destruct (nth_error r i); cbn; split; intros H; try discriminate; congruence.
  - intros r i. unfold row_index, row_slice. rewrite <- nth_error_None. destruct (nth_error r i); cbn; split; intros H; try discriminate; auto.
  - intros r V. unfold into_bell_vec, row_slice, row_to_owned, row_to_rc, row_slice. splits; auto;
      apply pf_C04_from_vec_accepts_exactly_permutations; auto.
  - intros a b. assert (L : forall x y, row_eqb x y = true <-> forall i, nth_error x i = nth_error y i).
    { intros x y. unfold row_eqb. rewrite list_eqb_eq. split; [intros <-; auto|]. revert y.
      induction x as [|h t IH]; intros [|h' t'] H; auto; try (specialize (H 0); discriminate H).
      f_equal; [specialize (H 0); cbn in H; congruence|]. apply IH. intros i. apply (H (S i)). }
    unfold buf_eq_row, row_eq_buf. split; [apply L|]. apply Bool.eq_iff_eq_true. rewrite !L. split; intros H i; rewrite H; auto.
  - intros r V Hl. apply pf_C06_parse_of_display; auto.
  - intros t r H. destruct (pf_C06_parse_reads_the_names t) as (bells & N & _ & _ & P). apply P in H. destruct H as [V ->].
    split; auto. apply N. auto.
Qed.

(** C116: [!r] has bell number [p] in place [b] exactly when [r] has bell number [b] in place [p]; it undoes [r] on
    either side, and [!!r] is [r]. *)
Theorem C116_not :
  forall r, valid_row r ->
    exists y, row_not r = Ret y /\ valid_row y /\ row_not y = Ret r /\
      (forall p b, row_index r p = Ret b <-> row_index y b = Ret p) /\
      row_mul r y = Ret (row_rounds (length r)) /\ row_mul y r = Ret (row_rounds (length r)).
Proof.
  intros r V. pose proof (vrow_intro r V) as V'.
  assert (L0 : 0 < length r) by (destruct V as (Hn & _); destruct r; [congruence|cbn; lia]).
  destruct (pf_C11_rows_form_a_group (length r) L0) as (_ & _ & _ & _ & G & _).
  destruct (G r (conj V eq_refl)) as (y & E & [Vy Ly] & E' & M1 & M2). exists y. splits; auto.
  rewrite row_inv_ok in E by auto. injection E as <-.
  assert (Q : forall i r' b, row_index r' i = Ret b <-> nth_error r' i = Some b) by (intros; apply pf_C116_rows).
  assert (W : forall r' p b, valid_row r' -> nth_error r' p = Some b -> nth_error (rinv r') b = Some p).
  { intros r' p b V2 H. assert (Hp : p < length r') by (apply nth_error_Some; congruence).
    assert (Hb : b < length r') by (apply V2; eapply nth_error_In; eauto).
    rewrite (nth_error_nth' _ 0) by (rewrite length_rinv; auto). f_equal. rewrite nth_rinv by auto.
    apply (nth_error_nth _ _ 0) in H. subst b. apply index_of_nth; auto. apply V2. }
  intros p b. rewrite !Q. split; [apply W; auto|]. intros H. apply W in H; auto.
  rewrite (rinv_rinv (length r)) in H by auto. auto.
Qed.

(** C116: whatever calls are made on an accumulator, its total is what the rows given to it come to, and the next call returns. *)
Theorem C116_accumulated_totals :
  forall a t, accumulated a t -> acc_get_total a = t /\
    (forall r, valid_row r -> exists a' a'' res res',
       acc_accumulate a r = Ret (a', res) /\ acc_pre_accumulate a r = Ret (a'', res') /\
       (length r = length t -> res = Ok tt /\ acc_get_total a' = row_product t r /\ res' = Ok tt /\ acc_get_total a'' = row_product r t) /\
       (length r <> length t -> res = Err (IncompatibleStages (length t) (length r)) /\ a' = a /\
          res' = Err (IncompatibleStages (length r) (length t)) /\ a'' = a)).
Proof.
  assert (K : forall a t, accumulated a t -> valid_row t /\ acc_get_total a = t).
  { induction 1 as [t a V E|s a Hs E|a t r a' H [V IH] Vr L E|a t r a' H [V IH] Vr L E|a t r a' H [V IH] Vr L E|a t r a' res H [V IH] Vr L E|a t r H [V IH] Vr];
      unfold acc_get_total in *.
    - split; auto. unfold acc_new in E. destruct (row_stage t); cbn in E; inversion E; subst. reflexivity.
    - unfold acc_rounds, acc_new in E. destruct (row_stage (row_rounds s)); cbn in E; inversion E; subst. rewrite <- rounds_seq. split; [apply valid_rounds; auto|reflexivity].
    - rewrite (acc_accumulate_ok (length t)) in E by (rewrite ?IH; split; auto). injection E as <-. cbn. rewrite IH.
      split; [apply (valid_rmul (length t)); split; auto|reflexivity].
    - rewrite (acc_pre_accumulate_ok (length t)) in E by (rewrite ?IH; split; auto). injection E as <-. cbn. rewrite IH.
      split; [apply (valid_rmul (length t)); split; auto|reflexivity].
    - unfold acc_mul_assign in E. rewrite (acc_accumulate_ok (length t)) in E by (rewrite ?IH; split; auto). cbn in E. injection E as <-. cbn. rewrite IH.
      split; [apply (valid_rmul (length t)); split; auto|reflexivity].
    - destruct E as [E|E]; [rewrite acc_accumulate_err in E|rewrite acc_pre_accumulate_err in E]; rewrite ?IH; auto; injection E as <- _; auto.
    - split; auto. }
  intros a t H. destruct (K a t H) as [V E]. split; auto. unfold acc_get_total in *. intros r Vr.
  destruct (Nat.eq_dec (length r) (length t)) as [L|L].
  - do 4 eexists. split; [apply (acc_accumulate_ok (length t)); rewrite ?E; split; auto|].
    split; [apply (acc_pre_accumulate_ok (length t)); rewrite ?E; split; auto|]. cbn. rewrite E. split; [|contradiction]. intros _. splits; auto.
  - do 4 eexists. split; [apply acc_accumulate_err; rewrite ?E; auto|]. split; [apply acc_pre_accumulate_err; rewrite ?E; auto|].
    rewrite E. split; [contradiction|]. intros _. splits; auto.
Qed.

(** Three rows one after the other, a refusal between them. *)
Example C116_accumulated_totals_example :
  exists a0 a1 a2 a3, acc_new [1; 0; 2] = Ret a0 /\ acc_accumulate a0 [0; 2; 1] = Ret (a1, Ok tt) /\
    acc_accumulate a1 [1; 0] = Ret (a2, Err (IncompatibleStages 3 2)) /\
    acc_pre_accumulate a2 [0; 2; 1] = Ret (a3, Ok tt) /\ accumulated a3 (row_product [0; 2; 1] (row_product [1; 0; 2] [0; 2; 1])) /\
    acc_get_total a3 = [2; 1; 0].
Proof.
  assert (V : valid_row [1; 0; 2]) by (apply (proj1 (from_vec_ok [1; 0; 2] [1; 0; 2])); vm_compute; reflexivity).
  assert (W : valid_row [0; 2; 1]) by (apply (proj1 (from_vec_ok [0; 2; 1] [0; 2; 1])); vm_compute; reflexivity).
  assert (U : valid_row [1; 0]) by (apply (proj1 (from_vec_ok [1; 0] [1; 0])); vm_compute; reflexivity).
  destruct (acc_new [1; 0; 2]) as [a0| | |] eqn:E0; try (vm_compute in E0; discriminate).
  assert (H0 : accumulated a0 [1; 0; 2]) by (apply acd_new; auto).
  vm_compute in E0. injection E0 as <-.
  do 4 eexists. split; [reflexivity|]. split; [vm_compute; reflexivity|]. split; [vm_compute; reflexivity|]. split; [vm_compute; reflexivity|].
  split; [|vm_compute; reflexivity].
  assert (H1 := fun a' => acd_after _ _ [0; 2; 1] a' H0 W eq_refl). specialize (H1 _ eq_refl).
  assert (N : length [1; 0] <> length (row_product [1; 0; 2] [0; 2; 1])) by (cbn; lia).
  assert (H2 := fun a' res => acd_refused _ _ [1; 0] a' res H1 U N). specialize (H2 _ _ (or_introl eq_refl)).
  assert (H3 := fun a' => acd_before _ _ [0; 2; 1] a' H2 W eq_refl). exact (H3 _ eq_refl).
Qed.

(** C116: [permute] multiplies every row of a buffer or block by the given row and leaves the annotations, or refuses
    rows of another stage and changes nothing; [repeat_iter] goes round the block for ever; a block of place notation
    is built from an iterator exactly when it is not empty and of one stage. *)
Theorem C116_second_names :
  (forall v s rs t, holds v s rs -> valid_row t ->
     (length t = s -> exists v', ssv_permute v t = Ret (v', Ok tt) /\ holds v' s (map (row_product t) rs)) /\
     (length t <> s -> ssv_permute v t = Ret (v, Err (IncompatibleStages (length t) s)))) /\
  (forall A (b : block A) s ars lo t, block_holds b s ars lo -> valid_row t ->
     (length t = s -> exists b', block_permute b t = Ret (b', Ok tt) /\
        block_holds b' s (map (fun ra => (row_product t (fst ra), snd ra)) ars) (row_product t lo)) /\
     (length t <> s -> block_permute b t = Ret (b, Err (IncompatibleStages (length t) s)))) /\
  (forall A (b : block A) s ars lo start, block_holds b s ars lo -> valid_row start ->
     (length start = s -> ars <> [] -> forall k, exists ri outs ri' r a p head item,
        block_repeat_iter b start = Ret (Ok ri) /\ repeat_run ri (repeat None (S k)) = Ret (outs, ri') /\
        nth_error ars (k mod length ars) = Some (r, a) /\ power lo (k / length ars) p /\
        composition start p head /\ composition head r item /\
        nth_error outs k = Some (Some (item, k mod length ars, a))) /\
     (length start <> s -> block_repeat_iter b start = Ret (Err (IncompatibleStages (length start) s)))) /\
  (forall pns l, pn_block_from_iter pns = Ok l <->
     l = pns /\ pns <> [] /\ forall p q, In p pns -> In q pns -> pn_stage p = pn_stage q).
Proof.
  splits.
  - intros v s rs t H V. split; intros Hl.
    + destruct (pf_C28_pre_multiplied v s rs t H V Hl) as ((v' & _ & H' & E) & _). eauto.
    + eapply pf_C24_failed_operations_change_nothing; eauto. all: exact Unbounded || exact v.
  - intros A b s ars lo t H V. pose proof (holds_brep _ _ _ _ H) as H1. split; intros Hl.
    + destruct (brep_pre_multiply s ars lo b t H1 (conj V Hl)) as (b' & E & R).
      exists b'. split; [exact E|]. apply brep_holds. exact R.
    + eapply brep_pre_multiply_err; eauto.
  - intros A b s ars lo start H V. split.
    + intros Hl Ha k. destruct (pf_C34_repeat_iter_items A b s ars lo start (repeat None (S k)) H Ha V Hl) as (ri & outs & ri' & E & R & L & K).
      destruct (K k) as (r & a & p & head & item & W). { rewrite repeat_length. lia. }
      exists ri, outs, ri', r, a, p, head, item. intuition.
    + intros Hl. eapply pf_C34_repeat_iter_incompatible; eauto.
  - intros pns l. apply pf_C45_from_vec.
Qed.

Example C116_example :
  bell_sub_assign (bell_from_index 3) 4 = Panic /\ row_index [2; 0; 1] 1 = Ret 0 /\ row_index [2; 0; 1] 3 = Panic /\
  row_not [2; 0; 1] = Ret [1; 2; 0] /\ valid_row [2; 0; 1] /\ row_from_str (s2l "312") = Ok [2; 0; 1] /\
  buf_eq_row [2; 0; 1] [2; 0] = false /\ row_to_owned [2; 0; 1] = [2; 0; 1].
Proof. splits; try reflexivity. apply (from_vec_ok [2; 0; 1] [2; 0; 1]). reflexivity. Qed.
