(** Proofs about row multiplication, inversion, standard rows, effective stage, swaps. *)
From Coq Require Import Sorting.Sorted.
From Verif Require Import Base Bell Stage Parity Row ListFacts BellFacts RowFacts Spec.
Local Open Scope list_scope.

(** ** Pure counterparts used in proofs *)

Definition rmul (a b : row) : row := map (fun x => nth x a 0) b.
Definition index_of (b : bell) (r : row) : nat :=
  match position (fun x => x =? b) r with Some i => i | None => 0 end.
Definition rinv (r : row) : row := map (fun b => index_of b r) (seq 0 (length r)).

(** valid rows of stage [n] *)
Definition vrow (n : nat) (r : row) : Prop := valid_row r /\ length r = n.

Lemma vrow_intro r : valid_row r -> vrow (length r) r.
Proof. split; auto. Qed.

Lemma length_rmul a b : length (rmul a b) = length b.
Proof. apply map_length. Qed.

Lemma nth_rmul a b i : i < length b -> nth i (rmul a b) 0 = nth (nth i b 0) a 0.
Proof.
  intros H. unfold rmul.
  rewrite (nth_indep _ 0 (nth 0 a 0)) by (rewrite map_length; auto).
  apply (map_nth (fun x => nth x a 0)).
Qed.

Lemma length_rinv r : length (rinv r) = length r.
Proof. unfold rinv; rewrite map_length, seq_length; reflexivity. Qed.

Lemma nth_rinv r b : b < length r -> nth b (rinv r) 0 = index_of b r.
Proof.
  intros H. unfold rinv.
  rewrite (nth_indep _ 0 (index_of 0 r)) by (rewrite map_length, seq_length; auto).
  rewrite (map_nth (fun b => index_of b r)), seq_nth by auto. reflexivity.
Qed.

Lemma index_of_spec r b : In b r -> index_of b r < length r /\ nth (index_of b r) r 0 = b.
Proof.
  intros H. unfold index_of. destruct (position (fun x => x =? b) r) as [i|] eqn:E.
  - apply position_Some in E as [(x & Hx & Hb) _]. apply Nat.eqb_eq in Hb as ->.
    split; [apply nth_error_Some; congruence | apply nth_error_nth; auto].
  - rewrite position_None in E. specialize (E b H). rewrite Nat.eqb_refl in E. discriminate.
Qed.

Lemma index_of_nth r i : NoDup r -> i < length r -> index_of (nth i r 0) r = i.
Proof.
  intros Hnd Hi. destruct (index_of_spec r (nth i r 0)) as [H1 H2]; [apply nth_In; auto|].
  eapply (proj1 (NoDup_nth r 0)); eauto.
Qed.

Lemma row_ext (a b : row) :
  length a = length b -> (forall i, i < length a -> nth i a 0 = nth i b 0) -> a = b.
Proof. intros H1 H2. apply nth_ext with 0 0; auto. Qed.

(** ** multiplication *)

Lemma mul_unchecked_ok a b :
  Forall (fun x => x < length a) b -> mul_unchecked a b = Ret (rmul a b).
Proof.
  intros H. apply mapM_ret. intros x Hx. rewrite Forall_forall in H. apply idx_ret; auto.
Qed.

Lemma valid_rmul n a b : vrow n a -> vrow n b -> vrow n (rmul a b).
Proof.
  intros [Ha La] [Hb Lb]. split; [|rewrite length_rmul; auto].
  apply valid_row_iff. split.
  { intros H. apply (f_equal (@length nat)) in H. rewrite length_rmul in H.
    apply valid_row_pos in Hb. cbn in H. lia. }
  split.
  - unfold rmul. apply NoDup_map_inj; [|apply valid_row_NoDup; auto].
    intros x y Hx Hy Hxy.
    eapply (proj1 (NoDup_nth a 0)); [apply valid_row_NoDup; auto| | |exact Hxy].
    + apply Hb in Hx; lia.
    + apply Hb in Hy; lia.
  - rewrite length_rmul. apply Forall_forall. intros x Hx.
    apply in_map_iff in Hx as (y & <- & Hy). rewrite Lb, <- La.
    apply valid_row_nth_lt; auto. apply Hb in Hy; lia.
Qed.

Lemma mul_unchecked_vrow n a b : vrow n a -> vrow n b -> mul_unchecked a b = Ret (rmul a b).
Proof.
  intros [Ha La] [Hb Lb]. apply mul_unchecked_ok.
  apply valid_row_Forall in Hb. rewrite La, <- Lb. exact Hb.
Qed.

Lemma mul_result_ok n a b : vrow n a -> vrow n b -> mul_result a b = Ret (Ok (rmul a b)).
Proof.
  intros Ha Hb. unfold mul_result.
  rewrite (valid_row_stage a), (valid_row_stage b) by (apply Ha || apply Hb). cbn [bind].
  unfold test_err. rewrite (proj2 Ha), (proj2 Hb), Nat.eqb_refl.
  erewrite mul_unchecked_vrow by eauto. reflexivity.
Qed.

Lemma mul_result_err a b : valid_row a -> valid_row b -> length a <> length b ->
  mul_result a b = Ret (Err (IncompatibleStages (length a) (length b))).
Proof.
  intros Ha Hb H. unfold mul_result.
  rewrite (valid_row_stage a), (valid_row_stage b) by auto. cbn [bind].
  unfold test_err. apply Nat.eqb_neq in H. rewrite H. reflexivity.
Qed.

Lemma row_mul_ok n a b : vrow n a -> vrow n b -> row_mul a b = Ret (rmul a b).
Proof. intros Ha Hb. unfold row_mul. erewrite mul_result_ok by eauto. reflexivity. Qed.

Lemma row_mul_panic a b : valid_row a -> valid_row b -> length a <> length b -> row_mul a b = Panic.
Proof. intros Ha Hb H. unfold row_mul. rewrite mul_result_err by auto. reflexivity. Qed.

Lemma composition_rmul a b :
  Forall (fun x => x < length a) b -> composition a b (rmul a b).
Proof.
  intros H. split; [apply length_rmul|]. intros i x Hx.
  rewrite Forall_forall in H. specialize (H x (nth_error_In _ _ Hx)).
  exists (nth x a 0). split; [apply nth_error_nth'; auto|].
  unfold rmul. rewrite nth_error_map, Hx. reflexivity.
Qed.

Lemma composition_fun a b c : composition a b c -> c = rmul a b.
Proof.
  intros [H1 H2]. apply nth_error_ext. intros i. unfold rmul. rewrite nth_error_map.
  destruct (nth_error b i) as [x|] eqn:E; cbn [option_map].
  - destruct (H2 i x E) as (y & Hy & ->). f_equal. symmetry. apply nth_error_nth; auto.
  - apply nth_error_None. apply nth_error_None in E. lia.
Qed.

Lemma composition_vrow n a b : vrow n a -> vrow n b -> composition a b (rmul a b).
Proof.
  intros [Ha La] [Hb Lb]. apply composition_rmul. apply valid_row_Forall in Hb.
  rewrite La, <- Lb. exact Hb.
Qed.

(** ** group laws *)

Lemma rmul_assoc a b c : Forall (fun x => x < length b) c -> rmul (rmul a b) c = rmul a (rmul b c).
Proof.
  intros H. apply row_ext; [rewrite !length_rmul; auto|]. intros i. rewrite !length_rmul. intros Hi.
  rewrite (nth_rmul (rmul a b) c), (nth_rmul a (rmul b c)), (nth_rmul b c)
    by (rewrite ?length_rmul; auto). apply nth_rmul.
  rewrite Forall_forall in H. apply H, nth_In; auto.
Qed.

Lemma rmul_assoc_vrow n a b c : vrow n b -> vrow n c -> rmul (rmul a b) c = rmul a (rmul b c).
Proof.
  intros [Hb Lb] [Hc Lc]. apply rmul_assoc. apply valid_row_Forall in Hc. rewrite Lb, <- Lc; auto.
Qed.

Lemma length_rounds s : length (row_rounds s) = s.
Proof. unfold row_rounds, range; rewrite seq_length; lia. Qed.

Lemma nth_rounds s i : i < s -> nth i (row_rounds s) 0 = i.
Proof. intros H; unfold row_rounds, range; rewrite seq_nth by lia; lia. Qed.

Lemma rounds_seq s : row_rounds s = seq 0 s.
Proof. unfold row_rounds, range; rewrite Nat.sub_0_r; reflexivity. Qed.

Lemma valid_rounds s : 0 < s -> vrow s (row_rounds s).
Proof.
  intros H. split; [|apply length_rounds]. apply valid_row_perm. rewrite length_rounds, rounds_seq.
  split; [destruct s; [lia|discriminate] | reflexivity].
Qed.

Lemma rmul_rounds_r n a : length a = n -> rmul a (row_rounds n) = a.
Proof.
  intros H. apply row_ext; rewrite length_rmul, length_rounds; auto.
  intros i Hi. rewrite nth_rmul by (rewrite length_rounds; auto). rewrite nth_rounds; auto.
Qed.

Lemma rmul_rounds_l n a : Forall (fun b => b < n) a -> rmul (row_rounds n) a = a.
Proof.
  intros H. apply row_ext; rewrite length_rmul; auto.
  intros i Hi. rewrite nth_rmul by auto. rewrite nth_rounds; auto.
  rewrite Forall_forall in H. apply H, nth_In; auto.
Qed.

Lemma rmul_rounds_l_vrow n a : vrow n a -> rmul (row_rounds n) a = a.
Proof. intros [H L]. apply rmul_rounds_l. apply valid_row_Forall in H. rewrite <- L; auto. Qed.

Lemma valid_rinv n a : vrow n a -> vrow n (rinv a).
Proof.
  intros [H L]. split; [|rewrite length_rinv; auto]. apply valid_row_iff.
  assert (Hin : forall b, b < length a -> In b a) by (intros b Hb; apply H; auto).
  split; [intros E; apply (f_equal (@length nat)) in E; rewrite length_rinv in E;
          apply valid_row_pos in H; cbn in E; lia|].
  split.
  - unfold rinv. apply NoDup_map_inj; [|apply seq_NoDup].
    intros x y Hx Hy E. apply in_seq in Hx, Hy.
    destruct (index_of_spec a x) as [_ E1]; [apply Hin; lia|].
    destruct (index_of_spec a y) as [_ E2]; [apply Hin; lia|]. congruence.
  - rewrite length_rinv. apply Forall_forall. intros x Hx. unfold rinv in Hx.
    apply in_map_iff in Hx as (b & <- & Hb). apply in_seq in Hb.
    apply index_of_spec, Hin; lia.
Qed.

Lemma rmul_rinv_r n a : vrow n a -> rmul a (rinv a) = row_rounds n.
Proof.
  intros [H L]. apply row_ext; rewrite length_rmul, length_rinv; [rewrite length_rounds; auto|].
  intros i Hi. rewrite nth_rmul by (rewrite length_rinv; auto). rewrite nth_rinv by auto.
  rewrite nth_rounds by lia. apply index_of_spec, H, Hi.
Qed.

Lemma rmul_rinv_l n a : vrow n a -> rmul (rinv a) a = row_rounds n.
Proof.
  intros [H L]. apply row_ext; rewrite length_rmul; [rewrite length_rounds; auto|].
  intros i Hi. rewrite nth_rmul by auto. rewrite nth_rounds by lia.
  rewrite nth_rinv by (apply valid_row_nth_lt; auto).
  apply index_of_nth; auto. apply valid_row_NoDup; auto.
Qed.

Lemma rmul_cancel_l n a b c : vrow n a -> vrow n b -> vrow n c -> rmul a b = rmul a c -> b = c.
Proof.
  intros Ha Hb Hc H. pose proof (valid_rinv _ _ Ha) as Hi.
  rewrite <- (rmul_rounds_l_vrow n b Hb), <- (rmul_rounds_l_vrow n c Hc).
  rewrite <- (rmul_rinv_l n a Ha).
  rewrite (rmul_assoc_vrow n (rinv a) a b), (rmul_assoc_vrow n (rinv a) a c) by auto. congruence.
Qed.

Lemma rmul_cancel_r n a b c : vrow n a -> vrow n b -> vrow n c -> rmul b a = rmul c a -> b = c.
Proof.
  intros Ha Hb Hc H. pose proof (valid_rinv _ _ Ha) as Hi.
  rewrite <- (rmul_rounds_r n b (proj2 Hb)), <- (rmul_rounds_r n c (proj2 Hc)).
  rewrite <- (rmul_rinv_r n a Ha).
  rewrite <- (rmul_assoc_vrow n b a (rinv a)), <- (rmul_assoc_vrow n c a (rinv a)) by auto.
  congruence.
Qed.

Lemma rinv_unique n a b : vrow n a -> vrow n b -> rmul a b = row_rounds n -> b = rinv a.
Proof.
  intros Ha Hb H. apply (rmul_cancel_l n a); auto; [apply valid_rinv; auto|].
  rewrite (rmul_rinv_r n a Ha); auto.
Qed.

Lemma rinv_rinv n a : vrow n a -> rinv (rinv a) = a.
Proof.
  intros Ha. symmetry. apply (rinv_unique n); auto; [apply valid_rinv; auto|].
  apply rmul_rinv_l; auto.
Qed.

Lemma rinv_rmul n a b : vrow n a -> vrow n b -> rinv (rmul a b) = rmul (rinv b) (rinv a).
Proof.
  intros Ha Hb. pose proof (valid_rinv _ _ Ha) as Hia. pose proof (valid_rinv _ _ Hb) as Hib.
  symmetry. apply (rinv_unique n); [apply valid_rmul; auto | apply valid_rmul; auto|].
  rewrite (rmul_assoc_vrow n a b) by (auto; apply valid_rmul; auto).
  rewrite <- (rmul_assoc_vrow n b (rinv b) (rinv a)) by auto.
  rewrite (rmul_rinv_r n b Hb), (rmul_rounds_l_vrow n _ Hia). apply rmul_rinv_r; auto.
Qed.

Lemma rinv_rounds n : 0 < n -> rinv (row_rounds n) = row_rounds n.
Proof.
  intros H. symmetry. apply (rinv_unique n); auto using valid_rounds.
  apply rmul_rounds_r, length_rounds.
Qed.

(** ** inversion loops *)

Lemma inv_loop_gen k r out :
  Forall (fun b => b < length out) r -> NoDup r ->
  exists out', foldM (fun o '(i, b) => set_idx o b i) (enumerate_from k r) out = Ret out' /\
    length out' = length out /\
    (forall i b, nth_error r i = Some b -> nth_error out' b = Some (k + i)) /\
    (forall b, ~ In b r -> nth_error out' b = nth_error out b).
Proof.
  revert k out; induction r as [|b r IH]; intros k out Hlt Hnd; cbn [enumerate_from foldM].
  - exists out. splits; auto. intros [|i] b H; discriminate.
  - inversion Hlt as [|? ? Hb Hlt']; inversion Hnd as [|? ? Hnb Hnd']; subst.
    rewrite set_idx_ret by auto. cbn [bind].
    destruct (IH (S k) (upd out b k)) as (out' & E & L & H1 & H2).
    + eapply Forall_impl; [|exact Hlt']. intros; rewrite length_upd; auto.
    + auto.
    + exists out'. rewrite length_upd in L. splits; auto.
      * intros [|i] c Hc; cbn [nth_error] in Hc.
        -- injection Hc as <-. rewrite H2 by auto. rewrite Nat.add_0_r. apply nth_error_upd_same; auto.
        -- rewrite (H1 i c Hc). f_equal; lia.
      * intros c Hc. rewrite H2 by (intros Hin; apply Hc; right; auto).
        apply nth_error_upd_other. intros ->; apply Hc; left; auto.
Qed.

Lemma inv_loop_ok r out : valid_row r -> length out = length r -> inv_loop r out = Ret (rinv r).
Proof.
  intros Hv L. unfold inv_loop, enumerate.
  destruct (inv_loop_gen 0 r out) as (out' & E & L' & H1 & _).
  - rewrite L. apply valid_row_Forall; auto.
  - apply valid_row_NoDup; auto.
  - rewrite E. f_equal. apply row_ext; rewrite ?length_rinv; [lia|].
    intros b Hb. rewrite nth_rinv by lia.
    destruct (index_of_spec r b) as [I1 I2]; [apply Hv; lia|].
    apply nth_error_nth. replace (index_of b r) with (0 + index_of b r) by lia. apply H1.
    rewrite <- I2 at 2. apply nth_error_nth'; auto.
Qed.

Lemma row_inv_ok r : valid_row r -> row_inv r = Ret (rinv r).
Proof.
  intros Hv. unfold row_inv. rewrite valid_row_stage by auto. cbn [bind].
  apply inv_loop_ok; auto. apply repeat_length.
Qed.

Lemma inv_into_ok r out : valid_row r -> length out = length r -> inv_into r out = Ret (rinv r, Ok tt).
Proof.
  intros Hv L. unfold inv_into. rewrite valid_row_stage by auto. cbn [bind].
  unfold row_stage. rewrite L, stage_new_pos by (apply valid_row_pos; auto). cbn [bind].
  unfold test_err. rewrite Nat.eqb_refl. rewrite inv_loop_ok by auto. reflexivity.
Qed.

Lemma inv_into_err r out : valid_row r -> out <> [] -> length out <> length r ->
  inv_into r out = Ret (out, Err (IncompatibleStages (length r) (length out))).
Proof.
  intros Hv Hne L. unfold inv_into. rewrite valid_row_stage by auto. cbn [bind].
  unfold row_stage. rewrite stage_new_pos by (destruct out; [congruence | cbn; lia]). cbn [bind].
  unfold test_err. rewrite (proj2 (Nat.eqb_neq _ _)) by auto. reflexivity.
Qed.

Lemma inv_into_buf_ok r out : valid_row r -> out <> [] -> inv_into_buf r out = Ret (rinv r).
Proof.
  intros Hv Hne. unfold inv_into_buf.
  assert (Hr := valid_row_pos r Hv).
  unfold row_stage at 1. rewrite stage_new_pos by (destruct out; [congruence | cbn; lia]).
  cbn [bind]. rewrite valid_row_stage by auto. cbn [bind].
  assert (Hk : forall o, length o = length r ->
     (so1 <- row_stage o;; assert_ (so1 =? length r);;; inv_loop r o) = Ret (rinv r)).
  { intros o Ho. unfold row_stage. rewrite Ho, stage_new_pos by auto. cbn [bind].
    rewrite Nat.eqb_refl. cbn [assert_ bind]. apply inv_loop_ok; auto. }
  destruct (Nat.compare_spec (length out) (length r)) as [E|E|E]; cbn [bind].
  - apply Hk; auto.
  - apply Hk. rewrite app_length, repeat_length. lia.
  - rewrite slice_ret by lia. cbn [bind]. apply Hk.
    rewrite Nat.sub_0_r. cbn [skipn]. rewrite firstn_length. lia.
Qed.

(** ** in-place multiplication *)

Lemma mul_into_ok n a b out : vrow n a -> vrow n b -> mul_into a b out = Ret (rmul a b, Ok tt).
Proof.
  intros Ha Hb. unfold mul_into.
  rewrite (valid_row_stage a), (valid_row_stage b) by (apply Ha || apply Hb). cbn [bind].
  unfold test_err. rewrite (proj2 Ha), (proj2 Hb), Nat.eqb_refl.
  unfold mul_into_unchecked. fold (mul_unchecked a b). erewrite mul_unchecked_vrow by eauto.
  reflexivity.
Qed.

Lemma mul_into_err a b out : valid_row a -> valid_row b -> length a <> length b ->
  mul_into a b out = Ret (out, Err (IncompatibleStages (length a) (length b))).
Proof.
  intros Ha Hb H. unfold mul_into.
  rewrite (valid_row_stage a), (valid_row_stage b) by auto. cbn [bind].
  unfold test_err. rewrite (proj2 (Nat.eqb_neq _ _)) by auto. reflexivity.
Qed.

Lemma mul_into_row_loop_ok a out b :
  length out = length b -> Forall (fun x => x < length a) b ->
  mul_into_row_loop a out b = Ret (rmul a b).
Proof.
  revert out; induction b as [|y b IH]; intros [|o out] L H; try discriminate; [reflexivity|].
  inversion H; subst. cbn [mul_into_row_loop]. rewrite (idx_ret 0) by auto. cbn [bind].
  rewrite IH by (auto; cbn in L; lia). reflexivity.
Qed.

Lemma mul_into_row_ok n a b out : vrow n a -> vrow n b -> length out = n ->
  mul_into_row a b out = Ret (rmul a b, Ok tt).
Proof.
  intros Ha Hb Lo. unfold mul_into_row.
  rewrite (valid_row_stage a), (valid_row_stage b) by (apply Ha || apply Hb). cbn [bind].
  unfold test_err at 1. rewrite (proj2 Ha), (proj2 Hb), Nat.eqb_refl.
  unfold row_stage. rewrite Lo, stage_new_pos.
  2: { rewrite <- (proj2 Ha). apply valid_row_pos, Ha. }
  cbn [bind]. unfold test_err. rewrite Nat.eqb_refl. rewrite mul_into_row_loop_ok; [reflexivity|..].
  - rewrite (proj2 Hb); auto.
  - destruct Hb as [Hb Lb]. apply valid_row_Forall in Hb. rewrite (proj2 Ha), <- Lb. exact Hb.
Qed.

Lemma mul_into_row_err a b out : valid_row a -> valid_row b -> out <> [] ->
  ~ (length a = length b /\ length a = length out) ->
  mul_into_row a b out =
  Ret (out, Err (if length a =? length b
                 then IntoStage (IncompatibleStages (length a) (length out))
                 else RhsStage (IncompatibleStages (length a) (length b)))).
Proof.
  intros Ha Hb Ho H. unfold mul_into_row.
  rewrite (valid_row_stage a), (valid_row_stage b) by auto. cbn [bind].
  unfold test_err at 1. destruct (Nat.eqb_spec (length a) (length b)) as [E|E]; [|reflexivity].
  unfold row_stage. rewrite stage_new_pos by (destruct out; [congruence | cbn; lia]). cbn [bind].
  unfold test_err. rewrite (proj2 (Nat.eqb_neq _ _)) by (intros E'; apply H; auto). reflexivity.
Qed.

(** ** is_rounds etc. *)

Lemma is_rounds_gen k r :
  forallb (fun '(i, b) => b =? i) (enumerate_from k r) = true <-> r = seq k (length r).
Proof.
  revert k; induction r as [|b r IH]; intros k; cbn [enumerate_from forallb length seq]; [tauto|].
  rewrite andb_true_iff, Nat.eqb_eq, IH. split; [intros [-> <-] | intros [= -> <-]]; auto.
Qed.

Lemma is_rounds_iff r : is_rounds r = true <-> r = row_rounds (length r).
Proof. unfold is_rounds, enumerate. rewrite is_rounds_gen, rounds_seq. reflexivity. Qed.

Lemma is_rounds_vrow n r : length r = n -> is_rounds r = true <-> r = row_rounds n.
Proof. intros <-; apply is_rounds_iff. Qed.

Lemma is_backrounds_iff r : is_backrounds r = true <-> r = row_backrounds (length r).
Proof.
  unfold is_backrounds, enumerate, row_backrounds. rewrite is_rounds_gen, rev_length.
  unfold range; rewrite Nat.sub_0_r. split; intros H.
  - rewrite <- (rev_involutive r), H at 1. reflexivity.
  - rewrite <- (rev_involutive (seq 0 (length r))). f_equal. exact H.
Qed.

Lemma rounds_identity s : is_identity (row_rounds s).
Proof.
  intros i b H. rewrite rounds_seq, nth_error_seq in H.
  destruct (i <? s); [injection H; lia | discriminate].
Qed.

Lemma identity_rounds r : is_identity r <-> r = row_rounds (length r).
Proof.
  split; [|intros ->; apply rounds_identity]. intros H. apply nth_error_ext. intros i.
  rewrite rounds_seq, nth_error_seq. destruct (Nat.ltb_spec i (length r)) as [L|L].
  - destruct (nth_error r i) as [b|] eqn:E; [rewrite (H i b E); auto|].
    apply nth_error_None in E; lia.
  - apply nth_error_None; auto.
Qed.

Lemma valid_backrounds s : 0 < s -> vrow s (row_backrounds s).
Proof.
  intros H. assert (L : length (row_backrounds s) = s).
  { unfold row_backrounds, range. rewrite rev_length, seq_length; lia. }
  split; auto. apply valid_row_perm. rewrite L. split.
  - intros E; rewrite E in L; cbn in L; lia.
  - unfold row_backrounds, range. rewrite Nat.sub_0_r. symmetry. apply Permutation_rev.
Qed.

Lemma nth_backrounds s i b :
  nth_error (row_backrounds s) i = Some b <-> i < s /\ b = s - 1 - i.
Proof.
  unfold row_backrounds, range. rewrite Nat.sub_0_r.
  assert (L : length (rev (seq 0 s)) = s) by (rewrite rev_length, seq_length; auto).
  split.
  - intros H. assert (Hi : i < s) by (rewrite <- L; apply nth_error_Some; congruence).
    split; auto. apply nth_error_nth with (d := 0) in H.
    rewrite rev_nth in H by (rewrite seq_length; auto). rewrite seq_length, seq_nth in H; lia.
  - intros [Hi ->]. rewrite (nth_error_nth' _ 0) by lia.
    rewrite rev_nth by (rewrite seq_length; auto). rewrite seq_length, seq_nth by lia. f_equal; lia.
Qed.

(** queens *)
Lemma step_by_2_seq n : forall a,
  step_by_2 (seq a n) = map (fun i => a + 2 * i) (seq 0 ((n + 1) / 2)).
Proof.
  assert (H : forall n, (forall a, step_by_2 (seq a n) = map (fun i => a + 2 * i) (seq 0 ((n + 1) / 2)))
    /\ (forall a, step_by_2 (seq a (S n)) = map (fun i => a + 2 * i) (seq 0 ((S n + 1) / 2)))).
  { clear n. induction n as [|n [IH1 IH2]].
    - split; intros a; cbn; [reflexivity|]. f_equal. lia.
    - split; [exact IH2|]. intros a.
      change (seq a (S (S n))) with (a :: S a :: seq (S (S a)) n). cbn [step_by_2]. rewrite IH1.
      replace (S (S n) + 1) with (n + 1 + 1 * 2) by lia. rewrite Nat.div_add by lia.
      rewrite (Nat.add_1_r ((n + 1) / 2)). cbn [seq map]. rewrite Nat.mul_0_r, Nat.add_0_r. f_equal.
      rewrite <- seq_shift, map_map. apply map_ext. intros; lia. }
  apply H.
Qed.

Lemma queens_eq s :
  row_queens s = map (fun i => 2 * i) (seq 0 ((s + 1) / 2)) ++ map (fun i => 2 * i + 1) (seq 0 (s / 2)).
Proof.
  unfold row_queens, range. rewrite !step_by_2_seq, Nat.sub_0_r. f_equal.
  destruct s as [|s]; [reflexivity|].
  replace (S s - 1 + 1) with (S s) by lia. apply map_ext; intros; lia.
Qed.

Lemma valid_queens s : 0 < s -> vrow s (row_queens s).
Proof.
  intros H. assert (Hdiv : (s + 1) / 2 + s / 2 = s).
  { pose proof (Nat.div_mod s 2 ltac:(lia)). pose proof (Nat.div_mod (s + 1) 2 ltac:(lia)).
    pose proof (Nat.mod_upper_bound s 2 ltac:(lia)).
    pose proof (Nat.mod_upper_bound (s + 1) 2 ltac:(lia)). lia. }
  assert (L : length (row_queens s) = s).
  { rewrite queens_eq, app_length, !map_length, !seq_length. exact Hdiv. }
  split; auto. apply valid_row_iff. rewrite L. split; [intros E; rewrite E in L; cbn in L; lia|].
  rewrite queens_eq. split.
  - apply NoDup_app_intro.
    + apply NoDup_map_inj; [intros; lia | apply seq_NoDup].
    + apply NoDup_map_inj; [intros; lia | apply seq_NoDup].
    + intros x Hx Hy. apply in_map_iff in Hx as (i & <- & _), Hy as (j & Hj & _). lia.
  - apply Forall_forall. intros x Hx. apply in_app_iff in Hx as [Hx|Hx];
      apply in_map_iff in Hx as (i & <- & Hi); apply in_seq in Hi.
    + pose proof (Nat.div_mod (s + 1) 2 ltac:(lia)). lia.
    + pose proof (Nat.div_mod s 2 ltac:(lia)). lia.
Qed.

(** ** effective stage *)

Lemma effective_stage_snoc l x :
  effective_stage (l ++ [x]) =
  if x =? length l then effective_stage l else stage_new (length l + 1).
Proof.
  unfold effective_stage, enumerate. rewrite enumerate_from_app, rev_app_distr. reflexivity.
Qed.

Lemma effective_stage_spec r :
  exists s, effective_stage r = Ret s /\ 1 <= s /\ (r <> [] -> s <= length r) /\
    (forall i b, s <= i -> nth_error r i = Some b -> b = i) /\
    (forall s', 1 <= s' -> (forall i b, s' <= i -> nth_error r i = Some b -> b = i) -> s <= s').
Proof.
  induction r as [|x l IH] using rev_ind.
  - exists 1. splits; auto; [congruence|]. intros i b _ H; destruct i; discriminate.
  - rewrite effective_stage_snoc. destruct (Nat.eqb_spec x (length l)) as [->|Hne].
    + destruct IH as (s & E & H1 & H2 & H3 & H4). exists s. splits; auto.
      * intros _. rewrite app_length; cbn. destruct l as [|y l]; [|specialize (H2 ltac:(discriminate)); lia].
        specialize (H4 1 ltac:(lia)). cbn. assert (s <= 1); [|lia].
        apply H4. intros [|i] b _ H; discriminate.
      * intros i b Hi H. destruct (Nat.lt_ge_cases i (length l)) as [L|L].
        -- rewrite nth_error_app1 in H by auto. eauto.
        -- rewrite nth_error_app2 in H by auto.
           destruct (i - length l) as [|k] eqn:K; [injection H as <-; lia | destruct k; discriminate].
      * intros s' Hs' H. apply H4; auto. intros i b Hi Hb. apply H; auto.
        rewrite nth_error_app1; auto. apply nth_error_Some; congruence.
    + exists (length l + 1). rewrite stage_new_pos by lia. splits; auto; try lia.
      * intros _. rewrite app_length; cbn; lia.
      * intros i b Hi H. assert (i < length (l ++ [x])) by (apply nth_error_Some; congruence).
        rewrite app_length in H0; cbn in H0. lia.
      * intros s' Hs' H. destruct (Nat.lt_ge_cases (length l) s') as [L|L]; [lia|].
        exfalso. apply Hne. apply (H (length l) x); auto.
        rewrite nth_error_app2, Nat.sub_diag by auto. reflexivity.
Qed.

Lemma valid_prefix r s :
  valid_row r -> 1 <= s <= length r ->
  (forall i b, s <= i -> nth_error r i = Some b -> b = i) -> valid_row (firstn s r).
Proof.
  intros Hv Hs H. assert (L : length (firstn s r) = s) by (rewrite firstn_length; lia).
  apply valid_row_iff. rewrite L. split; [intros E; rewrite E in L; cbn in L; lia|]. split.
  - pose proof (valid_row_NoDup r Hv) as Hnd. rewrite <- (firstn_skipn s r) in Hnd.
    apply NoDup_app_elim in Hnd; tauto.
  - apply Forall_forall. intros b Hb. apply In_nth_error in Hb as (i & Hi).
    rewrite nth_error_firstn in Hi. destruct (Nat.ltb_spec i s) as [Hlt|]; [|discriminate].
    destruct (Nat.lt_ge_cases b s) as [|Hge]; auto. exfalso.
    assert (b < length r) by (eapply valid_row_nth_error_lt; eauto).
    assert (nth_error r b = Some b).
    { destruct (nth_error r b) as [c|] eqn:E; [rewrite (H b c Hge E); auto|].
      apply nth_error_None in E; lia. }
    assert (i = b) by (eapply NoDup_nth_error_inj; eauto using valid_row_NoDup). lia.
Qed.

(** ** places, fixed bells, swaps, extension *)

Lemma place_of_Some r b p : valid_row r -> place_of r b = Some p <-> nth_error r p = Some b.
Proof.
  intros Hv. unfold place_of. rewrite position_Some. split.
  - intros [(x & Hx & E) _]. apply Nat.eqb_eq in E as ->; auto.
  - intros H. split; [exists b; split; [auto | apply Nat.eqb_refl]|].
    intros j x Hj Hx. apply Nat.eqb_neq. intros ->.
    assert (j = p) by (eapply NoDup_nth_error_inj; eauto using valid_row_NoDup). lia.
Qed.

Lemma place_of_None r b : valid_row r -> place_of r b = None <-> length r <= b.
Proof.
  intros Hv. unfold place_of. rewrite position_None. split.
  - intros H. destruct (Nat.lt_ge_cases b (length r)) as [L|]; auto.
    apply Hv in L. specialize (H b L). rewrite Nat.eqb_refl in H; discriminate.
  - intros H x Hx. apply Nat.eqb_neq. intros ->. apply Hv in Hx; lia.
Qed.

Lemma fixed_bells_gen k r :
  let l := map snd (filter (fun '(i, b) => i =? b) (enumerate_from k r)) in
  (forall b, In b l <-> k <= b /\ nth_error r (b - k) = Some b) /\ StronglySorted lt l.
Proof.
  revert k; induction r as [|x r IH]; intros k; cbn [enumerate_from filter map].
  - cbn. split; [|constructor]. intros b; split; [tauto|]. intros [_ H]; destruct (b - k); discriminate.
  - specialize (IH (S k)) as [H1 H2]. destruct (Nat.eqb_spec k x) as [->|Hne]; cbn [map snd].
    + split.
      * intros b; cbn [In]. rewrite H1. split.
        -- intros [<- | [L E]]; [rewrite Nat.sub_diag; auto|]. split; [lia|].
           replace (b - x) with (S (b - S x)) by lia. auto.
        -- intros [L E]. destruct (Nat.eq_dec x b) as [|Hne]; [auto|]. right. split; [lia|].
           replace (b - x) with (S (b - S x)) in E by lia. auto.
      * constructor; auto. apply Forall_forall. intros b Hb. apply H1 in Hb; lia.
    + split; auto. intros b. rewrite H1. split.
      * intros [L E]. split; [lia|]. replace (b - k) with (S (b - S k)) by lia. auto.
      * intros [L E]. destruct (Nat.eq_dec k b) as [->|Hne'].
        -- rewrite Nat.sub_diag in E; cbn in E. congruence.
        -- split; [lia|]. replace (b - k) with (S (b - S k)) in E by lia. auto.
Qed.

Lemma fixed_bells_spec r :
  (forall b, In b (fixed_bells r) <-> nth_error r b = Some b) /\ StronglySorted lt (fixed_bells r).
Proof.
  destruct (fixed_bells_gen 0 r) as [H1 H2]. split; auto.
  intros b. unfold fixed_bells, enumerate. rewrite H1, Nat.sub_0_r. split; [tauto|]. split; auto; lia.
Qed.

Lemma row_swap_ok r i j : i < length r -> j < length r ->
  row_swap r i j = Ret (upd (upd r i (nth j r 0)) j (nth i r 0)).
Proof.
  intros Hi Hj. unfold row_swap. rewrite (idx_ret 0 r i Hi). cbn [bind].
  rewrite (idx_ret 0 r j Hj). reflexivity.
Qed.

Lemma row_swap_panic r i j : length r <= i \/ length r <= j -> row_swap r i j = Panic.
Proof.
  intros H. unfold row_swap. destruct (Nat.lt_ge_cases i (length r)) as [Hi|Hi].
  - rewrite (idx_ret 0 r i Hi). cbn [bind]. rewrite (idx_panic r j) by lia. reflexivity.
  - rewrite (idx_panic r i Hi). reflexivity.
Qed.

Lemma row_swap_swapped r i j : i < length r -> j < length r ->
  swapped r (upd (upd r i (nth j r 0)) j (nth i r 0)) i j.
Proof.
  intros Hi Hj. unfold swapped. rewrite !length_upd. splits; auto.
  - rewrite nth_error_upd, length_upd. destruct (Nat.eqb_spec i j) as [->|Hne].
    + rewrite (proj2 (Nat.ltb_lt _ _) Hj). cbn. symmetry; apply nth_error_nth'; auto.
    + cbn [andb]. rewrite nth_error_upd_same by auto. symmetry; apply nth_error_nth'; auto.
  - rewrite nth_error_upd_same by (rewrite length_upd; auto). symmetry; apply nth_error_nth'; auto.
  - intros k H1 H2. rewrite !nth_error_upd_other by auto. reflexivity.
Qed.

Lemma swapped_fun r s t i j : swapped r s i j -> swapped r t i j -> s = t.
Proof.
  intros (H1 & H2 & H3 & H4 & H5 & H6) (K1 & K2 & K3 & K4 & K5 & K6).
  apply nth_error_ext. intros k.
  destruct (Nat.eq_dec k i) as [->|Hi]; [congruence|].
  destruct (Nat.eq_dec k j) as [->|Hj]; [congruence|]. rewrite H6, K6; auto.
Qed.

Lemma swapped_Permutation r s i j : swapped r s i j -> Permutation r s.
Proof.
  intros (H1 & H2 & H3 & H4 & H5 & H6).
  apply Permutation_nth_error. split; [auto|].
  exists (fun k => if k =? i then j else if k =? j then i else k). split.
  - intros a b E.
    repeat match type of E with context [?x =? ?y] => destruct (Nat.eqb_spec x y) end; subst; congruence.
  - intros k. destruct (Nat.eqb_spec k i) as [->|]; [auto|].
    destruct (Nat.eqb_spec k j) as [->|]; auto.
Qed.

Lemma swapped_valid r s i j : valid_row r -> swapped r s i j -> valid_row s.
Proof.
  intros Hv H. pose proof (swapped_Permutation _ _ _ _ H) as P.
  apply valid_row_perm. destruct H as (_ & _ & L & _). apply valid_row_perm in Hv as [Hne Hp].
  split; [intros ->; destruct r; [congruence | discriminate]|].
  rewrite L. transitivity r; auto. symmetry; auto.
Qed.

Lemma extend_to_stage_ok r s : valid_row r -> length r <= s ->
  extend_to_stage r s = Ret (r ++ seq (length r) (s - length r)) /\
  vrow s (r ++ seq (length r) (s - length r)).
Proof.
  intros Hv H. split.
  - unfold extend_to_stage. rewrite valid_row_stage by auto. cbn [bind].
    rewrite (proj2 (Nat.leb_le _ _) H). reflexivity.
  - split; [|rewrite app_length, seq_length; lia].
    apply initial_arrangement_extend; auto; [split; apply Hv|].
    apply valid_row_pos in Hv; lia.
Qed.

Lemma extend_to_stage_panic r s : valid_row r -> s < length r -> extend_to_stage r s = Panic.
Proof.
  intros Hv H. unfold extend_to_stage. rewrite valid_row_stage by auto. cbn [bind].
  rewrite (proj2 (Nat.leb_gt _ _) H). reflexivity.
Qed.
