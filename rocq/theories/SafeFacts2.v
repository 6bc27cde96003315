(** Programs over the safe API keep every row valid: buffers, blocks, place notation, methods. *)
From Verif Require Import Base Bell Stage Parity Row Utils SameStageVec Block PlaceNot Mask Class Method Program
  Spec SpecVec SpecProg ListFacts BellFacts RowFacts MulFacts GroupFacts ParityFacts SsvFacts BlockFacts SafeFacts.
Local Open Scope list_scope.

(** ** Buffers *)

Definition okv (v : ssv) : Prop := exists rs, rep (ssv_stage v) rs v.

Lemma rep_okv s rs v : rep s rs v -> okv v.
Proof. intros H. exists rs. rewrite (proj1 (proj2 H)). exact H. Qed.

Lemma rep_stage s rs v : rep s rs v -> ssv_stage v = s. Proof. intros H; apply H. Qed.

Lemma okv_pos v : okv v -> 0 < ssv_stage v. Proof. intros [rs H]; apply H. Qed.

Lemma safe_from_row_buf r : valid_row r -> safe (fun v => okv v /\ ssv_stage v = length r) (ssv_from_row_buf r).
Proof. intros V. destruct (rep_from_row r V) as (v & E & R). rewrite E. cbn. split; eauto using rep_okv, rep_stage. Qed.

Lemma okv_new s : 0 < s -> okv (ssv_new s).
Proof. intros H. exists []. apply rep_new; auto. Qed.

Lemma nth_valid s rs i r : Forall (vrow s) rs -> nth_error rs i = Some r -> vrow s r.
Proof. intros F E. rewrite Forall_forall in F. apply F. eapply nth_error_In; eauto. Qed.

Lemma okv_get v i : okv v -> okopt (vrow (ssv_stage v)) (ssv_get v i).
Proof.
  intros [rs H]. erewrite ssv_get_ok by eauto. destruct (nth_error rs i) eqn:E; cbn; auto.
  exact (nth_valid _ _ _ _ (rep_Forall _ _ _ H) E).
Qed.

Lemma safe_ssv_len v : safe any (ssv_len v).
Proof. unfold ssv_len. sgo. Qed.

Lemma safe_last v : okv v -> safe (okopt (vrow (ssv_stage v))) (ssv_last v).
Proof.
  intros H. unfold ssv_last. sstep; [apply safe_ssv_len|]. cbn. destruct a; cbn; auto. apply okv_get; auto.
Qed.

Lemma safe_index v i : okv v -> safe (vrow (ssv_stage v)) (ssv_index v i).
Proof.
  intros [rs H]. destruct (nth_error rs i) as [r|] eqn:E.
  - erewrite ssv_index_ok by eauto. cbn. exact (nth_valid _ _ _ _ (rep_Forall _ _ _ H) E).
  - erewrite ssv_index_panic; eauto; [exact I|]. apply nth_error_None; auto.
Qed.

Lemma safe_rows v : okv v -> safe (Forall (vrow (ssv_stage v))) (ssv_rows v).
Proof. intros [rs H]. erewrite rep_rows by eauto. cbn. apply H. Qed.

Lemma safe_path v b : okv v -> safe any (ssv_path_of v b).
Proof.
  intros H. unfold ssv_path_of. destruct (b <? _); [|exact I]. sstep; [eapply any_any, safe_rows; auto|]. sgo.
Qed.

Lemma safe_push v r : okv v -> valid_row r ->
  safe (fun p => okv (fst p) /\ ssv_stage (fst p) = ssv_stage v) (ssv_push v r).
Proof.
  intros [rs H] V. destruct (Nat.eq_dec (length r) (ssv_stage v)) as [E|E].
  - destruct (ssv_push_ok _ _ _ r H) as (v' & E' & R); [split; auto|]. rewrite E'. cbn.
    split; eauto using rep_okv, rep_stage.
  - erewrite ssv_push_err by eauto. cbn. split; auto. exists rs; auto.
Qed.

Lemma safe_pop v : okv v ->
  safe (fun p => okv (fst p) /\ ssv_stage (fst p) = ssv_stage v /\ okopt valid_row (snd p)) (ssv_pop v).
Proof.
  intros [rs H]. pose proof (ssv_pop_ok _ _ _ H) as P. destruct rs as [|r rs] using rev_ind.
  - destruct P as (v' & E & R). rewrite E. cbn. splits; eauto using rep_okv, rep_stage.
  - destruct P as (v' & E & R). rewrite E. cbn [safe fst snd]. splits; eauto using rep_okv, rep_stage.
    rewrite last_opt_snoc. cbn. pose proof (rep_Forall _ _ _ H) as F. apply Forall_app in F as [_ F].
    inversion F as [|? ? V _]; subst. apply V.
Qed.

Lemma safe_extend v rows : okv v -> Forall valid_row rows -> safe (okfst okv) (ssv_extend v rows).
Proof.
  intros [rs H] F. destruct (find (fun r => negb (length r =? ssv_stage v)) rows) as [bad|] eqn:E.
  - erewrite ssv_extend_err by eauto. cbn. exists rs; auto.
  - destruct (ssv_extend_ok _ _ _ rows H) as (v' & E' & R); [apply find_none_vrow; auto|].
    rewrite E'. exact (rep_okv _ _ _ R).
Qed.

Lemma okv_extend_from_buf v w : okv v -> okv w -> okv (fst (ssv_extend_from_buf v w)).
Proof.
  intros [rs H] [rs' H']. destruct (Nat.eq_dec (ssv_stage w) (ssv_stage v)) as [E|E].
  - rewrite E in H'. destruct (ssv_extend_from_buf_ok _ _ _ _ _ H H') as (v' & E' & R). rewrite E'. exact (rep_okv _ _ _ R).
  - erewrite ssv_extend_from_buf_err by eauto. cbn. exists rs; auto.
Qed.

Lemma safe_extend_range_transposed v t w lo hi : okv v -> valid_row t -> okv w -> ssv_stage v = ssv_stage w ->
  safe (fun p => okv (fst p) /\ ssv_stage (fst p) = ssv_stage v) (ssv_extend_range_transposed v t w lo hi).
Proof.
  intros [rs H] V [rs' H'] E. rewrite <- E in H'. destruct (Nat.eq_dec (length t) (ssv_stage v)) as [L|L].
  - assert (Ht : vrow (ssv_stage v) t) by (split; auto).
    destruct (le_dec (range_start lo) (range_end hi (length rs'))) as [A|A].
    + destruct (le_dec (range_end hi (length rs')) (length rs')) as [B|B].
      * destruct (ssv_extend_range_transposed_ok _ _ _ _ _ _ lo hi H Ht H' A B) as (v' & E' & R). rewrite E'.
        cbn. split; eauto using rep_okv, rep_stage.
      * erewrite ssv_extend_range_transposed_panic; eauto; [exact I|]. lia.
    + erewrite ssv_extend_range_transposed_panic; eauto; [exact I|]. lia.
  - erewrite ssv_extend_range_transposed_err by eauto. cbn. split; auto. exists rs; auto.
Qed.

(** copying from the buffer to itself, possibly past its old end: rows copied before are read again *)
Lemma within_rows s t : vrow s t -> forall n rs a, Forall (vrow s) rs -> a < length rs ->
  exists rs', Forall (vrow s) rs' /\
    foldM (fun bells i => x <- idx bells i;; y <- idx t x;; Ret (bells ++ [y])) (seq (a * s) (n * s)) (concat rs)
    = Ret (concat (rs ++ rs')).
Proof.
  intros Vt. induction n as [|n IH]; intros rs a F Ha.
  - exists []. cbn. rewrite app_nil_r. auto.
  - destruct (nth_error rs a) as [r|] eqn:N; [|apply nth_error_None in N; lia].
    pose proof (nth_valid _ _ _ _ F N) as Vr.
    assert (Fn : Forall (vrow s) (rs ++ [rmul t r])).
    { apply Forall_app; split; auto. constructor; auto. apply valid_rmul; auto. }
    destruct (IH (rs ++ [rmul t r]) (a + 1) Fn) as (rs' & F' & E); [rewrite app_length; cbn; lia|].
    exists (rmul t r :: rs'). split; [constructor; auto; apply valid_rmul; auto|].
    replace (S n * s) with (s + n * s) by lia. rewrite seq_app.
    assert (Happ : forall (f : list nat -> nat -> exec (list nat)) l1 l2 st,
      foldM f (l1 ++ l2) st = bind (foldM f l1 st) (foldM f l2)).
    { intros f l1. induction l1 as [|x l1 IH1]; intros l2 st; cbn [app foldM]; auto.
      destruct (f st x); cbn; auto. }
    rewrite Happ.
    assert (Lt : Forall (fun x => x < length t) (concat rs)) by (rewrite (proj2 Vt); apply concat_lt; auto).
    pose proof (within_fold_ok t (concat rs) s Lt (a * s) []) as W. rewrite app_nil_r in W.
    rewrite W by (rewrite (concat_length_eq s) by eauto using vrow_lengths; nia). cbn [bind app].
    replace (a * s + s) with ((a + 1) * s) by lia.
    assert (Eb : map (fun x => nth x t 0) (firstn s (skipn (a * s) (concat rs))) = rmul t r).
    { pose proof (block_at s rs a r (vrow_lengths _ _ F) N) as B. rewrite <- B. reflexivity. }
    rewrite Eb. rewrite concat_app in E. cbn [concat] in E. rewrite app_nil_r in E. rewrite E.
    rewrite <- app_assoc. reflexivity.
Qed.

Lemma safe_from_within v t lo hi : okv v -> valid_row t ->
  safe (okfst okv) (ssv_extend_transposed_from_within v lo hi t).
Proof.
  intros [rs H] V. destruct (Nat.eq_dec (length t) (ssv_stage v)) as [L|L].
  - assert (Ht : vrow (ssv_stage v) t) by (split; auto).
    destruct (le_lt_dec (range_end hi (length rs)) (range_start lo)) as [A|A].
    + erewrite ssv_from_within_empty by eauto. cbn. exists rs; auto.
    + unfold ssv_extend_transposed_from_within. rewrite valid_row_stage by auto. cbn [bind]. unfold test_err.
      rewrite L, Nat.eqb_refl. erewrite to_bell_range_ok by eauto. cbn [bind]. unfold range.
      set (a := range_start lo) in *. set (b := range_end hi (length rs)) in *. set (s := ssv_stage v) in *.
      replace (b * s - a * s) with ((b - a) * s) by nia. pose proof H as (Hs & _ & F & E). fold s in Hs. rewrite E.
      destruct (lt_dec a (length rs)) as [Ha|Ha].
      * destruct (within_rows s t Ht (b - a) rs a F Ha) as (rs' & F' & E'). rewrite E'. cbn.
        exists (rs ++ rs'). cbn. apply rep_intro; auto. apply Forall_app; auto.
      * destruct ((b - a) * s) as [|k] eqn:K; [nia|]. cbn [seq foldM]. unfold idx at 1.
        rewrite (proj2 (nth_error_None _ _)); [exact I|]. rewrite (concat_length_eq s) by eauto using vrow_lengths. nia.
  - erewrite ssv_from_within_err by eauto. cbn. exists rs; auto.
Qed.

Lemma safe_pre_multiply v t : okv v -> valid_row t ->
  safe (okfst okv) (ssv_pre_multiply v t).
Proof.
  intros [rs H] V. destruct (Nat.eq_dec (length t) (ssv_stage v)) as [L|L].
  - destruct (ssv_pre_multiply_ok _ _ _ t H) as (v' & E & R); [split; auto|]. rewrite E. exact (rep_okv _ _ _ R).
  - erewrite ssv_pre_multiply_err by eauto. cbn. exists rs; auto.
Qed.

Lemma safe_pre_multiplied v t : okv v -> valid_row t -> safe (okres okv) (ssv_pre_multiplied v t).
Proof.
  intros [rs H] V. destruct (Nat.eq_dec (length t) (ssv_stage v)) as [L|L].
  - destruct (ssv_pre_multiplied_ok _ _ _ t H) as (v' & E & R); [split; auto|]. rewrite E. exact (rep_okv _ _ _ R).
  - erewrite ssv_pre_multiplied_err by eauto. exact I.
Qed.

Lemma okv_split v i : okv v -> okopt (fun p => okv (fst p) /\ okv (snd p) /\ ssv_stage (fst p) = ssv_stage v) (ssv_split v i).
Proof.
  intros [rs H]. destruct (le_lt_dec i (length rs)) as [L|L].
  - destruct (ssv_split_ok _ _ _ _ H L) as (a & b & E & Ra & Rb). rewrite E. cbn. splits; eauto using rep_okv, rep_stage.
  - erewrite ssv_split_none by eauto. exact I.
Qed.

Lemma safe_edit v i f : okv v -> (forall r, vrow (ssv_stage v) r -> safe (vrow (length r)) (f r)) ->
  safe (okopt okv) (ssv_edit v i f).
Proof.
  intros [rs H] Hf. destruct (nth_error rs i) as [r|] eqn:N.
  - pose proof (nth_valid _ _ _ _ (rep_Forall _ _ _ H) N) as Vr. specialize (Hf r Vr). rewrite (proj2 Vr) in Hf.
    destruct (f r) as [r'| | |] eqn:E.
    + destruct (ssv_edit_ok _ _ _ _ _ _ _ H N E Hf) as (v' & E' & R). rewrite E'. exact (rep_okv _ _ _ R).
    + unfold ssv_edit. erewrite ssv_get_ok by eauto. rewrite N. cbn. rewrite E. exact I.
    + destruct Hf.
    + unfold ssv_edit. erewrite ssv_get_ok by eauto. rewrite N. cbn. rewrite E. exact I.
  - erewrite ssv_edit_none by eauto. exact I.
Qed.

Lemma row_parse_safe l : okres valid_row (row_parse l).
Proof. rewrite row_parse_eq. apply from_vec_safe. Qed.

Lemma safe_parse_loop ls : forall v k, okv v -> safe (okres okv) (ssv_parse_loop v k ls).
Proof.
  induction ls as [|l ls IH]; intros v k H; cbn [ssv_parse_loop]; [exact H|].
  pose proof (row_parse_safe l) as P. destruct (row_parse l) as [r|e]; [|exact I].
  eapply safe_bind; [apply safe_push; auto|]. intros [v' res] [H' _]. destruct res as [u|[a b]]; [|exact I]. apply IH; auto.
Qed.

Lemma safe_ssv_parse s : safe (okres okv) (ssv_parse s).
Proof.
  unfold ssv_parse. destruct (lines s) as [|l ls]; [exact I|].
  pose proof (row_parse_safe l) as P. destruct (row_parse l) as [r|e]; [|exact I].
  eapply safe_bind; [apply safe_from_row_buf; auto|]. intros v [H _]. apply safe_parse_loop; auto.
Qed.

(** ** Iterators *)

Definition oki (it : ssv_iter) : Prop :=
  exists rs, 0 < it_stage it /\ Forall (vrow (it_stage it)) rs /\ it_left it = concat rs.

Lemma oki_iterator v : okv v -> oki (ssv_iterator v).
Proof. intros [rs H]. exists rs. destruct H as (A & B & C & D). cbn. auto. Qed.

Definition okrow_iter (s : nat) (p : option row * ssv_iter) : Prop :=
  okopt (vrow s) (fst p) /\ oki (snd p) /\ it_stage (snd p) = s.

Lemma oki_intro rs s : 0 < s -> Forall (vrow s) rs -> oki (SsvIter (concat rs) s).
Proof. intros. exists rs. cbn. auto. Qed.

Lemma last_opt_valid s rs : Forall (vrow s) rs -> okopt (vrow s) (last_opt rs).
Proof.
  intros F. rewrite last_opt_nth. destruct (length rs) as [|i]; cbn; auto.
  destruct (nth_error rs i) eqn:E; cbn; auto. exact (nth_valid _ _ _ _ F E).
Qed.

Lemma safe_it_next it : oki it -> safe (okrow_iter (it_stage it)) (it_next it).
Proof.
  destruct it as [l s]. intros (rs & Hs & F & E). cbn in *. subst l. rewrite it_next_ok by auto.
  destruct rs as [|r rs]; cbn; unfold okrow_iter; cbn; splits; auto.
  - apply (oki_intro [] s); auto.
  - inversion F; auto.
  - inversion F; subst. apply oki_intro; auto.
Qed.

Lemma safe_it_next_back it : oki it -> safe (okrow_iter (it_stage it)) (it_next_back it).
Proof.
  destruct it as [l s]. intros (rs & Hs & F & E). cbn in *. subst l. rewrite it_next_back_ok by auto.
  cbn. unfold okrow_iter; cbn; splits; auto using last_opt_valid. apply oki_intro; auto using Forall_removelast.
Qed.

Lemma safe_collect fuel : forall it, oki it -> safe (Forall (vrow (it_stage it))) (it_collect fuel it).
Proof.
  induction fuel as [|fuel IH]; intros it H; cbn [it_collect]; [exact I|].
  eapply safe_bind; [apply safe_it_next; auto|]. intros [o it'] (Ho & H' & E). cbn in *.
  destruct o as [r|]; [|cbn; auto]. eapply safe_bind; [apply IH; auto|]. intros rs F. cbn. rewrite E in F. auto.
Qed.

(** ** Blocks *)

Section Blocks.
Context {A : Type}.
Implicit Types (b : block A).

Definition okb (b : block A) : Prop := okv (blk_rows b).

Lemma safe_with_default (d : A) v : okv v -> safe (fun b => okb b /\ blk_rows b = v) (with_default_annots d v).
Proof. intros H. unfold with_default_annots. sstep; [sgo|]. sstep; [apply safe_ssv_len|]. cbn. auto. Qed.

Lemma safe_block_parse (d : A) t : safe (okres okb) (block_parse d t).
Proof.
  unfold block_parse. eapply safe_bind; [apply safe_ssv_parse|]. intros [v|e] H; [|exact I]. cbn in H.
  destruct (ssv_is_empty v); [exact I|]. eapply safe_bind; [apply safe_with_default; auto|]. intros b [Hb _]; exact Hb.
Qed.

Lemma safe_block_empty s : 0 < s -> safe okb (@block_empty A s).
Proof.
  intros Hs. unfold block_empty. eapply safe_bind; [apply safe_from_row_buf, valid_rounds; auto|]. intros v [H _]; exact H.
Qed.

Lemma safe_from_indices v (f : nat -> A) : okv v -> safe (okopt okb) (with_annots_from_indices v f).
Proof.
  intros H. unfold with_annots_from_indices. sstep; [apply safe_ssv_len|]. destruct a; cbn; auto.
Qed.

Lemma safe_first_row b : okb b -> safe (vrow (block_stage b)) (block_first_row b).
Proof. intros H. apply safe_unwrap. apply okv_get; auto. Qed.

Lemma safe_leftover b : okb b -> safe (vrow (block_stage b)) (block_leftover_row b).
Proof.
  intros H. unfold block_leftover_row. eapply safe_bind; [apply safe_last; auto|]. intros o Ho. apply safe_unwrap; auto.
Qed.

Lemma safe_rows_iter b : okb b -> safe (fun it => oki it /\ it_stage it = block_stage b) (block_rows_iter b).
Proof.
  intros H. unfold block_rows_iter. eapply safe_bind; [apply safe_it_next_back, oki_iterator; auto|].
  intros [o it] (_ & Hi & E). cbn in *. auto.
Qed.

Lemma safe_block_rows b : okb b -> safe (Forall (vrow (block_stage b))) (block_rows b).
Proof.
  intros H. unfold block_rows. eapply safe_bind; [apply safe_rows_iter; auto|]. intros it [Hi E]. rewrite <- E.
  apply safe_collect; auto.
Qed.

Lemma safe_all_rows b : okb b -> safe (Forall (vrow (block_stage b))) (block_all_rows b).
Proof. apply safe_rows. Qed.

Lemma safe_zip_eq {X Y} (l : list X) (m : list Y) : safe (fun r => l = map fst r) (zip_eq l m).
Proof. destruct (zip_eq l m) as [r| | |] eqn:E; cbn; auto.
  - apply zip_eq_inv in E as [E _]; auto.
  - revert m E. induction l as [|x l IH]; intros [|y m] E; cbn in E; try discriminate.
    destruct (zip_eq l m) eqn:E'; cbn in E; try discriminate. eauto.
Qed.

Lemma safe_annot_rows b : okb b -> safe (fun l => Forall valid_row (map fst l)) (block_annot_rows b).
Proof.
  intros H. unfold block_annot_rows. eapply safe_bind; [apply safe_block_rows; auto|]. intros rs F.
  eapply safe_imp; [apply safe_zip_eq|]. intros r E. rewrite <- E. eauto using Forall_valid.
Qed.

Lemma safe_block_path b x : okb b -> safe any (block_path_of b x).
Proof.
  intros H. unfold block_path_of, block_full_path_of. sstep; [apply safe_path; auto|]. sgo.
Qed.

Lemma safe_block_pre_multiply b t : okb b -> valid_row t -> safe (okfst okb) (block_pre_multiply b t).
Proof.
  intros H V. unfold block_pre_multiply. eapply safe_bind; [apply safe_pre_multiply; auto|]. intros [v r] Hv. exact Hv.
Qed.

Lemma okb_get_row b i : okb b -> okopt (vrow (block_stage b)) (block_get_row b i).
Proof. apply okv_get. Qed.

Lemma safe_block_extend_range b o lo hi : okb b -> okb o -> safe (okfst okb) (block_extend_range b o lo hi).
Proof.
  intros Hb Ho. unfold block_extend_range. destruct (clamp_range lo hi (block_len o)) as [start end_].
  eapply safe_bind; [apply safe_unwrap, okb_get_row; auto|]. intros first Vf.
  eapply safe_bind; [apply safe_leftover; auto|]. intros lft Vl.
  eapply safe_bind; [apply safe_solve_xa; [apply Vf|apply Vl]|]. intros [t|e] Ht; [|exact Hb].
  destruct Ht as [Vt E]. rewrite (proj2 Vf), (proj2 Vl) in E.
  eapply safe_bind; [apply safe_pop; auto|]. intros [rows x] (Hr & Es & _). cbn in *.
  eapply safe_bind; [apply safe_extend_range_transposed; auto; [apply Vt | unfold block_stage in *; lia]|].
  intros [rows' res] [Hr' _]. sstep; [sgo|]. exact Hr'.
Qed.

Lemma safe_block_extend_from_within b lo hi : okb b -> safe okb (block_extend_from_within b lo hi).
Proof.
  intros Hb. unfold block_extend_from_within. destruct (clamp_range lo hi (block_len b)) as [start end_].
  eapply safe_bind; [apply safe_unwrap, okb_get_row; auto|]. intros first Vf.
  eapply safe_bind; [apply safe_leftover; auto|]. intros lft Vl.
  eapply safe_bind; [apply safe_solve_xa; [apply Vf|apply Vl]|]. intros t Ht.
  eapply safe_bind; [apply safe_unwrap_res, Ht|]. intros t' [Vt _].
  eapply safe_bind; [apply safe_from_within; [auto|apply Vt]|]. intros [rows res] Hr. sstep; [sgo|]. sstep; [sgo|]. exact Hr.
Qed.

Lemma safe_block_split b i : okb b -> safe (okopt (fun p => okb (fst p) /\ okb (snd p))) (block_split b i).
Proof.
  intros Hb. unfold block_split. destruct (split_vec (blk_annots b) i) as [[a1 a2]|]; [|exact I].
  pose proof (okv_split (blk_rows b) i Hb) as S. destruct (ssv_split (blk_rows b) i) as [[v1 v2]|]; [|exact I].
  destruct S as (H1 & H2 & _). cbn in H1, H2.
  eapply safe_bind; [apply safe_unwrap, okv_get; auto|]. intros r Vr.
  eapply safe_bind; [apply safe_push; [auto|apply Vr]|]. intros [v1' res] [H1' _]. sstep; [sgo|]. cbn. auto.
Qed.

Lemma okb_set_annot b i x : okb b -> okopt okb (block_set_annot b i x).
Proof. intros H. unfold block_set_annot. destruct (nth_error _ i); cbn; auto. Qed.

(** ** [RepeatIter] *)

Definition okri (ri : repeat_iter A) : Prop :=
  valid_row (ri_head ri) /\ oki (ii_rows (ri_iter ri)) /\ okb (ri_block ri).

Lemma safe_get_iter b : okb b -> safe (fun it => oki (ii_rows it)) (get_iter b).
Proof. intros H. unfold get_iter. eapply safe_bind; [apply safe_rows_iter; auto|]. intros it [Hi _]. exact Hi. Qed.

Lemma safe_repeat_new r b : valid_row r -> okb b -> safe (okres okri) (repeat_iter_new r b).
Proof.
  intros V H. unfold repeat_iter_new. sstep; [sgo|]. destruct (test_err _ _); [|exact I].
  eapply safe_bind; [apply safe_get_iter; auto|]. intros it Hi. cbn. unfold okri; cbn; auto.
Qed.

Definition okitem (p : option (nat * (row * A)) * inner_iter A) : Prop :=
  okopt (fun x => valid_row (fst (snd x))) (fst p) /\ oki (ii_rows (snd p)).

Lemma safe_ii_next (it : inner_iter A) : oki (ii_rows it) -> safe okitem (ii_next it).
Proof.
  intros H. unfold ii_next. eapply safe_bind; [apply safe_it_next; auto|]. intros [o rows'] (Ho & Hr & _). cbn in Ho, Hr.
  destruct o as [r|]; destruct (ii_annots it); try exact I; cbn; unfold okitem; cbn; auto.
  split; auto. apply Ho.
Qed.

Lemma safe_next_untransposed ri : okri ri ->
  safe (fun p => okopt (fun x => valid_row (fst (snd x))) (fst p) /\ okri (snd p)) (next_untransposed_row ri).
Proof.
  intros (Vh & Hi & Hb). unfold next_untransposed_row. eapply safe_bind; [apply safe_ii_next; auto|].
  intros [o it] [Ho Hit]. cbn in Ho, Hit. destruct o as [x|].
  - cbn. unfold okri; cbn. auto.
  - eapply safe_bind; [apply safe_leftover; auto|]. intros l Vl.
    eapply safe_bind; [apply safe_row_mul; [auto|apply Vl]|]. intros h Vh'.
    eapply safe_bind; [apply safe_get_iter; auto|]. intros it' Hit'.
    eapply safe_bind; [apply safe_ii_next; auto|]. intros [o' it''] [Ho' Hit'']. cbn. unfold okri; cbn. auto.
Qed.

Lemma safe_repeat_next ri : okri ri ->
  safe (fun p => okopt (fun x => valid_row (fst (fst x))) (fst p) /\ okri (snd p)) (repeat_iter_next ri).
Proof.
  intros H. unfold repeat_iter_next. eapply safe_bind; [apply safe_next_untransposed; auto|].
  intros [o ri'] [Ho Hri]. cbn in Ho, Hri. destruct o as [[i [r a]]|]; [|cbn; auto]. cbn in Ho.
  eapply safe_bind; [apply safe_row_mul; [apply Hri|auto]|]. intros x Vx. cbn. auto.
Qed.

Lemma safe_repeat_next_into ri out : okri ri -> valid_row out ->
  safe (fun p => valid_row (snd (fst p)) /\ okri (snd p)) (repeat_iter_next_into ri out).
Proof.
  intros H V. unfold repeat_iter_next_into. eapply safe_bind; [apply safe_next_untransposed; auto|].
  intros [o ri'] [Ho Hri]. cbn in Ho, Hri. destruct o as [[i [r a]]|]; [|cbn; auto]. cbn in Ho.
  eapply safe_bind; [apply safe_mul_into; [apply Hri|auto|auto]|]. intros [out' res] Vo. sstep; [sgo|]. cbn. auto.
Qed.
End Blocks.

(** ** Place notation *)

Definition okpn (p : place_not) : Prop := 0 < pn_stage p.

Lemma safe_fss_loop parsed : forall places, safe any (fss_loop places parsed).
Proof.
  induction parsed as [|p t IH]; intros places; cbn [fss_loop]; [exact I|]. destruct t as [|q t']; [exact I|].
  destruct (q <? p); [exact I|]. destruct (q - p); [exact I|]. destruct (n =? 1); [apply IH|].
  destruct (n mod 2 =? 1); [exact I|apply IH].
Qed.

Lemma safe_from_sorted_slice l s : safe (okres (fun p => pn_stage p = s)) (from_sorted_slice l s).
Proof.
  unfold from_sorted_slice. destruct (last_place l); [|exact I]. destruct (s <=? n); [exact I|].
  sstep; [apply safe_fss_loop|]. destruct a; [|exact I]. reflexivity.
Qed.

Lemma okpn_cross s : okopt (fun p => pn_stage p = s) (pn_cross s).
Proof. unfold pn_cross. destruct (_ =? 0); cbn; auto. Qed.

Lemma safe_pn_parse t s : safe (okres (fun p => pn_stage p = s)) (pn_parse t s).
Proof.
  unfold pn_parse. destruct (_ && _); [|apply safe_from_sorted_slice]. pose proof (okpn_cross s) as H.
  destruct (pn_cross s); cbn; auto.
Qed.

Lemma safe_between a b : safe (okopt okpn) (pn_between a b).
Proof.
  unfold pn_between. eapply safe_bind; [apply safe_row_stage|]. intros s [Hs _]. sstep; [sgo|].
  destruct (negb _); [exact I|]. sstep; [eapply any_any, safe_zip_eq|]. destruct (pnb_loop _); [|exact I]. exact Hs.
Qed.

Lemma safe_asym_loop off s toks : forall places start buf, Forall (fun p => pn_stage p = s) buf ->
  safe (okres (Forall (fun p => pn_stage p = s))) (asym_loop off s toks places start buf).
Proof.
  induction toks as [|[i m] toks IH]; intros places start buf F; cbn [asym_loop]; [exact F|].
  assert (G : forall k, (forall buf', Forall (fun p => pn_stage p = s) buf' -> safe (okres (Forall (fun p => pn_stage p = s))) (k buf')) ->
    safe (okres (Forall (fun p => pn_stage p = s)))
      (flushed <- (match places with
                      | [] => Ret (Ok buf)
                      | _ :: _ =>
                          r <- from_sorted_slice (sort_unstable places) s;;
                          match r with
                          | Err e => Ret (Err (PnError start (i + off + 1) e))
                          | Ok new_pn => Ret (Ok (buf ++ [new_pn]))
                          end
                      end);;
       match flushed with Err e => Ret (Err e) | Ok buf' => k buf' end)).
  { intros k Hk. eapply safe_bind with (P := okres (Forall (fun p => pn_stage p = s))).
    - destruct places; [exact F|]. eapply safe_bind; [apply safe_from_sorted_slice|]. intros [p|e] Hp; [|exact I].
      cbn. apply Forall_app; split; auto.
    - intros [buf'|e] H; [|exact I]. apply Hk; auto. }
  destruct m; auto; try (apply IH; auto).
  - apply G. intros buf' F'. cbn [is_cm_cross]. apply IH; auto.
  - apply G. intros buf' F'. cbn [is_cm_cross]. pose proof (okpn_cross s) as C. destruct (pn_cross s); [|exact I].
    apply IH. apply Forall_app; split; auto.
  - exact I.
Qed.

Lemma safe_parse_asym t off s buf : safe (okres (fun p => Forall (fun p => pn_stage p = s) (snd p))) (parse_asym_block t off s buf).
Proof.
  unfold parse_asym_block. destruct buf as [|p buf]; [|exact I]. cbn [assert_ bind].
  eapply safe_bind; [apply safe_asym_loop; auto|]. intros [b|e] H; [|exact I]. exact H.
Qed.

Lemma safe_pnb_parse_loop single s pieces : forall pns buf, Forall (fun p => pn_stage p = s) pns ->
  safe (okres (Forall (fun p => pn_stage p = s))) (pnb_parse_loop single s pieces pns buf).
Proof.
  induction pieces as [|[off t] pieces IH]; intros pns buf F; cbn [pnb_parse_loop]; [exact F|].
  eapply safe_bind; [apply safe_parse_asym|]. intros [[asym b]|e] H; [|exact I]. cbn in H.
  destruct (single || asym); apply IH; apply Forall_app; split; auto.
  apply Forall_app; split; auto. apply Forall_skipn, Forall_rev; auto.
Qed.

Lemma safe_pn_block_parse t s : 0 < s -> safe (okres (Forall okpn)) (pn_block_parse t s).
Proof.
  intros Hs. unfold pn_block_parse. eapply safe_bind; [apply safe_pnb_parse_loop; auto|].
  intros [[|p pns]|e] H; try exact I. cbn [safe okres] in *. eapply Forall_impl; [|exact H]. intros q Hq. unfold okpn. cbn in Hq. lia.
Qed.

Lemma pn_block_from_vec_ok ps : Forall okpn ps -> okres (Forall okpn) (pn_block_from_vec ps).
Proof. intros F. destruct ps as [|p ps]; cbn; auto. destruct (pnb_check_stages _ _ _); cbn; auto. Qed.

Lemma safe_to_rows_loop pns : forall v r, okv v -> valid_row r -> safe okv (to_rows_loop v r pns).
Proof.
  induction pns as [|p pns IH]; intros v r H V; cbn [to_rows_loop]; [exact H|].
  eapply safe_bind; [apply safe_permute_unchecked; auto|]. intros r' [V' _].
  eapply safe_bind; [apply safe_push; auto|]. intros [v' res] [H' _]. sstep; [sgo|]. apply IH; auto.
Qed.

Lemma safe_to_rows pns r : valid_row r -> safe (okres okv) (pn_block_to_rows pns r).
Proof.
  intros V. unfold pn_block_to_rows. sstep; [sgo|]. sstep; [unfold pn_block_stage; sgo|].
  destruct (test_err _ _); [|exact I]. eapply safe_bind; [apply safe_from_row_buf; auto|]. intros v [H _].
  eapply safe_bind; [apply safe_to_rows_loop; auto|]. intros v' H'. exact H'.
Qed.

Lemma safe_to_block {A} (d : A) pns r : valid_row r -> safe (okres okb) (pn_block_to_block d pns r).
Proof.
  intros V. unfold pn_block_to_block. eapply safe_bind; [apply safe_to_rows; auto|]. intros [v|e] H; [|exact I].
  eapply safe_bind; [apply safe_with_default; auto|]. intros b [Hb _]; exact Hb.
Qed.

Lemma safe_to_block_from_rounds {A} (d : A) pns : Forall okpn pns -> safe okb (pn_block_to_block_from_rounds d pns).
Proof.
  intros F. unfold pn_block_to_block_from_rounds.
  eapply safe_bind with (P := fun s => 0 < s).
  - unfold pn_block_stage. eapply safe_bind; [apply safe_idx|]. intros p Hp. rewrite Forall_forall in F.
    exact (F p (nth_error_In _ _ Hp)).
  - intros s Hs. eapply safe_bind; [apply safe_to_block, valid_rounds; auto|]. intros r Hr. apply safe_unwrap_res; auto.
Qed.

(** ** Masks *)

Lemma safe_mask_fix_bells s l : safe any (mask_fix_bells s l).
Proof. unfold mask_fix_bells, mask_fix_unchecked, mask_set_bell_unchecked. sgo. Qed.
Lemma safe_mask_set_bell m b p : safe any (mask_set_bell m b p).
Proof. unfold mask_set_bell, mask_set_bell_unchecked. sgo. Qed.
Lemma safe_mask_fix m b : safe any (mask_fix m b).
Proof. apply safe_mask_set_bell. Qed.
Lemma safe_mask_combine m n : safe any (mask_combine m n).
Proof.
  unfold mask_combine, mask_is_compatible_with, mask_stage. sgo.
  all: try (eapply any_any, safe_zip_eq). unfold combine_bells. sgo.
Qed.
Lemma safe_mask_mul_row m r : safe any (mask_mul_row m r).
Proof. unfold mask_mul_row, mask_stage. sgo. Qed.
Lemma safe_row_mul_mask m r : safe any (row_mul_mask r m).
Proof. unfold row_mul_mask, mask_stage. sgo. Qed.

Lemma as_row_inv m r : mask_as_row m = Ret (Some r) -> m = map Some r.
Proof.
  unfold mask_as_row. destruct (forallb _ m); [|discriminate]. destruct (mapM unwrap m) as [l| | |] eqn:E; cbn; try discriminate.
  intros H; injection H as <-. revert l E. induction m as [|x m IH]; intros l E; cbn in E.
  - injection E as <-. reflexivity.
  - destruct x as [b|]; cbn in E; [|discriminate]. destruct (mapM unwrap m) as [l'| | |]; cbn in E; try discriminate.
    injection E as <-. cbn. f_equal; auto.
Qed.

Lemma safe_as_row m : mask_of_some_row m -> safe (okopt valid_row) (mask_as_row m).
Proof.
  intros (r & V & L & H). destruct (mask_as_row m) as [[q|]| | |] eqn:E; cbn; auto.
  - apply as_row_inv in E. subst m. rewrite map_length in L.
    replace q with r; auto. apply nth_error_ext. intros i.
    destruct (nth_error q i) as [x|] eqn:N.
    + apply H. rewrite nth_error_map, N. reflexivity.
    + apply nth_error_None. apply nth_error_None in N. lia.
  - unfold mask_as_row in E. destruct (forallb _ m); [|discriminate].
    destruct (mapM unwrap m) eqn:E'; cbn in E; try discriminate.
    assert (S : safe any (mapM unwrap m)) by sgo. rewrite E' in S. exact S.
Qed.

(** ** Methods *)

Lemma safe_follow_cycle {A} (b : block A) fuel : okb b -> forall start pb left_ pbs path,
  safe any (follow_cycle fuel b start pb left_ pbs path).
Proof.
  intros H. induction fuel as [|fuel IH]; intros; cbn [follow_cycle]; [exact I|]. sstep; [sgo|].
  sstep; [apply safe_block_path; auto|]. sgo.
Qed.

Lemma safe_cycles_loop {A} (b : block A) fuel : okb b -> forall left_ cycles, safe any (cycles_loop fuel b left_ cycles).
Proof.
  intros H. induction fuel as [|fuel IH]; intros; cbn [cycles_loop]; [exact I|].
  destruct (position _ _); [|exact I]. sstep; [apply safe_follow_cycle; auto|]. sgo.
Qed.

Lemma safe_cycles {A} (b : block A) : okb b -> safe any (cycles_from_lead b).
Proof. intros H. unfold cycles_from_lead. sstep; [sgo|]. sstep; [sgo|]. apply safe_cycles_loop; auto. Qed.

Lemma safe_classify_hunt c s : safe any (classify_hunt_cycle c s).
Proof. unfold classify_hunt_cycle, count_places. sgo. Qed.

Lemma safe_best_loop s cycles : forall l c i, safe any (best_loop s cycles l c i).
Proof.
  induction cycles as [|x cycles IH]; intros; cbn [best_loop]; [exact I|]. sstep; [apply safe_classify_hunt|]. sgo.
Qed.

Lemma safe_cross_loop {A} (b : block A) l : forall x y, safe any (cross_loop b l x y).
Proof.
  induction l as [|i l IH]; intros; cbn [cross_loop]; [exact I|].
  do 2 (sstep; [sgo|]). sstep; [eapply any_any, safe_between|]. sstep; [sgo|].
  sstep; [unfold pn_has_internal_places; sgo|]. sgo.
Qed.

Lemma safe_sub_treble_dodging {A} ho (b : block A) cs : safe any (sub_classify_treble_dodging ho b cs).
Proof.
  unfold sub_classify_treble_dodging. sstep. { sstep. unfold cross_indices_of, usub. sgo. }
  sstep; [apply safe_cross_loop|]. sgo.
Qed.

Lemma safe_classify {A} ho (b : block A) : okb b -> safe any (classify ho b).
Proof.
  intros H. unfold classify. sstep; [apply safe_cycles; auto|]. destruct (partition_cycles a) as [hs ws].
  destruct hs as [|h rest]; [exact I|]. sstep; [apply safe_classify_hunt|]. destruct a0 as [little cl].
  sstep; [apply safe_best_loop|]. destruct a0 as [[x best] ib]. sstep; [sgo|]. sstep; [|exact I].
  destruct best; try exact I; [|apply safe_sub_treble_dodging]. sgo.
Qed.

Lemma safe_with_name ho name b : okb b -> safe (fun m => okb (first_lead m)) (with_name ho name b).
Proof.
  intros H. unfold with_name. sstep; [apply safe_classify; auto|]. sstep; [unfold generate_title; sgo|]. exact H.
Qed.

Lemma safe_from_place_not_string ho name s t : 0 < s ->
  safe (okres (fun m => okb (first_lead m))) (from_place_not_string ho name s t).
Proof.
  intros Hs. unfold from_place_not_string. eapply safe_bind; [apply safe_pn_block_parse; auto|].
  intros [pns|e] H; [|exact I]. eapply safe_bind; [apply safe_to_block_from_rounds; auto|]. intros b Hb.
  eapply safe_bind; [apply safe_with_name; auto|]. intros m Hm. exact Hm.
Qed.

Lemma safe_with_lead_end ho name pns : Forall okpn pns -> safe (fun m => okb (first_lead m)) (with_lead_end ho name pns).
Proof.
  intros F. unfold with_lead_end. eapply safe_bind; [apply safe_to_block_from_rounds; auto|]. intros b Hb.
  sstep; [unfold usub; sgo|]. eapply safe_bind; [apply safe_unwrap, okb_set_annot, Hb|]. intros b' Hb'.
  apply safe_with_name; auto.
Qed.

Lemma safe_row_in_course m i : okb (first_lead m) -> safe valid_row (row_in_plain_course m i).
Proof.
  intros H. unfold row_in_plain_course. sstep; [sgo|]. eapply safe_bind; [apply safe_leftover; auto|]. intros h [Vh _].
  eapply safe_bind; [apply safe_pow_u; auto|]. intros q Vq.
  eapply safe_bind; [apply safe_index; auto|]. intros r [Vr _]. apply safe_row_mul; auto.
Qed.

Lemma safe_plain_course_loop fuel len : forall b, okb b -> safe okb (plain_course_loop fuel len b).
Proof.
  induction fuel as [|fuel IH]; intros b H; cbn [plain_course_loop]; [exact I|].
  eapply safe_bind; [apply safe_leftover; auto|]. intros l _. destruct (is_rounds l); [exact H|].
  eapply safe_bind; [apply safe_block_extend_from_within; auto|]. intros b' H'. apply IH; auto.
Qed.

Lemma safe_plain_course fuel m : okb (first_lead m) -> safe okb (plain_course fuel m).
Proof. intros H. apply safe_plain_course_loop. exact H. Qed.

Lemma safe_set_label m i l : okb (first_lead m) -> safe (fun m => okb (first_lead m)) (set_label m i l).
Proof.
  intros H. unfold set_label. pose proof (okb_set_annot (first_lead m) i l H) as K.
  destruct (block_set_annot _ _ _); cbn in *; auto.
Qed.

(** ** Programs *)

Definition okval (v : value) : Prop :=
  match v with
  | VRow r => valid_row r
  | VAcc a => okacc a
  | VVec v => okv v
  | VIter it => oki it
  | VBlock b => okb b
  | VRepeat ri => okri ri
  | VPn p => okpn p
  | VPnBlock ps => Forall okpn ps
  | VMask _ => True
  | VMethod m => okb (first_lead m)
  end.

Lemma bind_assoc {A B C} (e : exec A) (f : A -> exec B) (g : B -> exec C) :
  bind (bind e f) g = bind e (fun a => bind (f a) g).
Proof. destruct e; reflexivity. Qed.

Lemma lower_case_stage_pos t s : stage_from_lower_case_name t = Some s -> 0 < s.
Proof.
  unfold stage_from_lower_case_name. intros E. destruct (find _ _) as [[k x]|] eqn:F; [|discriminate]. injection E as <-.
  apply find_some in F as [F _]. cbn in F. repeat (destruct F as [F|F]; [injection F as _ <-; lia|]). destruct F.
Qed.

Lemma safe_library_get lib t :
  safe (okopt (okres (fun m => okb (first_lead m)))) (Library.get_by_title_option lib t).
Proof.
  unfold Library.get_by_title_option. destruct (stage_from_lower_case_name _) as [s|] eqn:E; [|exact I].
  apply lower_case_stage_pos in E. destruct (Library.hm_get _ _ _); [|exact I]. destruct (Library.hm_get _ _ _) as [cm|]; [|exact I].
  unfold Library.to_method. rewrite bind_assoc. eapply safe_bind; [apply safe_pn_block_parse; auto|].
  intros [pns|e] H; [|exact I]. rewrite bind_assoc. eapply safe_bind; [apply safe_to_block_from_rounds; auto|]. intros b Hb. exact Hb.
Qed.

Notation okst := (Forall okval).

Section Prog.
Context (ho : list nat -> list nat) (st : list value) (Hst : okst st).

Lemma okst_nth i v : nth_error st i = Some v -> okval v.
Proof. intros E. rewrite Forall_forall in Hst. apply Hst. eapply nth_error_In; eauto. Qed.

Ltac getv := match goal with |- context [nth_error st ?i] => destruct (nth_error st i) as [[]|] eqn:? end;
  try exact Hst; match goal with H : nth_error st _ = Some _ |- _ => apply okst_nth in H as ?; cbn [okval] in * end.

Lemma safe_with_row i f : (forall r, nth_error st i = Some (VRow r) -> valid_row r -> safe okst (f r)) -> safe okst (with_row st i f).
Proof. intros H. unfold with_row. getv. auto. Qed.
Lemma safe_with_acc i f : (forall r, okacc r -> safe okst (f r)) -> safe okst (with_acc st i f).
Proof. intros H. unfold with_acc. getv. auto. Qed.
Lemma safe_with_vec i f : (forall v, nth_error st i = Some (VVec v) -> okv v -> safe okst (f v)) -> safe okst (with_vec st i f).
Proof. intros H. unfold with_vec. getv. auto. Qed.
Lemma safe_with_iter i f : (forall r, oki r -> safe okst (f r)) -> safe okst (with_iter st i f).
Proof. intros H. unfold with_iter. getv. auto. Qed.
Lemma safe_with_block i f : (forall r, okb r -> safe okst (f r)) -> safe okst (with_block st i f).
Proof. intros H. unfold with_block. getv. auto. Qed.
Lemma safe_with_repeat i f : (forall r, okri r -> safe okst (f r)) -> safe okst (with_repeat st i f).
Proof. intros H. unfold with_repeat. getv. auto. Qed.
Lemma safe_with_pn i f : (forall r, okpn r -> safe okst (f r)) -> safe okst (with_pn st i f).
Proof. intros H. unfold with_pn. getv. auto. Qed.
Lemma safe_with_pn_block i f : (forall r, Forall okpn r -> safe okst (f r)) -> safe okst (with_pn_block st i f).
Proof. intros H. unfold with_pn_block. getv. auto. Qed.
Lemma safe_with_mask i f : (forall m, nth_error st i = Some (VMask m) -> safe okst (f m)) -> safe okst (with_mask st i f).
Proof. intros H. unfold with_mask. getv. auto. Qed.
Lemma safe_with_method i f : (forall r, okb (first_lead r) -> safe okst (f r)) -> safe okst (with_method st i f).
Proof. intros H. unfold with_method. getv. auto. Qed.

Lemma rows_at_valid is : Forall valid_row (rows_at st is).
Proof.
  induction is as [|i is IH]; cbn; auto. destruct (nth_error st i) as [[]|] eqn:E; auto. apply okst_nth in E. auto.
Qed.
Lemma pns_at_valid is : Forall okpn (pns_at st is).
Proof.
  induction is as [|i is IH]; cbn; auto. destruct (nth_error st i) as [[]|] eqn:E; auto. apply okst_nth in E. auto.
Qed.

Lemma Forall_upd {X} (P : X -> Prop) l i x : Forall P l -> P x -> Forall P (upd l i x).
Proof. intros F Px. revert i. induction F; intros [|i]; cbn; auto. Qed.

Lemma safe_push_all vs : okst vs -> safe okst (push_all st vs).
Proof. intros F. cbn. apply Forall_app; auto. Qed.
Lemma safe_push_val v : okval v -> safe okst (push st v).
Proof. intros F. cbn. apply Forall_app; auto. Qed.
Lemma safe_put i v : okval v -> safe okst (put st i v).
Proof. intros F. cbn. apply Forall_upd; auto. Qed.
Lemma safe_push_opt o : okopt okval o -> safe okst (push_opt st o).
Proof. destruct o; cbn; auto. intros. apply Forall_app; auto. Qed.
Lemma safe_push_res {E} (r : result value E) : okres okval r -> safe okst (push_res st r).
Proof. destruct r; cbn; auto. intros. apply Forall_app; auto. Qed.

Lemma safe_change_row c r : valid_row r -> safe (vrow (length r)) (change_row st c r).
Proof.
  intros V. assert (S : safe (vrow (length r)) (Ret r)) by (apply vrow_intro; auto).
  destruct c as [a b|fuel|i j|i|p]; cbn [change_row].
  - apply safe_row_swap; auto.
  - eapply safe_bind; [apply safe_parity; auto|]. intros [r' x] H; exact H.
  - destruct (nth_error st i) as [[]|] eqn:Ei; auto. destruct (nth_error st j) as [[]|] eqn:Ej; auto.
    apply okst_nth in Ei, Ej. eapply safe_bind; [apply safe_mul_into_row; auto|]. intros [r' x] H; exact H.
  - destruct (nth_error st i) as [[]|] eqn:Ei; auto. apply okst_nth in Ei.
    eapply safe_bind; [apply safe_inv_into; auto|]. intros [r' x] H; exact H.
  - destruct (nth_error st p) as [[]|] eqn:Ei; auto.
    eapply safe_bind; [apply safe_pn_permute; auto|]. intros [r' x] H; exact H.
Qed.
End Prog.

Lemma map_VRow_ok rs : Forall valid_row rs -> okst (map VRow rs).
Proof. induction 1; cbn; auto. Qed.
Lemma okres_map {A E} (P : A -> Prop) (f : A -> value) (r : result A E) :
  okres P r -> (forall a, P a -> okval (f a)) -> okres okval (res_map f r).
Proof. destruct r; cbn; auto. Qed.
Lemma okopt_map {A} (P : A -> Prop) (f : A -> value) (r : option A) :
  okopt P r -> (forall a, P a -> okval (f a)) -> okopt okval (option_map f r).
Proof. destruct r; cbn; auto. Qed.

Ltac arg := first [apply safe_with_row | apply safe_with_acc | apply safe_with_vec | apply safe_with_iter
  | apply safe_with_block | apply safe_with_repeat | apply safe_with_pn | apply safe_with_pn_block
  | apply safe_with_mask | apply safe_with_method]; [assumption | intros].
Ltac via L := eapply safe_bind; [apply L; auto|].
Ltac ret :=
  match goal with
  | |- safe _ (push_all _ _) => apply safe_push_all
  | |- safe _ (push _ _) => apply safe_push_val
  | |- safe _ (put _ _ _) => apply safe_put
  | |- safe _ (push_opt _ _) => apply safe_push_opt
  | |- safe _ (push_res _ _) => apply safe_push_res
  end; auto; cbn [okval]; auto.

Lemma step_safe ho st c : okst st -> careful_call st c -> safe okst (step ho st c).
Proof.
  intros H C. destruct c; cbn [step]; repeat arg.
  (* rows *)
  - via safe_stage. intros s [Hs _]. ret. apply valid_rounds; auto.
  - via safe_stage. intros s [Hs _]. ret. apply valid_backrounds; auto.
  - via safe_stage. intros s [Hs _]. ret. apply valid_queens; auto.
  - ret. eapply okres_map; [apply from_vec_safe|auto].
  - ret. eapply okres_map; [apply row_parse_safe|auto].
  - via safe_stage. intros s [Hs _]. via safe_from_vec_with_stage. intros r Hr. ret. eapply okres_map; eauto.
  - via safe_stage. intros s [Hs _]. via safe_from_vec_with_stage. intros r Hr. ret. eapply okres_map; eauto.
  - via safe_stage. intros s [Hs _]. via safe_extend_to_stage. intros r' Hr. ret.
  - ret.
  - ret.
  - via safe_row_mul. intros x Hx. ret.
  - via safe_mul_result. intros x Hx. ret. eapply okres_map; eauto.
  - via safe_mul_into. intros [x y] Hx. ret.
  - via safe_row_inv. intros x Hx. ret. apply Hx.
  - via safe_inv_into_buf. intros x Hx. ret.
  - via safe_pow_u. intros x Hx. ret.
  - via safe_pow_i. intros x Hx. ret.
  - via safe_solve_ax. intros x Hx. ret. eapply okres_map; eauto.
  - via safe_solve_xa. intros x Hx. ret. eapply okres_map; eauto. intros a [[Va _] _]; exact Va.
  - via safe_closure. intros x Hx. ret. apply map_VRow_ok; auto.
  - via safe_closure_from_rounds. intros x Hx. ret. apply map_VRow_ok; auto.
  - eapply safe_bind; [apply safe_mcp|].
    + clear C. induction sets as [|s sets IH]; cbn; constructor; auto. apply rows_at_valid; auto.
    + intros [rs|e] Hr; [|exact H]. ret. apply map_VRow_ok; auto.
  - eapply safe_bind; [apply safe_least_group, rows_at_valid; auto|].
    intros [rs|e] Hr; [|exact H]. ret. apply map_VRow_ok; auto.
  - sstep; [apply safe_is_group|]. exact H.
  - destruct p as [i|i k|i|i]; arg.
    + via safe_change_row. intros x Hx. ret. apply Hx.
    + eapply safe_bind; [apply safe_edit; auto; intros r Vr; apply safe_change_row; auto; apply Vr|].
      intros [v'|] Hv; [|exact H]. ret.
    + eapply safe_bind; [apply safe_edit; auto; intros r Vr; apply safe_change_row; auto; apply Vr|].
      intros [v'|] Hv; [|exact H]. ret.
    + eapply safe_bind with (P := okopt okv).
      * unfold ssv_edit_last. sstep; [apply safe_ssv_len|]. destruct a; [exact I|].
        apply safe_edit; auto; intros r Vr; apply safe_change_row; auto; apply Vr.
      * intros [v'|] Hv; [|exact H]. ret.
  (* accumulators *)
  - via safe_acc_new. intros x Hx. ret.
  - via safe_stage. intros s [Hs _]. eapply safe_bind; [apply safe_acc_new, valid_rounds; auto|]. intros x Hx. ret.
  - via safe_accumulate. intros [x y] Hx. ret.
  - via safe_pre_accumulate. intros [x y] Hx. ret.
  - ret. match goal with K : okacc _ |- _ => destruct K end. split; auto.
  - via safe_acc_mul_assign. intros x Hx. ret.
  - ret. match goal with K : okacc _ |- _ => apply K end.
  (* buffers *)
  - via safe_stage. intros s [Hs _]. ret. apply okv_new; auto.
  - via safe_from_row_buf. intros x [Hx _]. ret.
  - via safe_ssv_parse. intros x Hx. ret. eapply okres_map; eauto.
  - ret. eapply okopt_map; [apply okv_get; auto|]. intros a Ha; apply Ha.
  - ret. eapply okopt_map; [apply okv_get; auto|]. intros a Ha; apply Ha.
  - via safe_last. intros x Hx. ret. eapply okopt_map; eauto. intros a Ha; apply Ha.
  - via safe_index. intros x Hx. ret. apply Hx.
  - via safe_rows. intros x Hx. ret. eapply map_VRow_ok, Forall_valid; eauto.
  - via safe_push. intros [x y] [Hx _]. ret.
  - via safe_pop. intros [x y] (Hx & _ & Hy). eapply safe_bind; [apply safe_put; auto; exact Hx|]. intros st' H'.
    ret. eapply okopt_map; eauto.
  - via safe_extend. { apply rows_at_valid; auto. } intros [x y] Hx. ret.
  - ret. apply okv_extend_from_buf; auto.
  - unfold ssv_extend_transposed. via safe_extend_range_transposed. intros [x y] [Hx _]. ret.
  - via safe_extend_range_transposed. intros [x y] [Hx _]. ret.
  - via safe_from_within. intros [x y] Hx. ret.
  - via safe_pre_multiply. intros [x y] Hx. ret.
  - via safe_pre_multiplied. intros x Hx. ret. eapply okres_map; eauto.
  - match goal with |- context [ssv_split ?v ?n] => pose proof (okv_split v n) as S; destruct (ssv_split v n) as [[a b]|] end; [|exact H].
    destruct S as (Ha & Hb & _); auto. ret.
  - sstep; [apply safe_path; auto|]. exact H.
  - ret. apply oki_iterator; auto.
  - via safe_it_next. intros [o it'] (Ho & Hi & _). eapply safe_bind; [apply safe_put; auto; exact Hi|]. intros st' H'.
    ret. eapply okopt_map; eauto. intros a Ha; apply Ha.
  - via safe_it_next_back. intros [o it'] (Ho & Hi & _). eapply safe_bind; [apply safe_put; auto; exact Hi|]. intros st' H'.
    ret. eapply okopt_map; eauto. intros a Ha; apply Ha.
  (* blocks *)
  - via (@safe_block_parse (option str)). intros x Hx. ret. eapply okres_map; eauto.
  - via safe_stage. intros s [Hs _]. via (@safe_block_empty (option str)). intros x Hx. ret.
  - via (@safe_with_default (option str)). intros x [Hx _]. ret.
  - via (@safe_from_indices (option str)). intros x Hx. ret. eapply okopt_map; eauto.
  - ret. eapply okopt_map; [apply okb_get_row; auto|]. intros a Ha; apply Ha.
  - via (@safe_first_row (option str)). intros x Hx. ret. apply Hx.
  - via (@safe_leftover (option str)). intros x Hx. ret. apply Hx.
  - via (@safe_block_rows (option str)). intros x Hx. ret. eapply map_VRow_ok, Forall_valid; eauto.
  - via (@safe_all_rows (option str)). intros x Hx. ret. eapply map_VRow_ok, Forall_valid; eauto.
  - via (@safe_annot_rows (option str)). intros x Hx. ret. clear - Hx. induction x as [|[r a] x IH]; cbn in *; auto.
    inversion Hx; subst. auto.
  - via (@safe_rows_iter (option str)). intros x [Hx _]. ret.
  - sstep; [apply safe_block_path; auto|]. exact H.
  - via (@safe_block_pre_multiply (option str)). intros [x y] Hx. ret.
  - unfold block_extend. via (@safe_block_extend_range (option str)). intros [x y] Hx. ret.
  - via (@safe_block_extend_range (option str)). intros [x y] Hx. ret.
  - via (@safe_block_extend_from_within (option str)). intros x Hx. ret.
  - via (@safe_block_split (option str)). intros [[x y]|] Hx; [|exact H]. ret. destruct Hx. constructor; auto.
  - ret.
  - match goal with |- context [block_set_annot ?x ?i ?a] =>
      pose proof (okb_set_annot x i a) as S; destruct (block_set_annot x i a) end; [|exact H]. ret. exact (S H0).
  - via (@safe_repeat_new (option str)). intros x Hx. ret. eapply okres_map; eauto.
  - via (@safe_repeat_next (option str)). intros [o x] [Ho Hx]. eapply safe_bind; [apply safe_put; auto; exact Hx|]. intros st' H'.
    ret. eapply okopt_map; eauto.
  - via (@safe_repeat_next_into (option str)). intros [[o r'] x] [Ho Hx]. eapply safe_bind; [apply safe_put; auto; exact Hx|].
    intros st' H'. apply safe_put; auto.
  (* place notation *)
  - via safe_stage. intros s [Hs _]. via safe_pn_parse. intros x Hx. ret. eapply okres_map; eauto. intros a <-. exact Hs.
  - via safe_stage. intros s [Hs _]. ret. eapply okopt_map; [apply okpn_cross|]. intros a <-. exact Hs.
  - via safe_between. intros x Hx. ret. eapply okopt_map; eauto.
  - via safe_pn_permute_new. intros x Hx. ret. eapply okres_map; eauto.
  - via safe_transposition. intros x Hx. ret.
  - via safe_stage. intros s [Hs _]. via safe_pn_block_parse. intros x Hx. ret. eapply okres_map; eauto.
  - ret. eapply okres_map; [apply pn_block_from_vec_ok, pns_at_valid; auto|]. auto.
  - via safe_to_rows. intros x Hx. ret. eapply okres_map; eauto.
  - via (@safe_to_block (option str)). intros x Hx. ret. eapply okres_map; eauto.
  - via (@safe_to_block_from_rounds (option str)). intros x Hx. ret.
  (* masks *)
  - ret.
  - via safe_stage. intros s _. ret.
  - ret.
  - via safe_stage. intros s _. sstep; [apply safe_mask_fix_bells|]. ret.
  - sstep; [apply safe_mask_fix|]. destruct a. ret.
  - sstep; [apply safe_mask_set_bell|]. destruct a. ret.
  - sstep; [apply safe_mask_combine|]. ret. destruct a; cbn; auto.
  - sstep; [apply safe_mask_mul_row|]. ret.
  - sstep; [apply safe_row_mul_mask|]. ret.
  - eapply safe_bind; [apply safe_as_row; apply C; auto|]. intros x Hx. ret. eapply okopt_map; eauto.
  (* methods *)
  - ret.
  - via safe_with_name. intros x Hx. ret.
  - via safe_stage. intros s [Hs _]. via safe_from_place_not_string. intros x Hx. ret. eapply okres_map; eauto.
  - via safe_with_lead_end. intros x Hx. ret.
  - ret.
  - via (@safe_leftover (option str)). intros x Hx. ret. apply Hx.
  - via safe_index. intros x Hx. ret. apply Hx.
  - via safe_row_in_course. intros x Hx. ret.
  - via safe_plain_course. intros x Hx. ret.
  - via safe_set_label. intros x Hx. ret.
  (* clones, calls and libraries *)
  - ret. destruct (nth_error st i) eqn:E; cbn; auto. eapply okst_nth; eauto.
  - ret.
  - eapply safe_bind; [apply safe_leftover|].
    + match goal with K : okb _ |- _ => exact K end.
    + intros x Hx. ret. apply Hx.
  - unfold Call.le_bob. rewrite bind_assoc. via (@safe_to_block_from_rounds unit). intros x Hx. cbn [bind].
    eapply safe_bind; [apply safe_leftover; auto|]. intros y Hy. ret. apply Hy.
  - unfold Call.le_single. rewrite bind_assoc. via (@safe_to_block_from_rounds unit). intros x Hx. cbn [bind].
    eapply safe_bind; [apply safe_leftover; auto|]. intros y Hy. ret. apply Hy.
  - via safe_library_get. intros [[x|x]|] Hx; try exact H. ret.
Qed.

Lemma run_safe ho prog : forall st, okst st -> careful ho st prog -> safe okst (run_from ho st prog).
Proof.
  induction prog as [|c prog IH]; intros st H C; unfold run_from; cbn [foldM]; [exact H|].
  destruct C as [C1 C2]. pose proof (step_safe ho st c H C1) as S.
  destruct (step ho st c) as [st'| | |]; cbn in *; auto. apply IH; auto.
Qed.

Lemma unguarded_careful ho prog : Forall (fun c => unguarded c = false) prog -> forall st, careful ho st prog.
Proof.
  induction 1 as [|c prog Hc F IH]; intros st; cbn; auto. split; auto. destruct c; cbn in *; auto; discriminate.
Qed.
