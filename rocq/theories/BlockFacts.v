(** Proofs about blocks. *)
From Verif Require Import Base Bell Stage Row Utils SameStageVec Block Spec SpecVec SpecBlock ListFacts
  BellFacts RowFacts MulFacts GroupFacts SsvFacts.
Local Open Scope list_scope.

Section BlockFacts.
Context {A : Type}.
Implicit Types (ars : list (row * A)).

Definition brep (s : nat) (ars : list (row * A)) (lo : row) (b : block A) : Prop :=
  rep s (map fst ars ++ [lo]) (blk_rows b) /\ blk_annots b = map snd ars.

Lemma zip_eq_ok {X Y} (l : list (X * Y)) : zip_eq (map fst l) (map snd l) = Ret l.
Proof. induction l as [|[x y] l IH]; cbn; auto. rewrite IH. reflexivity. Qed.

Lemma zip_eq_inv {X Y} (l : list X) (m : list Y) r : zip_eq l m = Ret r -> l = map fst r /\ m = map snd r.
Proof.
  revert m r. induction l as [|x l IH]; intros [|y m] r H; cbn in H; try discriminate.
  - injection H as <-; auto.
  - destruct (zip_eq l m) as [t| | |] eqn:E; cbn in H; try discriminate. injection H as <-.
    apply IH in E as [-> ->]. auto.
Qed.

Lemma zip_eq_panic {X Y} (l : list X) (m : list Y) : length l <> length m -> zip_eq l m = Panic.
Proof.
  revert m. induction l as [|x l IH]; intros [|y m] H; cbn in *; try lia; auto.
  rewrite IH by lia. reflexivity.
Qed.

Lemma rep_pos s rs v : rep s rs v -> 0 < s. Proof. intros H; apply H. Qed.
Lemma rep_Forall s rs v : rep s rs v -> Forall (vrow s) rs. Proof. intros H; apply H. Qed.

Lemma brep_rows_iter s ars lo b : brep s ars lo b ->
  block_rows_iter b = Ret (SsvIter (concat (map fst ars)) s) /\ Forall (vrow s) (map fst ars) /\ vrow s lo.
Proof.
  intros [H _]. pose proof H as (Hs & Hst & F & E). unfold block_rows_iter, ssv_iterator. rewrite E, Hst.
  rewrite it_next_back_ok by auto. cbn [bind]. rewrite removelast_last. apply Forall_app in F as [F1 F2].
  inversion F2; subst. splits; auto.
Qed.

Lemma collect_any s rs : 0 < s -> Forall (vrow s) rs ->
  it_collect (S (length (concat rs))) (SsvIter (concat rs) s) = Ret rs.
Proof.
  intros Hs F. apply it_collect_ok; auto. rewrite (concat_length_eq s) by auto using vrow_lengths. nia.
Qed.

Lemma brep_rows s ars lo b : brep s ars lo b -> block_rows b = Ret (map fst ars).
Proof.
  intros H. unfold block_rows. destruct (brep_rows_iter _ _ _ _ H) as (E & F & _). rewrite E. cbn [bind it_left].
  apply collect_any; auto. eapply rep_pos, H.
Qed.

Lemma brep_annot_rows s ars lo b : brep s ars lo b -> block_annot_rows b = Ret ars.
Proof.
  intros H. unfold block_annot_rows. erewrite brep_rows by eauto. cbn [bind]. rewrite (proj2 H). apply zip_eq_ok.
Qed.

Lemma brep_all_rows s ars lo b : brep s ars lo b -> block_all_rows b = Ret (all_rows_of ars lo).
Proof. intros H. eapply rep_rows, H. Qed.

Lemma last_opt_snoc {X} (l : list X) x : last_opt (l ++ [x]) = Some x.
Proof. unfold last_opt. rewrite rev_app_distr. reflexivity. Qed.

Lemma brep_leftover s ars lo b : brep s ars lo b -> block_leftover_row b = Ret lo.
Proof.
  intros H. unfold block_leftover_row. erewrite ssv_last_ok by apply H. cbn [bind]. rewrite last_opt_snoc. reflexivity.
Qed.

Lemma brep_len s ars lo b : brep s ars lo b -> block_len b = length ars.
Proof. intros [_ H]. unfold block_len. rewrite H, map_length. reflexivity. Qed.

Lemma brep_get_row s ars lo b i : brep s ars lo b -> block_get_row b i = nth_error (all_rows_of ars lo) i.
Proof. intros H. eapply ssv_get_ok, H. Qed.

Lemma brep_first_row s ars lo b : brep s ars lo b ->
  exists r, block_first_row b = Ret r /\ nth_error (all_rows_of ars lo) 0 = Some r.
Proof.
  intros H. unfold block_first_row, ssv_first. erewrite ssv_get_ok by apply H. unfold all_rows_of.
  destruct (map fst ars); cbn; eauto.
Qed.

Lemma brep_get_annot s ars lo b i : brep s ars lo b -> block_get_annot b i = option_map snd (nth_error ars i).
Proof. intros [_ H]. unfold block_get_annot. rewrite H. apply nth_error_map. Qed.

Lemma brep_get_annot_row s ars lo b i : brep s ars lo b -> block_get_annot_row b i = nth_error ars i.
Proof.
  intros H. unfold block_get_annot_row. erewrite brep_get_row, brep_get_annot by eauto. unfold all_rows_of.
  destruct (nth_error ars i) as [[r a]|] eqn:N.
  - assert (i < length ars) by (apply nth_error_Some; congruence).
    rewrite nth_error_app1 by (rewrite map_length; auto). rewrite nth_error_map, N. reflexivity.
  - destruct (nth_error (map fst ars ++ [lo]) i); reflexivity.
Qed.

Lemma brep_holds s ars lo b : brep s ars lo b -> block_holds b s ars lo.
Proof.
  intros H. destruct (brep_rows_iter _ _ _ _ H) as (_ & F & [V L]). unfold block_holds. splits; auto.
  - eapply rep_pos, H.
  - apply H.
  - rewrite Forall_map in F. exact F.
  - eapply brep_annot_rows; eauto.
  - eapply brep_leftover; eauto.
Qed.

Lemma holds_brep s ars lo b : block_holds b s ars lo -> brep s ars lo b.
Proof.
  intros (Hs & Hst & F & V & L & E1 & E2). unfold block_stage in Hst.
  unfold block_annot_rows in E1. destruct (block_rows b) as [rows| | |] eqn:R; cbn [bind] in E1; try discriminate.
  apply zip_eq_inv in E1 as [-> E1]. split; auto.
  unfold block_leftover_row in E2. destruct (ssv_last (blk_rows b)) as [[r|]| | |] eqn:SL; cbn [bind unwrap] in E2; try discriminate.
  injection E2 as ->. unfold ssv_last, ssv_len in SL. rewrite Hst in SL.
  destruct (Nat.eqb_spec s 0); [lia|].
  destruct (Nat.eqb_spec (length (ssv_bells (blk_rows b)) mod s) 0) as [M|M]; cbn [assert_ bind] in SL; [|discriminate].
  set (bells := ssv_bells (blk_rows b)) in *.
  pose proof (Nat.div_mod (length bells) s ltac:(lia)) as DM. rewrite M, Nat.add_0_r in DM.
  destruct (length bells / s) as [|k]; [discriminate|]. injection SL as SL.
  unfold ssv_get, get_range_of_row in SL. fold bells in SL. rewrite Hst in SL.
  destruct (Nat.leb_spec ((k + 1) * s) (length bells)) as [Hk|Hk]; [|discriminate]. injection SL as SL.
  unfold block_rows, block_rows_iter, it_next_back, ssv_iterator in R. cbn [it_left it_stage] in R. fold bells in R. rewrite Hst in R.
  destruct bells as [|x l] eqn:EB; [cbn in DM; lia|]. rewrite <- EB in *.
  destruct (Nat.leb_spec s (length bells)) as [Hl|Hl]; [|nia]. cbn [assert_ bind] in R.
  unfold split_at in R. rewrite (proj2 (Nat.leb_le _ _)) in R by lia. cbn [bind it_left] in R.
  apply it_collect_concat in R.
  apply rep_intro; auto.
  - apply Forall_app; split; [rewrite Forall_map; exact F|]. constructor; [split; auto|constructor].
  - fold bells. rewrite concat_app. cbn [concat]. rewrite app_nil_r, <- R, <- SL.
    replace (length bells - s) with (k * s) by nia.
    rewrite (firstn_all2 (n := (k + 1) * s - k * s)) by (rewrite skipn_length; nia).
    symmetry. apply firstn_skipn.
Qed.

(** ** Constructors *)

Lemma from_indices_ok s rs v (f : nat -> A) : rep s rs v -> rs <> [] ->
  exists b, with_annots_from_indices v f = Ret (Some b) /\
    brep s (combine (removelast rs) (map f (seq 0 (length rs - 1)))) (last rs []) b.
Proof.
  intros H N. unfold with_annots_from_indices. erewrite ssv_len_ok by eauto. cbn [bind].
  destruct rs as [|r rs] using rev_ind; [congruence|]. clear IHrs. rewrite app_length. cbn [length].
  rewrite Nat.add_1_r. replace (S (length rs) - 1) with (length rs) by lia. eexists; split; [reflexivity|]. unfold range. rewrite Nat.sub_0_r.
  rewrite removelast_last, last_last. split.
  - cbn [blk_rows]. assert (C : map fst (combine rs (map f (seq 0 (length rs)))) = rs).
    { generalize 0. clear. induction rs as [|x rs IH]; intros k; cbn; auto. rewrite IH. reflexivity. }
    rewrite C. exact H.
  - cbn [blk_annots]. generalize 0. clear. induction rs as [|x rs IH]; intros k; cbn; auto. f_equal; auto.
Qed.

Lemma block_build_ok (o : block_arg A) : block_arg_valid o ->
  exists b, block_build o = Ret (Some b) /\ brep (ba_stage o) (arg_annot_rows o) (arg_leftover o) b.
Proof.
  intros (Hs & N & F). unfold block_build. destruct (ssv_build_ok (ba_stage o) (ba_rows o) Hs F) as (v & E & R).
  rewrite E. cbn [bind]. apply from_indices_ok; auto.
Qed.

Lemma repeat_map_snd (l : list row) (d : A) : map snd (map (fun r => (r, d)) l) = repeat d (length l).
Proof. induction l; cbn; auto. f_equal; auto. Qed.

Lemma with_default_ok s rs v (d : A) : rep s rs v -> rs <> [] ->
  exists b, with_default_annots d v = Ret b /\
    brep s (map (fun r => (r, d)) (removelast rs)) (last rs []) b.
Proof.
  intros H N. unfold with_default_annots. erewrite ssv_is_empty_ok, ssv_len_ok by eauto.
  destruct rs as [|r rs] using rev_ind; [congruence|]. clear IHrs. rewrite app_length. cbn [length].
  rewrite (proj2 (Nat.eqb_neq _ _)) by lia. cbn [negb assert_ bind]. eexists; split; [reflexivity|].
  rewrite removelast_last, last_last. split.
  - cbn [blk_rows]. rewrite map_map, map_id. exact H.
  - cbn [blk_annots]. rewrite repeat_map_snd. f_equal. lia.
Qed.

Lemma block_empty_ok s : 0 < s -> exists b, @block_empty A s = Ret b /\ brep s [] (row_rounds s) b.
Proof.
  intros Hs. unfold block_empty. destruct (valid_rounds s Hs) as [V L].
  destruct (rep_from_row (row_rounds s) V) as (v & E & R). rewrite E. cbn [bind]. eexists; split; [reflexivity|].
  rewrite L in R. split; auto.
Qed.

(** ** The transposition *)

Lemma place_in_ok r b : valid_row r -> b < length r -> nth_error r (place_in r b) = Some b.
Proof.
  intros V Hb. destruct (In_nth_error r b) as [i Hi]; [apply V; auto|].
  unfold place_in. rewrite (path_entry (length r) r b i); auto. split; auto.
Qed.

Lemma row_inverse_rinv r : valid_row r -> row_inverse r = rinv r.
Proof.
  intros V. unfold row_inverse, rinv. apply map_ext_in. intros b Hb. apply in_seq in Hb.
  pose proof (place_in_ok r b V ltac:(lia)) as P.
  apply nth_error_nth with (d := 0) in P as P'.
  pose proof (index_of_nth r (place_in r b) (valid_row_NoDup r V)) as Q. rewrite P' in Q. symmetry. apply Q.
  apply nth_error_Some. congruence.
Qed.

Lemma solve_xa_ok s a b : vrow s a -> vrow s b -> solve_xa_equals_b a b = Ret (Ok (rmul b (rinv a))).
Proof.
  intros Ha Hb. unfold solve_xa_equals_b. rewrite row_inv_ok by apply Ha. cbn [bind].
  apply (mul_result_ok s); auto. apply valid_rinv; auto.
Qed.

Lemma solve_xa_err a b : valid_row a -> valid_row b -> length a <> length b ->
  solve_xa_equals_b a b = Ret (Err (IncompatibleStages (length b) (length a))).
Proof.
  intros Ha Hb Hn. unfold solve_xa_equals_b. rewrite row_inv_ok by auto. cbn [bind].
  pose proof (valid_rinv _ _ (vrow_intro a Ha)) as [Vi Li].
  rewrite mul_result_err; auto; rewrite Li; auto.
Qed.

Lemma moved_rmul s first target r : vrow s first -> vrow s target -> vrow s r ->
  moved first target r = rmul (rmul target (rinv first)) r.
Proof.
  intros Hf Ht Hr. unfold moved. rewrite row_inverse_rinv by apply Hf. rewrite !row_product_rmul.
  symmetry. apply (rmul_assoc_vrow s); auto. apply valid_rinv; auto.
Qed.

Lemma moved_first s first target : vrow s first -> vrow s target -> moved first target first = target.
Proof.
  intros Hf Ht. rewrite (moved_rmul s) by auto. rewrite (rmul_assoc_vrow s) by (auto; apply valid_rinv; auto).
  rewrite (rmul_rinv_l s) by auto. apply rmul_rounds_r, Ht.
Qed.

(** any transposition taking [first] to [target] moves rows that way *)
Lemma moved_unique s t first target r : vrow s t -> vrow s first -> vrow s target -> vrow s r ->
  composition t first target -> moved first target r = row_product t r.
Proof.
  intros Ht Hf Htg Hr C. apply composition_fun in C. subst target. rewrite (moved_rmul s) by auto.
  rewrite (rmul_assoc_vrow s t first (rinv first)) by (auto; apply valid_rinv; auto).
  rewrite (rmul_rinv_r s) by auto. rewrite rmul_rounds_r by apply Ht. reflexivity.
Qed.

Lemma vrow_moved s first target r : vrow s first -> vrow s target -> vrow s r -> vrow s (moved first target r).
Proof.
  intros Hf Ht Hr. rewrite (moved_rmul s) by auto. apply valid_rmul; auto. apply valid_rmul; auto. apply valid_rinv; auto.
Qed.

Lemma brep_vrows s ars lo b : brep s ars lo b -> Forall (vrow s) (map fst ars) /\ vrow s lo.
Proof. intros H. apply brep_rows_iter in H. tauto. Qed.

Lemma all_rows_vrow s ars lo b : brep s ars lo b -> Forall (vrow s) (all_rows_of ars lo).
Proof. intros H. apply brep_vrows in H as [F V]. apply Forall_app; auto. Qed.

Lemma nth_Forall {X} (P : X -> Prop) l i d : Forall P l -> i < length l -> P (nth i l d).
Proof. intros F H. rewrite Forall_forall in F. apply F, nth_In; auto. Qed.

Lemma all_rows_length ars lo : length (all_rows_of ars lo) = length ars + 1.
Proof. unfold all_rows_of. rewrite app_length, map_length. reflexivity. Qed.

Lemma sublist_all_rows ars lo a b : a <= b -> b <= length ars ->
  sublist a (b + 1) (all_rows_of ars lo) = map fst (sublist a b ars) ++ [nth b (all_rows_of ars lo) []].
Proof.
  intros Hab Hb. unfold sublist. set (l := all_rows_of ars lo).
  assert (Hl : length l = length ars + 1) by apply all_rows_length.
  replace (b + 1 - a) with ((b - a) + 1) by lia.
  assert (G : forall n (m : list row), n < length m -> firstn (n + 1) m = firstn n m ++ [nth n m []]).
  { clear. induction n as [|n IH]; intros [|x m] H; cbn in *; try lia; auto. f_equal. apply IH. lia. }
  rewrite G by (rewrite skipn_length; lia). f_equal.
  - apply nth_error_ext. intros i. rewrite nth_error_firstn, nth_error_skipn, nth_error_map, nth_error_firstn, nth_error_skipn.
    destruct (Nat.ltb_spec i (b - a)) as [L|L]; auto. unfold l, all_rows_of.
    rewrite nth_error_app1 by (rewrite map_length; lia). apply nth_error_map.
  - f_equal. apply nth_error_nth. rewrite nth_error_skipn. replace (a + (b - a)) with b by lia.
    apply nth_error_nth'. lia.
Qed.

(** ** Extending *)

Lemma skipn_cons_nth {X} (l : list X) i d : i < length l -> skipn i l = nth i l d :: skipn (i + 1) l.
Proof.
  revert i. induction l as [|x l IH]; intros [|i] H; cbn in *; try lia; auto. apply IH. lia.
Qed.



Lemma brep_extend_range_rows s ars lo b ars' lo' o lo_ hi_ : brep s ars lo b -> brep s ars' lo' o ->
  let a := range_start lo_ in let e := range_end hi_ (length ars') in
  a <= e -> e <= length ars' ->
  let first := nth a (all_rows_of ars' lo') [] in
  exists v, block_extend_range b o lo_ hi_ = Ret (Block v (map snd ars ++ map snd ars'), Ok tt) /\
    rep s (map fst ars ++ map (moved first lo) (map fst (sublist a e ars') ++ [nth e (all_rows_of ars' lo') []])) v.
Proof.
  intros H Ho a e Hae He first.
  pose proof (brep_vrows _ _ _ _ H) as [F V]. pose proof (all_rows_vrow _ _ _ _ Ho) as Fo.
  assert (Vf : vrow s first) by (apply nth_Forall; auto; rewrite all_rows_length; lia).
  unfold block_extend_range. erewrite brep_len by eauto. unfold clamp_range.
  change (match lo_ with Included y => y | Excluded z => z + 1 | Unbounded => 0 end) with a.
  change (match hi_ with Included y => y + 1 | Excluded z => z | Unbounded => length ars' end) with e.
  erewrite brep_get_row by eauto.
  rewrite (nth_error_nth' _ []) by (rewrite all_rows_length; lia). fold first. cbn [unwrap bind].
  erewrite brep_leftover by eauto. cbn [bind]. rewrite (solve_xa_ok s) by auto. cbn [bind].
  destruct (ssv_pop_ok s (map fst ars ++ [lo]) (blk_rows b) (proj1 H)) as (v1 & E1 & R1). rewrite E1. cbn [bind].
  rewrite removelast_last in R1.
  set (t := rmul lo (rinv first)).
  assert (Ht : vrow s t) by (apply valid_rmul; auto; apply valid_rinv; auto).
  destruct (ssv_extend_range_transposed_ok s _ v1 t (all_rows_of ars' lo') (blk_rows o) (Included a) (Excluded (e + 1)) R1 Ht (proj1 Ho)) as (v2 & E2 & R2).
  { cbn; lia. } { cbn. rewrite all_rows_length. lia. }
  rewrite E2. cbn [bind unwrap_res]. rewrite (proj2 H), (proj2 Ho). exists v2. split; auto.
  cbn [range_start range_end] in R2. rewrite sublist_all_rows in R2 by auto.
  assert (M : forall l, Forall (vrow s) l -> map (row_product t) l = map (moved first lo) l).
  { intros l Fl. apply map_ext_in. intros r Hr. rewrite Forall_forall in Fl. symmetry. apply (moved_rmul s); auto. }
  rewrite M in R2; auto. apply Forall_app; split.
  - unfold sublist. rewrite <- firstn_map, <- skipn_map. apply Forall_firstn, Forall_skipn. eapply brep_vrows; eauto.
  - constructor; [|constructor]. apply nth_Forall; auto. rewrite all_rows_length; lia.
Qed.

Lemma brep_extend s ars lo b ars' lo' o : brep s ars lo b -> brep s ars' lo' o ->
  let first := nth 0 (all_rows_of ars' lo') [] in
  exists b', block_extend b o = Ret (b', Ok tt) /\
    brep s (ars ++ map (fun ra => (moved first lo (fst ra), snd ra)) ars') (moved first lo lo') b'.
Proof.
  intros H Ho first.
  destruct (brep_extend_range_rows s ars lo b ars' lo' o Unbounded Unbounded H Ho) as (v & E & R); [cbn; lia|cbn; lia|].
  cbn [range_start range_end] in R. unfold block_extend. rewrite E. eexists; split; [reflexivity|].
  rewrite sublist_all in R. fold first in R. split.
  - cbn [blk_rows]. rewrite !map_app, map_map. rewrite !map_app, map_map in R. cbn [fst map] in *.
    unfold all_rows_of in R. rewrite app_nth2 in R by (rewrite map_length; lia).
    rewrite map_length, Nat.sub_diag in R. cbn [nth] in R. rewrite app_assoc in R. exact R.
  - cbn [blk_annots]. rewrite map_app, map_map. reflexivity.
Qed.

Lemma brep_extend_err s ars lo b s' ars' lo' o : brep s ars lo b -> brep s' ars' lo' o -> s' <> s ->
  block_extend b o = Ret (b, Err (IncompatibleStages s s')).
Proof.
  intros H Ho Hn. unfold block_extend, block_extend_range, clamp_range. erewrite brep_get_row by eauto.
  pose proof (brep_vrows _ _ _ _ H) as [F V]. pose proof (all_rows_vrow _ _ _ _ Ho) as Fo.
  assert (Vf : vrow s' (nth 0 (all_rows_of ars' lo') [])) by (apply nth_Forall; auto; rewrite all_rows_length; lia).
  rewrite (nth_error_nth' _ []) by (rewrite all_rows_length; lia). cbn [unwrap bind].
  erewrite brep_leftover by eauto. cbn [bind]. rewrite solve_xa_err.
  - cbn [bind]. rewrite (proj2 Vf), (proj2 V). reflexivity.
  - apply Vf. - apply V. - rewrite (proj2 Vf), (proj2 V). auto.
Qed.

Lemma brep_extend_range_panic s ars lo b ars' lo' o lo_ hi_ : brep s ars lo b -> brep s ars' lo' o ->
  let a := range_start lo_ in let e := range_end hi_ (length ars') in
  ~ (a <= e + 1 /\ e <= length ars') -> block_extend_range b o lo_ hi_ = Panic.
Proof.
  intros H Ho a e Hae.
  pose proof (brep_vrows _ _ _ _ H) as [F V]. pose proof (all_rows_vrow _ _ _ _ Ho) as Fo.
  unfold block_extend_range. erewrite brep_len by eauto. unfold clamp_range.
  change (match lo_ with Included y => y | Excluded z => z + 1 | Unbounded => 0 end) with a.
  change (match hi_ with Included y => y + 1 | Excluded z => z | Unbounded => length ars' end) with e.
  erewrite brep_get_row by eauto.
  destruct (nth_error (all_rows_of ars' lo') a) as [first|] eqn:N; cbn [unwrap bind]; auto.
  assert (Vf : vrow s first). { rewrite Forall_forall in Fo. apply Fo. eapply nth_error_In; eauto. }
  erewrite brep_leftover by eauto. cbn [bind]. rewrite (solve_xa_ok s) by auto. cbn [bind].
  destruct (ssv_pop_ok s (map fst ars ++ [lo]) (blk_rows b) (proj1 H)) as (v1 & E1 & R1). rewrite E1. cbn [bind].
  erewrite ssv_extend_range_transposed_panic; eauto.
  - apply valid_rmul; auto. apply valid_rinv; auto.
  - apply Ho.
  - cbn. rewrite <- (map_length fst) in Hae. rewrite app_length. cbn. rewrite (map_length fst) in *. lia.
Qed.

Lemma brep_extend_range_subrange s ars lo b ars' lo' o lo_ hi_ : brep s ars lo b -> brep s ars' lo' o ->
  let a := range_start lo_ in let e := range_end hi_ (length ars') in
  a <= e -> e <= length ars' -> e - a < length ars' ->
  exists b', block_extend_range b o lo_ hi_ = Ret (b', Ok tt) /\ block_annot_rows b' = Panic.
Proof.
  intros H Ho a e Hae He Hlt.
  destruct (brep_extend_range_rows s ars lo b ars' lo' o lo_ hi_ H Ho Hae He) as (v & E & R). rewrite E.
  eexists; split; [reflexivity|]. fold a e in R.
  set (rows := map fst ars ++ map (moved (nth a (all_rows_of ars' lo') []) lo) (map fst (sublist a e ars'))).
  set (l := moved (nth a (all_rows_of ars' lo') []) lo (nth e (all_rows_of ars' lo') [])).
  assert (R' : rep s (rows ++ [l]) v).
  { unfold rows, l. rewrite map_app in R. rewrite app_assoc in R. exact R. }
  unfold block_annot_rows, block_rows, block_rows_iter. cbn [blk_rows blk_annots].
  destruct R' as (Hs & Hst & F & Eb). unfold ssv_iterator. rewrite Eb, Hst. rewrite it_next_back_ok by auto. cbn [bind it_left].
  rewrite removelast_last. apply Forall_app in F as [F1 _]. rewrite collect_any by auto. cbn [bind].
  apply zip_eq_panic. unfold rows. rewrite !app_length, !map_length. unfold sublist. rewrite firstn_length, skipn_length. lia.
Qed.

(** A range inverted by one: the left-over row goes and nothing comes. *)
Lemma brep_extend_range_inverted s ars lo b ars' lo' o lo_ hi_ : brep s ars lo b -> brep s ars' lo' o ->
  let a := range_start lo_ in let e := range_end hi_ (length ars') in
  a = e + 1 -> a <= length ars' ->
  exists v, block_extend_range b o lo_ hi_ = Ret (Block v (map snd ars ++ map snd ars'), Ok tt) /\ rep s (map fst ars) v.
Proof.
  intros H Ho a e Hae He.
  pose proof (brep_vrows _ _ _ _ H) as [F V]. pose proof (all_rows_vrow _ _ _ _ Ho) as Fo.
  set (first := nth a (all_rows_of ars' lo') []).
  assert (Vf : vrow s first) by (apply nth_Forall; auto; rewrite all_rows_length; lia).
  unfold block_extend_range. erewrite brep_len by eauto. unfold clamp_range.
  change (match lo_ with Included y => y | Excluded z => z + 1 | Unbounded => 0 end) with a.
  change (match hi_ with Included y => y + 1 | Excluded z => z | Unbounded => length ars' end) with e.
  erewrite brep_get_row by eauto.
  rewrite (nth_error_nth' _ []) by (rewrite all_rows_length; lia). fold first. cbn [unwrap bind].
  erewrite brep_leftover by eauto. cbn [bind]. rewrite (solve_xa_ok s) by auto. cbn [bind].
  destruct (ssv_pop_ok s (map fst ars ++ [lo]) (blk_rows b) (proj1 H)) as (v1 & E1 & R1). rewrite E1. cbn [bind].
  rewrite removelast_last in R1.
  set (t := rmul lo (rinv first)).
  assert (Ht : vrow s t) by (apply valid_rmul; auto; apply valid_rinv; auto).
  destruct (ssv_extend_range_transposed_ok s _ v1 t (all_rows_of ars' lo') (blk_rows o) (Included a) (Excluded (e + 1)) R1 Ht (proj1 Ho)) as (v2 & E2 & R2).
  { cbn; lia. } { cbn. rewrite all_rows_length. lia. }
  rewrite E2. cbn [bind unwrap_res]. rewrite (proj2 H), (proj2 Ho). exists v2. split; auto.
  cbn [range_start range_end] in R2. unfold sublist in R2. rewrite Hae, Nat.sub_diag in R2. cbn in R2. rewrite app_nil_r in R2. exact R2.
Qed.

Lemma brep_extend_range_err s ars lo b s' ars' lo' o lo_ hi_ : brep s ars lo b -> brep s' ars' lo' o -> s' <> s ->
  (range_start lo_ <= length ars' -> block_extend_range b o lo_ hi_ = Ret (b, Err (IncompatibleStages s s'))) /\
  (length ars' < range_start lo_ -> block_extend_range b o lo_ hi_ = Panic).
Proof.
  intros H Ho Hn. unfold block_extend_range. erewrite brep_len by eauto. unfold clamp_range.
  change (match lo_ with Included y => y | Excluded z => z + 1 | Unbounded => 0 end) with (range_start lo_).
  erewrite brep_get_row by eauto.
  pose proof (brep_vrows _ _ _ _ H) as [F V]. pose proof (all_rows_vrow _ _ _ _ Ho) as Fo. split; intros L.
  - assert (Vf : vrow s' (nth (range_start lo_) (all_rows_of ars' lo') [])) by (apply nth_Forall; auto; rewrite all_rows_length; lia).
    rewrite (nth_error_nth' _ []) by (rewrite all_rows_length; lia). cbn [unwrap bind].
    erewrite brep_leftover by eauto. cbn [bind]. rewrite solve_xa_err.
    + cbn [bind]. rewrite (proj2 Vf), (proj2 V). reflexivity.
    + apply Vf.
    + apply V.
    + rewrite (proj2 Vf), (proj2 V). auto.
  - rewrite (proj2 (nth_error_None _ _)) by (rewrite all_rows_length; lia). reflexivity.
Qed.

Lemma brep_from_within s ars lo b lo_ hi_ : brep s ars lo b ->
  let a := range_start lo_ in let e := range_end hi_ (length ars) in
  a <= e -> e <= length ars ->
  let rows := all_rows_of ars lo in let first := nth a rows [] in
  exists b', block_extend_from_within b lo_ hi_ = Ret b' /\
    brep s (ars ++ map (fun ra => (moved first lo (fst ra), snd ra)) (sublist a e ars))
      (moved first lo (nth e rows [])) b'.
Proof.
  intros H a e Hae He rows first.
  pose proof (brep_vrows _ _ _ _ H) as [F V]. pose proof (all_rows_vrow _ _ _ _ H) as Fr. fold rows in Fr.
  assert (Lr : length rows = length ars + 1) by apply all_rows_length.
  assert (Vf : vrow s first) by (apply nth_Forall; auto; lia).
  unfold block_extend_from_within. erewrite brep_len by eauto. unfold clamp_range.
  change (match lo_ with Included y => y | Excluded z => z + 1 | Unbounded => 0 end) with a.
  change (match hi_ with Included y => y + 1 | Excluded z => z | Unbounded => length ars end) with e.
  erewrite brep_get_row by eauto. fold rows.
  rewrite (nth_error_nth' _ []) by lia. fold first. cbn [unwrap bind].
  erewrite brep_leftover by eauto. cbn [bind]. rewrite (solve_xa_ok s) by auto. cbn [bind unwrap_res].
  set (t := rmul lo (rinv first)).
  assert (Ht : vrow s t) by (apply valid_rmul; auto; apply valid_rinv; auto).
  destruct (ssv_from_within_ok s rows (blk_rows b) t (Included (a + 1)) (Excluded (e + 1)) (proj1 H) Ht) as (v & E & R).
  { cbn; lia. } { cbn; lia. }
  rewrite E. cbn [bind unwrap_res]. rewrite (proj2 H). rewrite slice_ret by (rewrite ?map_length; lia). cbn [bind].
  eexists; split; [reflexivity|]. cbn [range_start range_end] in R.
  assert (M : forall l, Forall (vrow s) l -> map (row_product t) l = map (moved first lo) l).
  { intros l Fl. apply map_ext_in. intros r Hr. rewrite Forall_forall in Fl. symmetry. apply (moved_rmul s); auto. }
  split.
  - cbn [blk_rows]. rewrite map_app, map_map. cbn [fst].
    assert (Eq : rows ++ map (row_product t) (sublist (a + 1) (e + 1) rows) =
      (map fst ars ++ map (fun x => moved first lo (fst x)) (sublist a e ars)) ++ [moved first lo (nth e rows [])]).
    { assert (Fs : Forall (vrow s) (sublist (a + 1) (e + 1) rows)) by (apply Forall_firstn, Forall_skipn; auto).
      rewrite M by auto.
      assert (K : [lo] ++ map (moved first lo) (sublist (a + 1) (e + 1) rows) = map (moved first lo) (sublist a (e + 1) rows)).
      { unfold sublist. replace (e + 1 - a) with (S (e - a)) by lia. replace (e + 1 - (a + 1)) with (e - a) by lia.
        assert (Sk : skipn a rows = first :: skipn (a + 1) rows).
        { apply skipn_cons_nth. lia. }
        rewrite Sk. cbn [firstn map app]. rewrite (moved_first s) by auto. reflexivity. }
      unfold rows at 1, all_rows_of. rewrite <- !app_assoc. f_equal. rewrite K. fold rows in K.
      unfold rows. rewrite sublist_all_rows by auto. rewrite map_app, map_map. reflexivity. }
    rewrite <- Eq. exact R.
  - cbn [blk_annots]. rewrite map_app, map_map. f_equal. cbn [snd]. unfold sublist.
    rewrite <- firstn_map, <- skipn_map. reflexivity.
Qed.

(** ** Splitting *)

Lemma brep_split s ars lo b i : brep s ars lo b -> i <= length ars ->
  exists b1 b2, block_split b i = Ret (Some (b1, b2)) /\
    brep s (firstn i ars) (nth i (all_rows_of ars lo) []) b1 /\ brep s (skipn i ars) lo b2.
Proof.
  intros H Hi. unfold block_split, split_vec. rewrite (proj2 H), map_length.
  rewrite (proj2 (Nat.ltb_ge _ _)) by auto.
  pose proof (all_rows_length ars lo) as Lr.
  destruct (ssv_split_ok s (all_rows_of ars lo) (blk_rows b) i (proj1 H)) as (v1 & v2 & E & R1 & R2); [lia|].
  rewrite E. unfold ssv_first. erewrite ssv_get_ok by eauto.
  rewrite nth_error_skipn, Nat.add_0_r. rewrite (nth_error_nth' _ []) by lia. cbn [unwrap bind].
  pose proof (all_rows_vrow _ _ _ _ H) as Fr.
  destruct (ssv_push_ok s (firstn i (all_rows_of ars lo)) v1 (nth i (all_rows_of ars lo) []) R1) as (v3 & E3 & R3).
  { apply nth_Forall; auto. lia. }
  rewrite E3. cbn [bind unwrap_res]. eexists _, _. split; [reflexivity|].
  assert (Fi : firstn i (all_rows_of ars lo) = map fst (firstn i ars)).
  { unfold all_rows_of. rewrite firstn_app, map_length. replace (i - length ars) with 0 by lia. cbn [firstn].
    rewrite app_nil_r. apply firstn_map. }
  assert (Si : skipn i (all_rows_of ars lo) = map fst (skipn i ars) ++ [lo]).
  { unfold all_rows_of. rewrite skipn_app, map_length. replace (i - length ars) with 0 by lia. cbn [skipn].
    rewrite skipn_map. reflexivity. }
  split; split; cbn [blk_rows blk_annots].
  - rewrite <- Fi. exact R3.
  - apply firstn_map.
  - rewrite <- Si. exact R2.
  - apply skipn_map.
Qed.

Lemma brep_split_none s ars lo b i : brep s ars lo b -> length ars < i -> block_split b i = Ret None.
Proof.
  intros H Hi. unfold block_split, split_vec. rewrite (proj2 H), map_length.
  rewrite (proj2 (Nat.ltb_lt _ _)) by auto. reflexivity.
Qed.

Lemma rep_eq s rs v w : rep s rs v -> rep s rs w -> v = w.
Proof. intros (_ & S1 & _ & B1) (_ & S2 & _ & B2). destruct v, w; cbn in *; congruence. Qed.

Lemma brep_eq s ars lo b b' : brep s ars lo b -> brep s ars lo b' -> b = b'.
Proof.
  intros [R1 A1] [R2 A2]. destruct b, b'; cbn in *. f_equal; [eapply rep_eq; eauto|congruence].
Qed.

Lemma moved_self s r x : vrow s r -> vrow s x -> moved r r x = x.
Proof.
  intros Hr Hx. rewrite (moved_rmul s) by auto. rewrite (rmul_rinv_r s) by auto. apply rmul_rounds_l_vrow; auto.
Qed.

Lemma brep_split_extend s ars lo b i b1 b2 : brep s ars lo b -> i <= length ars ->
  brep s (firstn i ars) (nth i (all_rows_of ars lo) []) b1 -> brep s (skipn i ars) lo b2 ->
  block_extend b1 b2 = Ret (b, Ok tt).
Proof.
  intros H Hi H1 H2. destruct (brep_extend s _ _ b1 _ _ b2 H1 H2) as (b' & E & R).
  pose proof (all_rows_length ars lo) as Lr. pose proof (all_rows_vrow _ _ _ _ H) as Fr.
  set (r := nth i (all_rows_of ars lo) []) in *.
  assert (Vr : vrow s r) by (apply nth_Forall; auto; lia).
  assert (Ef : nth 0 (all_rows_of (skipn i ars) lo) [] = r).
  { unfold r, all_rows_of. destruct (Nat.eq_dec i (length ars)) as [->|Hn].
    - rewrite skipn_all. cbn. rewrite app_nth2 by (rewrite map_length; lia). rewrite map_length, Nat.sub_diag. reflexivity.
    - destruct ars as [|d ars']; [cbn in Hi, Hn; lia|]. set (ars0 := d :: ars') in *.
      rewrite (skipn_cons_nth ars0 i d) by lia. cbn [map app nth]. rewrite app_nth1 by (rewrite map_length; lia).
      rewrite (nth_indep _ [] (fst d)) by (rewrite map_length; lia). rewrite map_nth. reflexivity. }
  rewrite Ef in R. rewrite E. f_equal. f_equal. apply (brep_eq s ars lo); auto.
  apply brep_vrows in H as [F V].
  rewrite (moved_self s) in R by auto.
  assert (Em : map (fun ra => (moved r r (fst ra), snd ra)) (skipn i ars) = skipn i ars).
  { rewrite <- (map_id (skipn i ars)) at 2. apply map_ext_in. intros [x y] Hx. cbn [fst snd]. f_equal.
    apply (moved_self s); auto. rewrite Forall_forall in F. apply F. apply in_map_iff. exists (x, y). split; auto.
    rewrite <- (firstn_skipn i ars). apply in_or_app; auto. }
  rewrite Em, firstn_skipn in R. exact R.
Qed.

(** ** Other operations *)

Lemma brep_pre_multiply s ars lo b t : brep s ars lo b -> vrow s t ->
  exists b', block_pre_multiply b t = Ret (b', Ok tt) /\
    brep s (map (fun ra => (row_product t (fst ra), snd ra)) ars) (row_product t lo) b'.
Proof.
  intros H Ht. unfold block_pre_multiply. destruct (ssv_pre_multiply_ok s _ _ t (proj1 H) Ht) as (v & E & R).
  rewrite E. cbn [bind]. eexists; split; [reflexivity|]. split; cbn [blk_rows blk_annots].
  - rewrite map_app, map_map in R. rewrite map_map. exact R.
  - rewrite map_map. apply H.
Qed.

Lemma brep_pre_multiply_err s ars lo b t : brep s ars lo b -> valid_row t -> length t <> s ->
  block_pre_multiply b t = Ret (b, Err (IncompatibleStages (length t) s)).
Proof.
  intros H Ht Hn. unfold block_pre_multiply. erewrite ssv_pre_multiply_err by (eauto; apply H). cbn [bind].
  destruct b; reflexivity.
Qed.

Lemma brep_set_annot s ars lo b i x r a : brep s ars lo b -> nth_error ars i = Some (r, a) ->
  exists b', block_set_annot b i x = Some b' /\ brep s (replace_nth ars i (r, x)) lo b'.
Proof.
  intros H N. unfold block_set_annot. rewrite (proj2 H), nth_error_map, N. cbn [option_map].
  eexists; split; [reflexivity|]. apply nth_error_split in N as (l1 & l2 & -> & <-).
  rewrite replace_nth_split. split; cbn [blk_rows blk_annots].
  - rewrite map_app. cbn [map fst]. destruct H as [H _]. rewrite map_app in H. exact H.
  - rewrite !map_app. cbn [map snd]. rewrite <- (map_length snd l1).
    generalize (map snd l1). intros l. induction l as [|y l IH]; cbn; auto. f_equal; auto.
Qed.

Lemma brep_map_annots s ars lo b f : brep s ars lo b ->
  brep s (map (fun ira => (fst (snd ira), f (fst ira) (snd (snd ira)))) (combine (seq 0 (length ars)) ars)) lo
    (block_map_annots_with_index b f).
Proof.
  intros H. unfold block_map_annots_with_index. split; cbn [blk_rows blk_annots].
  - rewrite map_map. cbn [fst]. assert (E : map (fun x => fst (snd x)) (combine (seq 0 (length ars)) ars) = map fst ars).
    { generalize 0. clear. induction ars as [|x ars IH]; intros k; cbn; auto. f_equal; auto. }
    rewrite E. apply H.
  - rewrite (proj2 H), map_map. cbn [snd]. unfold enumerate. generalize 0. clear.
    induction ars as [|x ars IH]; intros k; cbn; auto. f_equal; auto.
Qed.

Lemma block_extend_range_whole s' ars' lo' (b o : block A) lo_ hi_ : brep s' ars' lo' o ->
  range_start lo_ = 0 -> range_end hi_ (length ars') = length ars' ->
  block_extend_range b o lo_ hi_ = block_extend b o.
Proof.
  intros Ho E1 E2. unfold block_extend, block_extend_range, clamp_range. erewrite brep_len by eauto.
  unfold range_start in E1. unfold range_end in E2.
  destruct lo_ as [x|x|], hi_ as [y|y|]; cbn [Nat.add] in *; rewrite ?E1, ?E2; auto; lia.
Qed.

(** A range which is not inside the block makes [extend_from_within] panic. *)
Lemma idx_only {B} (l : list B) i : (exists x, idx l i = Ret x) \/ idx l i = Panic.
Proof. unfold idx. destruct (nth_error l i); eauto. Qed.

Lemma foldM_idx_only t l : forall bells,
  (exists x, foldM (fun bells i => x <- idx bells i;; y <- idx t x;; Ret (bells ++ [y])) l bells = Ret x) \/
  foldM (fun bells i => x <- idx bells i;; y <- idx t x;; Ret (bells ++ [y])) l bells = Panic.
Proof.
  induction l as [|i l IH]; intros bells; cbn [foldM]; [eauto|].
  destruct (idx_only bells i) as [(x & ->)|E]; [|rewrite E; auto]. cbn [bind].
  destruct (idx_only t x) as [(y & ->)|E]; [|rewrite E; auto]. cbn [bind]. apply IH.
Qed.

Lemma ssv_from_within_only s rs v lo hi t : rep s rs v -> valid_row t ->
  (exists x, ssv_extend_transposed_from_within v lo hi t = Ret x) \/ ssv_extend_transposed_from_within v lo hi t = Panic.
Proof.
  intros R V. unfold ssv_extend_transposed_from_within. rewrite valid_row_stage by auto. cbn [bind].
  destruct (test_err _ _); [|eauto]. unfold to_bell_range. erewrite ssv_len_ok by eauto. cbn [bind].
  destruct (clamp_range lo hi (length rs)) as [x y]. cbn [bind].
  destruct (foldM_idx_only t (range (x * ssv_stage v) (y * ssv_stage v)) (ssv_bells v)) as [(z & ->)|E]; [cbn; eauto|rewrite E; auto].
Qed.

Lemma brep_from_within_panic s ars lo b lo_ hi_ : brep s ars lo b ->
  let a := range_start lo_ in let e := range_end hi_ (length ars) in
  ~ (a <= e /\ e <= length ars) -> block_extend_from_within b lo_ hi_ = Panic.
Proof.
  intros H a e Hae.
  pose proof (brep_vrows _ _ _ _ H) as [F V]. pose proof (all_rows_vrow _ _ _ _ H) as Fr.
  unfold block_extend_from_within. erewrite brep_len by eauto. unfold clamp_range.
  change (match lo_ with Included y => y | Excluded z => z + 1 | Unbounded => 0 end) with a.
  change (match hi_ with Included y => y + 1 | Excluded z => z | Unbounded => length ars end) with e.
  erewrite brep_get_row by eauto.
  destruct (nth_error (all_rows_of ars lo) a) as [first|] eqn:N; cbn [unwrap bind]; auto.
  assert (Vf : vrow s first). { rewrite Forall_forall in Fr. apply Fr. eapply nth_error_In; eauto. }
  erewrite brep_leftover by eauto. cbn [bind]. rewrite (solve_xa_ok s) by auto. cbn [bind unwrap_res].
  set (t := rmul lo (rinv first)).
  assert (Ht : vrow s t) by (apply valid_rmul; auto; apply valid_rinv; auto).
  destruct (ssv_from_within_only s _ (blk_rows b) (Included (a + 1)) (Excluded (e + 1)) t (proj1 H) (proj1 Ht)) as [([rows res] & ->)|E];
    [|rewrite E; auto]. cbn [bind].
  destruct res; cbn [unwrap_res bind]; auto. rewrite (proj2 H). unfold slice. rewrite map_length.
  destruct (Nat.leb_spec a e); destruct (Nat.leb_spec e (length ars)); cbn; auto. lia.
Qed.

Lemma brep_call s ars lo b op st' out : brep s ars lo b -> block_op_args_valid op ->
  block_step s (ars, lo) op = Some (st', out) ->
  exists b', block_call b op = Ret (b', out) /\ brep s (fst st') (snd st') b'.
Proof.
  intros H V E. destruct op; cbn [block_step block_call block_op_args_valid] in *.
  - destruct (Nat.eqb_spec (length t) s) as [L|L]; injection E as <- <-; cbn [fst snd].
    + destruct (brep_pre_multiply s ars lo b t H) as (b' & E' & R); [split; auto|]. rewrite E'. cbn. eauto.
    + erewrite brep_pre_multiply_err by eauto. cbn. eauto.
  - destruct (block_build_ok other V) as (ob & E' & R). rewrite E'. cbn [bind unwrap].
    destruct (Nat.eqb_spec (ba_stage other) s) as [L|L]; injection E as <- <-; cbn [fst snd].
    + rewrite L in R. destruct (brep_extend s ars lo b _ _ ob H R) as (b' & E2 & R2). rewrite E2. cbn [bind block_res].
      exists b'. split; auto. destruct V as (_ & N & _).
      assert (Ef : nth 0 (all_rows_of (arg_annot_rows other) (arg_leftover other)) [] = hd [] (ba_rows other)).
      { unfold all_rows_of, arg_annot_rows, arg_leftover. destruct (ba_rows other) as [|r0 rs]; [congruence|].
        destruct rs as [|r1 rs]; reflexivity. }
      rewrite Ef in R2. exact R2.
    + erewrite brep_extend_err by eauto. cbn. eauto.
  - destruct V as (V & V1 & V2). destruct (block_build_ok other V) as (ob & E' & R). rewrite E'. cbn [bind unwrap].
    assert (Lo : length (arg_annot_rows other) = length (ba_rows other) - 1).
    { destruct V as (_ & N & _). unfold arg_annot_rows. rewrite combine_length, map_length, seq_length.
      destruct (@exists_last _ (ba_rows other) N) as (l & y & ->). rewrite removelast_last, app_length. cbn. lia. }
    rewrite <- Lo in V2. erewrite block_extend_range_whole by eauto.
    destruct (Nat.eqb_spec (ba_stage other) s) as [L|L]; injection E as <- <-; cbn [fst snd].
    + rewrite L in R. destruct (brep_extend s ars lo b _ _ ob H R) as (b' & E2 & R2). rewrite E2. cbn [bind block_res].
      exists b'. split; auto. destruct V as (_ & N & _).
      assert (Ef : nth 0 (all_rows_of (arg_annot_rows other) (arg_leftover other)) [] = hd [] (ba_rows other)).
      { unfold all_rows_of, arg_annot_rows, arg_leftover. destruct (ba_rows other) as [|r0 rs]; [congruence|].
        destruct rs as [|r1 rs]; reflexivity. }
      rewrite Ef in R2. exact R2.
    + erewrite brep_extend_err by eauto. cbn. eauto.
  - destruct (_ && _) eqn:B in E; [|discriminate]. injection E as <- <-. apply spec_range_cases in B as [B1 B2].
    destruct (brep_from_within s ars lo b lo0 hi H B1 B2) as (b' & E' & R). rewrite E'. cbn. eauto.
  - destruct (nth_error ars i) as [[r a]|] eqn:N; injection E as <- <-; cbn [fst snd].
    + destruct (brep_set_annot s ars lo b i x r a H N) as (b' & E' & R). rewrite E'. cbn. eauto.
    + unfold block_set_annot. rewrite (proj2 H), nth_error_map, N. cbn. eauto.
  - injection E as <- <-. cbn [fst snd]. eexists; split; [reflexivity|]. apply brep_map_annots; auto.
  - destruct (Nat.leb_spec i (length ars)) as [L|L]; injection E as <- <-; cbn [fst snd].
    + destruct (brep_split s ars lo b i H L) as (b1 & b2 & E' & R1 & R2). rewrite E'. cbn. eauto.
    + erewrite brep_split_none by eauto. cbn. eauto.
  - destruct (Nat.leb_spec i (length ars)) as [L|L]; injection E as <- <-; cbn [fst snd].
    + destruct (brep_split s ars lo b i H L) as (b1 & b2 & E' & R1 & R2). rewrite E'. cbn. eauto.
    + erewrite brep_split_none by eauto. cbn. eauto.
  - injection E as <- <-. erewrite brep_len by eauto. cbn. eauto.
  - injection E as <- <-. unfold block_is_empty. rewrite (proj2 H).
    exists b. split; auto. destruct ars; reflexivity.
  - injection E as <- <-. erewrite brep_get_row by eauto. cbn. eauto.
  - injection E as <- <-. erewrite brep_get_annot by eauto. cbn. eauto.
  - injection E as <- <-. erewrite brep_get_annot_row by eauto. cbn. eauto.
  - injection E as <- <-. destruct (brep_first_row s ars lo b H) as (r & E' & N). rewrite E'. cbn [bind]. rewrite <- N. eauto.
  - injection E as <- <-. unfold block_first_annot_row. erewrite brep_get_annot_row by eauto. cbn. eauto.
  - injection E as <- <-. erewrite brep_leftover by eauto. cbn. eauto.
  - injection E as <- <-. erewrite brep_rows by eauto. cbn. eauto.
  - injection E as <- <-. erewrite brep_all_rows by eauto. cbn. eauto.
  - injection E as <- <-. erewrite brep_annot_rows by eauto. cbn. eauto.
Qed.

Lemma brep_calls s ops : forall st b st' outs, brep s (fst st) (snd st) b -> Forall block_op_args_valid ops ->
  block_run s st ops = Some (st', outs) ->
  exists b', block_calls b ops = Ret (b', outs) /\ brep s (fst st') (snd st') b'.
Proof.
  induction ops as [|op ops IH]; intros [ars lo] b st' outs H V E; cbn [block_run block_calls] in *.
  - injection E as <- <-. eauto.
  - inversion V; subst. destruct (block_step s (ars, lo) op) as [[st1 o]|] eqn:E1; [|discriminate].
    destruct (block_run s st1 ops) as [[st2 os]|] eqn:E2; [|discriminate]. injection E as <- <-.
    destruct (brep_call s ars lo b op st1 o H) as (b1 & C1 & R1); auto. rewrite C1. cbn [bind].
    destruct (IH st1 b1 st2 os R1) as (b2 & C2 & R2); auto. rewrite C2. cbn [bind]. eauto.
Qed.

Lemma brep_calls_panic s ops : forall st b, brep s (fst st) (snd st) b -> Forall block_op_args_valid ops ->
  block_run s st ops = None -> block_calls b ops = Panic.
Proof.
  induction ops as [|op ops IH]; intros [ars lo] b H V E; cbn [block_run block_calls] in *; [discriminate|]. cbn [fst snd] in H.
  inversion V as [|? ? Vo Vr]; subst. destruct (block_step s (ars, lo) op) as [[st1 o]|] eqn:E1.
  - destruct (brep_call s ars lo b op st1 o H) as (b1 & C1 & R1); auto. rewrite C1. cbn [bind].
    destruct (block_run s st1 ops) as [[st2 os]|] eqn:E2; [discriminate|]. rewrite (IH st1 b1); auto.
  - assert (block_call b op = Panic) as ->; [|reflexivity].
    destruct op; cbn [block_step] in E1; try discriminate E1;
      try (destruct (_ =? _) in E1; discriminate E1); try (destruct (_ <=? _) in E1; discriminate E1).
    + destruct (_ && _) eqn:B in E1; [discriminate|]. cbn [block_call]. erewrite brep_from_within_panic; [reflexivity|exact H|].
      intros [B1 B2]. apply Nat.leb_le in B1, B2. rewrite B1, B2 in B. discriminate.
    + destruct (nth_error ars i) as [[? ?]|]; discriminate.
Qed.

(** ** Paths and effective stage *)

Lemma brep_path s ars lo b x : brep s ars lo b -> x < s ->
  exists p l, block_path_of b x = Ret (Some (p, l)) /\ block_full_path_of b x = Ret (Some (p ++ [l])) /\
    Forall2 (fun r i => nth_error r i = Some x) (map fst ars) p /\ nth_error lo l = Some x.
Proof.
  intros H Hx. unfold block_path_of, block_full_path_of.
  destruct (ssv_path_ok s _ _ x (proj1 H) Hx) as (full & E & F). rewrite E. cbn [bind].
  apply Forall2_app_inv_l in F as (p & l & F1 & F2 & ->). inversion F2 as [|? l0 ? l' Hl F3]; subst. inversion F3; subst.
  rewrite rev_app_distr. cbn [rev app]. rewrite rev_involutive. exists p, l0. splits; auto.
Qed.

Lemma fold_max_spec l : forall s, (In (fold_left Nat.max l s) (s :: l)) /\ (forall x, In x (s :: l) -> x <= fold_left Nat.max l s).
Proof.
  induction l as [|y l IH]; intros s; cbn [fold_left].
  - split; [left; auto|]. intros x [->|[]]; auto.
  - destruct (IH (Nat.max s y)) as [I1 I2]. split.
    + destruct I1 as [I1|I1].
      * rewrite <- I1. destruct (Nat.max_spec s y) as [[_ ->]|[_ ->]]; [right; left; auto|left; auto].
      * right; right; auto.
    + intros x Hx. pose proof (I2 (Nat.max s y) (or_introl eq_refl)) as K.
      destruct Hx as [->|[->|Hx]].
      * lia.
      * lia.
      * apply I2. right; auto.
Qed.

Lemma brep_effective_stage s ars lo b : brep s ars lo b ->
  exists e, block_effective_stage b = Ret e /\
    (exists r, In r (all_rows_of ars lo) /\ effective_stage r = Ret e) /\
    (forall r, In r (all_rows_of ars lo) -> exists e', effective_stage r = Ret e' /\ e' <= e).
Proof.
  intros H. unfold block_effective_stage. pose proof (brep_all_rows _ _ _ _ H) as E. unfold block_all_rows in E. rewrite E. cbn [bind].
  assert (G : forall l, exists es, mapM effective_stage l = Ret es /\ Forall2 (fun r e => effective_stage r = Ret e) l es).
  { induction l as [|r l (es & E1 & F1)]; cbn [mapM]; eauto.
    destruct (effective_stage_spec r) as (e & Ee & _). rewrite Ee, E1. cbn [bind]. eauto. }
  destruct (G (all_rows_of ars lo)) as (es & E1 & F). rewrite E1. cbn [bind].
  destruct es as [|e0 es].
  { inversion F. unfold all_rows_of in *. destruct (map fst ars); discriminate. }
  cbn [unwrap]. destruct (fold_max_spec es e0) as [I1 I2]. eexists; splits; [reflexivity| |].
  - apply In_nth_error in I1 as [i Hi]. destruct (Forall2_nth_error_r _ _ _ _ _ F Hi) as (r & Hr & Er).
    exists r. split; auto. eapply nth_error_In; eauto.
  - intros r Hr. apply In_nth_error in Hr as [i Hi]. destruct (Forall2_nth_error_l _ _ _ _ _ F Hi) as (e & He & Er).
    exists e. split; auto. apply I2. eapply nth_error_In; eauto.
Qed.

(** ** RepeatIter *)

Definition ri_state (s : nat) (ars : list (row * A)) (lo : row) (ri : repeat_iter A) (head : row) (i : nat) : Prop :=
  brep s ars lo (ri_block ri) /\ ri_head ri = head /\ vrow s head /\ i <= length ars /\
  ri_iter ri = InnerIter i (SsvIter (concat (map fst (skipn i ars))) s) (map snd (skipn i ars)).

Lemma get_iter_ok s ars lo b : brep s ars lo b ->
  get_iter b = Ret (InnerIter 0 (SsvIter (concat (map fst ars)) s) (map snd ars)).
Proof.
  intros H. unfold get_iter. destruct (brep_rows_iter _ _ _ _ H) as (E & _). rewrite E. cbn [bind].
  rewrite (proj2 H). reflexivity.
Qed.

Lemma ii_next_ok s ars i : 0 < s -> Forall (vrow s) (map fst ars) -> i <= length ars ->
  ii_next (InnerIter i (SsvIter (concat (map fst (skipn i ars))) s) (map snd (skipn i ars))) =
  Ret (match nth_error ars i with Some ra => Some (i, ra) | None => None end,
       let j := Nat.min (i + 1) (length ars) in
       InnerIter j (SsvIter (concat (map fst (skipn j ars))) s) (map snd (skipn j ars))).
Proof.
  intros Hs F Hi. unfold ii_next. cbn [ii_rows ii_annots ii_count].
  rewrite it_next_ok; auto. 2: { rewrite <- skipn_map. apply Forall_skipn; auto. }
  cbn [bind]. destruct (nth_error ars i) as [[r a]|] eqn:N.
  - assert (L : i < length ars) by (apply nth_error_Some; congruence).
    rewrite (skipn_cons_nth ars i (r, a)) by auto. rewrite (nth_error_nth ars i (r, a) N). cbn [map nth_error fst snd skipn].
    rewrite Nat.min_l by lia. rewrite Nat.add_1_r. reflexivity.
  - apply nth_error_None in N. assert (i = length ars) by lia. subst i. rewrite skipn_all. cbn.
    rewrite Nat.min_r by lia. rewrite skipn_all. reflexivity.
Qed.

(** one step in the middle of the block, or starting the next copy of it *)
Lemma next_untransposed_ok s ars lo ri head i : ri_state s ars lo ri head i -> ars <> [] ->
  let head' := if i <? length ars then head else rmul head lo in
  let i' := if i <? length ars then i else 0 in
  exists ri' ra, next_untransposed_row ri = Ret (Some (i', ra), ri') /\ nth_error ars i' = Some ra /\
    ri_state s ars lo ri' head' (i' + 1).
Proof.
  intros (H & Hh & Vh & Hi & Ei) N head' i'. pose proof (brep_vrows _ _ _ _ H) as [F V].
  assert (Hs : 0 < s) by (eapply rep_pos, H).
  unfold next_untransposed_row. rewrite Ei, ii_next_ok by auto. cbn [bind]. subst head' i'.
  destruct (Nat.ltb_spec i (length ars)) as [L|L].
  - destruct (nth_error ars i) as [ra|] eqn:Ni; [|apply nth_error_None in Ni; lia].
    eexists _, ra. splits; [reflexivity|auto|]. unfold ri_state. cbn [ri_block ri_head ri_iter]. splits; auto; try lia.
    rewrite Nat.min_l by lia. reflexivity.
  - replace (nth_error ars i) with (@None (row * A)) by (symmetry; apply nth_error_None; lia).
    erewrite brep_leftover by eauto. cbn [bind]. rewrite Hh. rewrite (row_mul_ok s) by auto. cbn [bind].
    erewrite get_iter_ok by eauto. cbn [bind].
    pose proof (ii_next_ok s ars 0 Hs F ltac:(lia)) as E0. cbn [skipn] in E0. rewrite E0. cbn [bind].
    destruct ars as [|ra ars']; [congruence|]. cbn [nth_error]. eexists _, ra. splits; [reflexivity|auto|].
    unfold ri_state. cbn [ri_block ri_head ri_iter]. splits; auto.
    + apply valid_rmul; auto.
    + cbn [length]. lia.
Qed.

Lemma next_untransposed_empty s lo ri head : ri_state s [] lo ri head 0 ->
  exists ri', next_untransposed_row ri = Ret (None, ri') /\ ri_state s [] lo ri' (rmul head lo) 0.
Proof.
  intros (H & Hh & Vh & Hi & Ei). pose proof (brep_vrows _ _ _ _ H) as [F V].
  assert (Hs : 0 < s) by (eapply rep_pos, H).
  unfold next_untransposed_row. rewrite Ei, ii_next_ok by auto. cbn [bind nth_error].
  erewrite brep_leftover by eauto. cbn [bind]. rewrite Hh, (row_mul_ok s) by auto. cbn [bind].
  erewrite get_iter_ok by eauto. cbn [bind map concat]. unfold ii_next. cbn [ii_rows ii_annots it_next it_left bind].
  eexists; split; [reflexivity|]. unfold ri_state. cbn [ri_block ri_head ri_iter]. splits; auto. apply valid_rmul; auto.
Qed.

Lemma repeat_new_ok s ars lo b start : brep s ars lo b -> vrow s start ->
  exists ri, repeat_iter_new start b = Ret (Ok ri) /\ ri_state s ars lo ri start 0.
Proof.
  intros H V. unfold repeat_iter_new. rewrite valid_row_stage by apply V. cbn [bind].
  unfold test_err, block_stage. rewrite (proj1 (proj2 (proj1 H))), (proj2 V), Nat.eqb_refl.
  erewrite get_iter_ok by eauto. cbn [bind]. eexists; split; [reflexivity|]. unfold ri_state. cbn. splits; auto. lia.
Qed.

Lemma repeat_new_err s ars lo b start : brep s ars lo b -> valid_row start -> length start <> s ->
  repeat_iter_new start b = Ret (Err (IncompatibleStages (length start) s)).
Proof.
  intros H V Hn. unfold repeat_iter_new. rewrite valid_row_stage by auto. cbn [bind].
  unfold test_err, block_stage. rewrite (proj1 (proj2 (proj1 H))), (proj2 (Nat.eqb_neq _ _)) by auto. reflexivity.
Qed.

(** the item at index [k] counted from the start of the current copy *)
Definition item (ars : list (row * A)) (lo head : row) (k : nat) : option (row * nat * A) :=
  match nth_error ars (k mod length ars) with
  | None => None
  | Some (r, a) => Some (rmul (rmul head (rpow lo (k / length ars))) r, k mod length ars, a)
  end.

Lemma item_shift s ars lo head k : ars <> [] -> vrow s lo -> vrow s head -> Forall (vrow s) (map fst ars) ->
  item ars lo head (length ars + k) = item ars lo (rmul head lo) k.
Proof.
  intros N V Vh F. unfold item. assert (L : length ars <> 0) by (destruct ars; [congruence|cbn; lia]).
  replace (length ars + k) with (k + 1 * length ars) by lia. rewrite Nat.mod_add, Nat.div_add by auto.
  destruct (nth_error ars (k mod length ars)) as [[r a]|] eqn:E; auto. f_equal. f_equal. f_equal. f_equal.
  rewrite Nat.add_1_r. cbn [rpow].
  pose proof (vrow_rpow s lo (k / length ars) V) as Vp.
  rewrite (rmul_assoc_vrow s head lo) by auto. f_equal.
  symmetry. apply (rpow_comm s); auto.
Qed.

Lemma repeat_run_ok s ars lo sched : ars <> [] -> forall ri head i, ri_state s ars lo ri head i ->
  exists outs ri', repeat_run ri sched = Ret (outs, ri') /\
    outs = map (fun k => item ars lo head (i + k)) (seq 0 (length sched)).
Proof.
  intros N. induction sched as [|c sched IH]; intros ri head i H; cbn [repeat_run length seq map].
  - eauto.
  - pose proof H as (Hb & Hh & Vh & Hi & Ei). pose proof (brep_vrows _ _ _ _ Hb) as [F V].
    assert (L : 0 < length ars) by (destruct ars; [congruence|cbn; lia]).
    destruct (next_untransposed_ok s ars lo ri head i H N) as (ri1 & [r a] & E1 & N1 & H1).
    set (head' := if i <? length ars then head else rmul head lo) in *.
    set (i' := if i <? length ars then i else 0) in *.
    assert (Hi' : i' < length ars) by (apply nth_error_Some; congruence).
    assert (Vr : vrow s r).
    { rewrite Forall_forall in F. apply F. apply in_map_iff. exists (r, a). split; auto. eapply nth_error_In; eauto. }
    assert (K : forall k, item ars lo head (i + k) = item ars lo head' (i' + k)).
    { intros k. subst head' i'. destruct (Nat.ltb_spec i (length ars)); auto.
      assert (i = length ars) by lia. subst i. apply (item_shift s); auto. }
    assert (Vh' : vrow s head'). { subst head'. destruct (i <? length ars); auto. apply valid_rmul; auto. }
    assert (I0 : item ars lo head (i + 0) = Some (rmul head' r, i', a)).
    { rewrite K, Nat.add_0_r. unfold item. rewrite Nat.mod_small, Nat.div_small, N1 by auto. cbn [rpow].
      rewrite (proj2 V). rewrite rmul_rounds_r by apply Vh'. reflexivity. }
    assert (Rest : exists os ri2, repeat_run ri1 sched = Ret (os, ri2) /\
              os = map (fun k => item ars lo head (i + k)) (seq 1 (length sched))).
    { destruct (IH ri1 head' (i' + 1) H1) as (os & ri2 & E2 & R2). exists os, ri2. split; auto. rewrite R2.
      rewrite <- seq_shift, map_map. apply map_ext. intros k. rewrite K. f_equal. lia. }
    destruct Rest as (os & ri2 & E2 & R2).
    destruct H1 as (Hb1 & Hh1 & _).
    destruct c as [out|].
    + unfold repeat_iter_next_into. rewrite E1. cbn [bind]. rewrite Hh1. rewrite (mul_into_ok s) by auto.
      cbn [bind unwrap_res]. rewrite E2. cbn [bind option_map fst snd]. rewrite I0, <- R2. eauto.
    + unfold repeat_iter_next. rewrite E1. cbn [bind]. rewrite Hh1. rewrite (row_mul_ok s) by auto.
      cbn [bind]. rewrite E2. cbn [bind]. rewrite I0, <- R2. eauto.
Qed.

Lemma repeat_run_empty s lo sched : forall ri head, ri_state s [] lo ri head 0 ->
  exists ri', repeat_run ri sched = Ret (repeat None (length sched), ri').
Proof.
  induction sched as [|c sched IH]; intros ri head H; cbn [repeat_run length repeat]; eauto.
  destruct (next_untransposed_empty s lo ri head H) as (ri1 & E1 & H1).
  destruct (IH ri1 _ H1) as (ri2 & E2).
  destruct c; [unfold repeat_iter_next_into|unfold repeat_iter_next]; rewrite E1; cbn [bind]; rewrite E2; cbn; eauto.
Qed.
End BlockFacts.

Lemma In_firstn {X} n (l : list X) x : In x (firstn n l) -> In x l.
Proof. intros H. rewrite <- (firstn_skipn n l). apply in_or_app; auto. Qed.
Lemma In_skipn {X} n (l : list X) x : In x (skipn n l) -> In x l.
Proof. intros H. rewrite <- (firstn_skipn n l). apply in_or_app; auto. Qed.

(** closes [block_arg_valid] of a literal *)
Ltac bav := unfold block_arg_valid; cbn [ba_stage ba_rows]; split; [lia|split; [discriminate|]];
  repeat (apply Forall_cons; [split; [vr|reflexivity]|]); apply Forall_nil.
