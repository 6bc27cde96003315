(** Proofs about [SameStageVec]. *)
From Verif Require Import Base Bell Stage Row Utils SameStageVec Spec SpecVec ListFacts BellFacts
  RowFacts MulFacts GroupFacts.
Local Open Scope list_scope.

Definition rep (s : nat) (rs : list row) (v : ssv) : Prop :=
  0 < s /\ ssv_stage v = s /\ Forall (vrow s) rs /\ ssv_bells v = concat rs.

(** ** Lists of blocks of equal length *)

Section Blocks.
Context {A : Type} (s : nat).
Implicit Types (rs : list (list A)).

Lemma concat_length_eq rs : Forall (fun r => length r = s) rs -> length (concat rs) = length rs * s.
Proof. induction 1 as [|r t Hr Ht IH]; cbn; auto. rewrite app_length, IH, Hr. lia. Qed.

Lemma firstn_concat rs i : Forall (fun r => length r = s) rs -> firstn (i * s) (concat rs) = concat (firstn i rs).
Proof.
  intros H. revert i. induction H as [|r t Hr Ht IH]; intros i.
  - cbn. rewrite !firstn_nil. reflexivity.
  - destruct i as [|i]; cbn [firstn concat Nat.mul]; auto.
    rewrite firstn_app, Hr. replace (s + i * s - s) with (i * s) by lia. rewrite IH.
    rewrite firstn_all2 by lia. reflexivity.
Qed.

Lemma skipn_concat rs i : Forall (fun r => length r = s) rs -> skipn (i * s) (concat rs) = concat (skipn i rs).
Proof.
  intros H. revert i. induction H as [|r t Hr Ht IH]; intros i.
  - cbn. rewrite !skipn_nil. reflexivity.
  - destruct i as [|i]; cbn [skipn concat Nat.mul]; auto.
    rewrite skipn_app, Hr. replace (s + i * s - s) with (i * s) by lia. rewrite IH.
    rewrite skipn_all2 by lia. reflexivity.
Qed.

Lemma Forall_firstn {B} (P : B -> Prop) n l : Forall P l -> Forall P (firstn n l).
Proof. intros H. rewrite <- (firstn_skipn n l) in H. apply Forall_app in H. apply H. Qed.

Lemma Forall_skipn {B} (P : B -> Prop) n l : Forall P l -> Forall P (skipn n l).
Proof. intros H. rewrite <- (firstn_skipn n l) in H. apply Forall_app in H. apply H. Qed.

Lemma block_at rs i r : Forall (fun r => length r = s) rs -> nth_error rs i = Some r ->
  firstn s (skipn (i * s) (concat rs)) = r.
Proof.
  intros H E. rewrite skipn_concat by auto.
  apply nth_error_split in E as (l1 & l2 & -> & <-).
  rewrite skipn_app, skipn_all, Nat.sub_diag. cbn [skipn app concat].
  apply Forall_app in H as [_ H]. inversion H; subst. rewrite firstn_app, firstn_all, Nat.sub_diag.
  cbn. apply app_nil_r.
Qed.

Lemma sublist_concat rs a b : Forall (fun r => length r = s) rs -> a <= b ->
  firstn (b * s - a * s) (skipn (a * s) (concat rs)) = concat (firstn (b - a) (skipn a rs)).
Proof.
  intros H L. rewrite skipn_concat by auto. rewrite <- Nat.mul_sub_distr_r.
  apply firstn_concat. apply Forall_skipn; auto.
Qed.
End Blocks.

Lemma vrow_lengths s rs : Forall (vrow s) rs -> Forall (fun r => length r = s) rs.
Proof. apply Forall_impl. intros r H; apply H. Qed.

(** ** The representation relation *)

Lemma rep_length s rs v : rep s rs v -> length (ssv_bells v) = length rs * s.
Proof. intros (_ & _ & H & ->). apply concat_length_eq, vrow_lengths; auto. Qed.

Lemma rep_intro s rs v : 0 < s -> Forall (vrow s) rs -> ssv_bells v = concat rs -> ssv_stage v = s -> rep s rs v.
Proof. intros; unfold rep; splits; auto. Qed.

Lemma it_collect_ok s rs : 0 < s -> Forall (vrow s) rs -> forall fuel, length rs < fuel ->
  it_collect fuel (SsvIter (concat rs) s) = Ret rs.
Proof.
  intros Hs H. induction H as [|r t Hr Ht IH]; intros fuel Hf; (destruct fuel as [|fuel]; [cbn in Hf; lia|]).
  - reflexivity.
  - cbn [it_collect]. unfold it_next. cbn [it_left it_stage].
    destruct (concat (r :: t)) as [|x l] eqn:E.
    + exfalso. cbn in E. apply app_eq_nil in E as [E _]. subst r. destruct Hr as [_ Hr]. cbn in Hr; lia.
    + rewrite <- E. unfold split_at. rewrite (proj2 (Nat.leb_le s _)).
      2: { cbn. rewrite app_length, (proj2 Hr). lia. }
      cbn [bind concat]. rewrite firstn_app, skipn_app, (proj2 Hr), Nat.sub_diag.
      rewrite firstn_all2, skipn_all2 by (rewrite (proj2 Hr); lia). cbn [firstn skipn app]. rewrite app_nil_r.
      cbn [bind]. rewrite IH by (cbn in Hf; lia). reflexivity.
Qed.

Lemma it_collect_concat fuel : forall l s rs, it_collect fuel (SsvIter l s) = Ret rs -> l = concat rs.
Proof.
  induction fuel as [|fuel IH]; intros l s rs H; [discriminate|]. cbn [it_collect] in H.
  unfold it_next in H. cbn [it_left it_stage] in H. destruct l as [|x l]; cbn [bind] in H.
  - injection H as <-. reflexivity.
  - unfold split_at in H. destruct (s <=? length (x :: l)); cbn [bind] in H; [|discriminate].
    destruct (it_collect fuel _) as [rest| | |] eqn:E; cbn [bind] in H; try discriminate.
    injection H as <-. apply IH in E. cbn [concat]. rewrite <- E, firstn_skipn. reflexivity.
Qed.

Lemma rep_rows s rs v : rep s rs v -> ssv_rows v = Ret rs.
Proof.
  intros H. pose proof (rep_length _ _ _ H) as L. destruct H as (Hs & Hst & H & E).
  unfold ssv_rows, ssv_iterator. rewrite Hst, E. rewrite E in L. apply it_collect_ok; auto.
  rewrite L. nia.
Qed.

Lemma holds_rep v s rs : holds v s rs <-> rep s rs v.
Proof.
  split.
  - intros (Hs & Hst & H & E). unfold rep; splits; auto. unfold ssv_rows, ssv_iterator in E. apply it_collect_concat in E. exact E.
  - intros H. pose proof (rep_rows _ _ _ H). destruct H as (Hs & Hst & H & E). unfold holds; splits; auto.
Qed.

Lemma rep_new s : 0 < s -> rep s [] (ssv_new s).
Proof. intros H. unfold rep, ssv_new; splits; auto. Qed.

Lemma rep_from_row r : valid_row r -> exists v, ssv_from_row_buf r = Ret v /\ rep (length r) [r] v.
Proof.
  intros H. unfold ssv_from_row_buf. rewrite valid_row_stage by auto. cbn [bind]. eexists; split; [reflexivity|].
  unfold rep; splits; auto.
  - apply valid_row_pos; auto.
  - constructor; [split; auto|constructor].
  - cbn. rewrite app_nil_r. auto.
Qed.

(** ** Getters *)

Lemma ssv_len_ok s rs v : rep s rs v -> ssv_len v = Ret (length rs).
Proof.
  intros H. pose proof (rep_length _ _ _ H) as L. destruct H as (Hs & Hst & H & E).
  unfold ssv_len. rewrite Hst, L. destruct (Nat.eqb_spec s 0); [lia|].
  rewrite Nat.mod_mul by lia. cbn. rewrite Nat.div_mul by lia. reflexivity.
Qed.

Lemma ssv_is_empty_ok s rs v : rep s rs v -> ssv_is_empty v = (length rs =? 0).
Proof.
  intros H. pose proof (rep_length _ _ _ H) as L. destruct H as (Hs & Hst & H & E).
  unfold ssv_is_empty. destruct (ssv_bells v) as [|b l]; cbn [length] in L.
  - symmetry. apply Nat.eqb_eq. nia.
  - symmetry. apply Nat.eqb_neq. intros C. rewrite C in L. lia.
Qed.

Lemma ssv_get_ok s rs v i : rep s rs v -> ssv_get v i = nth_error rs i.
Proof.
  intros H. pose proof (rep_length _ _ _ H) as L. destruct H as (Hs & Hst & H & E).
  unfold ssv_get, get_range_of_row. rewrite Hst, L.
  destruct (nth_error rs i) as [r|] eqn:N.
  - assert (i < length rs) by (apply nth_error_Some; congruence).
    rewrite (proj2 (Nat.leb_le _ _)) by nia. f_equal. rewrite E.
    replace ((i + 1) * s - i * s) with s by lia. apply block_at; auto using vrow_lengths.
  - apply nth_error_None in N. rewrite (proj2 (Nat.leb_gt _ _)) by nia. reflexivity.
Qed.

Lemma ssv_index_ok s rs v i r : rep s rs v -> nth_error rs i = Some r -> ssv_index v i = Ret r.
Proof.
  intros H N. pose proof (rep_length _ _ _ H) as L. destruct H as (Hs & Hst & H & E).
  assert (i < length rs) by (apply nth_error_Some; congruence).
  unfold ssv_index, get_range_of_row. rewrite Hst. rewrite slice_ret by nia. f_equal. rewrite E.
  replace ((i + 1) * s - i * s) with s by lia. apply block_at; auto using vrow_lengths.
Qed.

Lemma ssv_index_panic s rs v i : rep s rs v -> length rs <= i -> ssv_index v i = Panic.
Proof.
  intros H N. pose proof (rep_length _ _ _ H) as L. destruct H as (Hs & Hst & H & E).
  unfold ssv_index, get_range_of_row, slice. rewrite Hst, L.
  rewrite (proj2 (Nat.leb_gt ((i + 1) * s) _)) by nia. rewrite andb_false_r. reflexivity.
Qed.

Lemma last_opt_nth {A} (l : list A) : last_opt l = match length l with O => None | S i => nth_error l i end.
Proof.
  unfold last_opt. destruct l as [|x l] using rev_ind; auto.
  rewrite rev_app_distr, app_length. cbn. rewrite Nat.add_1_r.
  rewrite nth_error_app2, Nat.sub_diag by lia. reflexivity.
Qed.

Lemma ssv_last_ok s rs v : rep s rs v -> ssv_last v = Ret (last_opt rs).
Proof.
  intros H. unfold ssv_last. erewrite ssv_len_ok by eauto. cbn [bind]. f_equal. rewrite last_opt_nth.
  destruct (length rs); auto. eapply ssv_get_ok; eauto.
Qed.

(** ** In-place editing *)

Lemma replace_nth_split {A} (l1 l2 : list A) x y : replace_nth (l1 ++ x :: l2) (length l1) y = l1 ++ y :: l2.
Proof.
  unfold replace_nth. rewrite firstn_app, firstn_all, Nat.sub_diag. cbn [firstn]. rewrite app_nil_r.
  rewrite skipn_app, skipn_all, Nat.sub_diag. reflexivity.
Qed.

Lemma ssv_edit_ok s rs v i f r r' : rep s rs v -> nth_error rs i = Some r -> f r = Ret r' -> vrow s r' ->
  exists v', ssv_edit v i f = Ret (Some v') /\ rep s (replace_nth rs i r') v'.
Proof.
  intros H N F V. unfold ssv_edit. erewrite ssv_get_ok by eauto. rewrite N. unfold get_range_of_row.
  rewrite F. cbn [bind]. eexists; split; [reflexivity|].
  destruct H as (Hs & Hst & H & E). apply nth_error_split in N as (l1 & l2 & -> & <-).
  rewrite replace_nth_split. pose proof (vrow_lengths _ _ H) as HL.
  apply rep_intro; auto.
  - apply Forall_app in H as [H1 H2]. inversion H2; subst. apply Forall_app; auto.
  - cbn [ssv_bells]. rewrite E, Hst. rewrite firstn_concat, skipn_concat by auto.
    rewrite firstn_app, firstn_all, Nat.sub_diag. cbn [firstn]. rewrite app_nil_r.
    rewrite skipn_app. rewrite skipn_all2 by lia. replace (length l1 + 1 - length l1) with 1 by lia.
    cbn [skipn app]. rewrite concat_app. reflexivity.
Qed.

Lemma ssv_edit_none s rs v i f : rep s rs v -> nth_error rs i = None -> ssv_edit v i f = Ret None.
Proof. intros H N. unfold ssv_edit. erewrite ssv_get_ok by eauto. rewrite N. reflexivity. Qed.

(** ** Appending *)

Lemma rep_app s rs v l rs' : rep s rs v -> Forall (vrow s) rs' -> l = concat rs' ->
  rep s (rs ++ rs') (Ssv (ssv_bells v ++ l) s).
Proof.
  intros (Hs & Hst & H & E) H' ->. apply rep_intro; auto.
  - apply Forall_app; auto.
  - cbn. rewrite concat_app, E. reflexivity.
Qed.

Lemma ssv_push_ok s rs v r : rep s rs v -> vrow s r ->
  exists v', ssv_push v r = Ret (v', Ok tt) /\ rep s (rs ++ [r]) v'.
Proof.
  intros H V. unfold ssv_push. rewrite valid_row_stage by apply V. cbn [bind].
  unfold test_err. rewrite (proj2 V), (proj1 (proj2 H)), Nat.eqb_refl. eexists; split; [reflexivity|].
  apply rep_app; auto. cbn. rewrite app_nil_r. reflexivity.
Qed.

Lemma ssv_push_err s rs v r : rep s rs v -> valid_row r -> length r <> s ->
  ssv_push v r = Ret (v, Err (IncompatibleStages s (length r))).
Proof.
  intros H V Hn. unfold ssv_push. rewrite valid_row_stage by auto. cbn [bind].
  unfold test_err. rewrite (proj1 (proj2 H)). rewrite (proj2 (Nat.eqb_neq _ _)) by auto. reflexivity.
Qed.

Lemma ssv_build_ok s rows : 0 < s -> Forall (vrow s) rows ->
  exists v, ssv_build s rows = Ret v /\ rep s rows v.
Proof.
  intros Hs H. unfold ssv_build.
  assert (G : forall rs v, rep s rs v -> exists v', foldM (fun v r => '(v', res) <- ssv_push v r;; unwrap_res res;;; Ret v') rows v = Ret v' /\ rep s (rs ++ rows) v').
  { induction H as [|r t Hr Ht IH]; intros rs v Hv; cbn [foldM].
    - exists v. rewrite app_nil_r. auto.
    - destruct (ssv_push_ok s rs v r Hv Hr) as (v1 & E1 & R1). rewrite E1. cbn [bind unwrap_res].
      destruct (IH _ _ R1) as (v2 & E2 & R2). exists v2. rewrite E2. rewrite <- app_assoc in R2. auto. }
  apply (G [] (ssv_new s)). apply rep_new; auto.
Qed.

Lemma ssv_extend_loop_ok s rows : Forall (vrow s) rows -> forall before bells,
  ssv_extend_loop s before bells rows = Ret (bells ++ concat rows, Ok tt).
Proof.
  induction 1 as [|r t Hr Ht IH]; intros before bells; cbn [ssv_extend_loop concat].
  - rewrite app_nil_r; auto.
  - rewrite valid_row_stage by apply Hr. cbn [bind]. unfold test_err. rewrite (proj2 Hr), Nat.eqb_refl.
    rewrite IH, app_assoc. reflexivity.
Qed.

Lemma ssv_extend_loop_err s rows bad : Forall valid_row rows ->
  find (fun r => negb (length r =? s)) rows = Some bad -> forall before bells new,
  length bells = before ->
  ssv_extend_loop s before (bells ++ new) rows = Ret (bells, Err (IncompatibleStages s (length bad))).
Proof.
  induction 1 as [|r t Hr Ht IH]; intros F before bells new L; cbn [ssv_extend_loop]; [discriminate|].
  rewrite valid_row_stage by auto. cbn [bind]. unfold test_err. cbn [find] in F.
  rewrite (Nat.eqb_sym s). destruct (length r =? s); cbn [negb] in F.
  - rewrite <- app_assoc. apply IH; auto.
  - injection F as ->. rewrite firstn_app, <- L, firstn_all, Nat.sub_diag. cbn. rewrite app_nil_r. reflexivity.
Qed.

Lemma find_none_vrow s rows : Forall valid_row rows ->
  find (fun r => negb (length r =? s)) rows = None -> Forall (vrow s) rows.
Proof.
  intros H F. apply Forall_forall. intros r Hr. pose proof (find_none _ _ F r Hr) as K. cbn in K.
  apply negb_false_iff, Nat.eqb_eq in K. split; auto. rewrite Forall_forall in H; auto.
Qed.

Lemma ssv_extend_ok s rs v rows : rep s rs v -> Forall (vrow s) rows ->
  exists v', ssv_extend v rows = Ret (v', Ok tt) /\ rep s (rs ++ rows) v'.
Proof.
  intros H V. unfold ssv_extend. rewrite (proj1 (proj2 H)). rewrite ssv_extend_loop_ok by auto. cbn [bind].
  eexists; split; [reflexivity|]. apply rep_app; auto.
Qed.

Lemma ssv_extend_err s rs v rows bad : rep s rs v -> Forall valid_row rows ->
  find (fun r => negb (length r =? s)) rows = Some bad ->
  ssv_extend v rows = Ret (v, Err (IncompatibleStages s (length bad))).
Proof.
  intros H V F. unfold ssv_extend. rewrite (proj1 (proj2 H)).
  pose proof (ssv_extend_loop_err s rows bad V F (length (ssv_bells v)) (ssv_bells v) [] eq_refl) as K.
  rewrite app_nil_r in K. rewrite K. cbn [bind]. f_equal. f_equal. destruct v as [bs st]. destruct H as (_ & Hst & _). cbn in *. subst st.
  reflexivity.
Qed.

Lemma ssv_extend_from_buf_ok s rs v rs' o : rep s rs v -> rep s rs' o ->
  exists v', ssv_extend_from_buf v o = (v', Ok tt) /\ rep s (rs ++ rs') v'.
Proof.
  intros H (Hs & Hst & H' & E). unfold ssv_extend_from_buf, test_err. rewrite (proj1 (proj2 H)), Hst, Nat.eqb_refl.
  eexists; split; [reflexivity|]. apply rep_app; auto.
Qed.

Lemma ssv_extend_from_buf_err s rs v s' rs' o : rep s rs v -> rep s' rs' o -> s' <> s ->
  ssv_extend_from_buf v o = (v, Err (IncompatibleStages s s')).
Proof.
  intros H (Hs & Hst & H' & E) Hn. unfold ssv_extend_from_buf, test_err. rewrite (proj1 (proj2 H)), Hst.
  rewrite (proj2 (Nat.eqb_neq _ _)) by auto. reflexivity.
Qed.

(** ** Pop *)

Lemma ssv_pop_ok s rs v : rep s rs v ->
  exists v', ssv_pop v = Ret (v', last_opt rs) /\ rep s (removelast rs) v'.
Proof.
  intros H. pose proof (rep_length _ _ _ H) as L. destruct H as (Hs & Hst & H & E).
  unfold ssv_pop. rewrite Hst, L. destruct rs as [|r rs] using rev_ind.
  - cbn [length Nat.mul]. rewrite (proj2 (Nat.ltb_lt 0 s)) by lia. exists v. split; auto. unfold rep; splits; auto.
  - clear IHrs. rewrite app_length. cbn [length]. rewrite (proj2 (Nat.ltb_ge _ _)) by nia.
    destruct (Nat.eqb_spec s 0); [lia|].
    replace ((length rs + 1) * s - s) with (length rs * s) by lia. rewrite Nat.mod_mul by lia. cbn [Nat.eqb assert_ bind].
    rewrite E. pose proof (vrow_lengths _ _ H) as HL. rewrite firstn_concat, skipn_concat by auto.
    rewrite firstn_app, firstn_all, Nat.sub_diag, skipn_app, skipn_all, Nat.sub_diag.
    cbn [firstn skipn app concat]. rewrite !app_nil_r.
    unfold last_opt. rewrite rev_app_distr. cbn [rev app]. rewrite removelast_last.
    eexists; split; [reflexivity|]. apply Forall_app in H as [H1 H2]. apply rep_intro; auto.
Qed.

(** ** Transposition *)

Lemma concat_map_rmul t rs : map (fun x => nth x t 0) (concat rs) = concat (map (rmul t) rs).
Proof. induction rs as [|r rs IH]; cbn; auto. rewrite map_app, IH. reflexivity. Qed.

Lemma row_product_rmul a b : row_product a b = rmul a b.
Proof. reflexivity. Qed.

Lemma map_rmul_vrow s t rs : vrow s t -> Forall (vrow s) rs -> Forall (vrow s) (map (rmul t) rs).
Proof. intros Ht H. apply Forall_map. eapply Forall_impl; [|exact H]. intros r Hr. apply valid_rmul; auto. Qed.

Lemma concat_lt s rs : Forall (vrow s) rs -> Forall (fun x => x < s) (concat rs).
Proof.
  induction 1 as [|r t Hr Ht IH]; cbn; auto. apply Forall_app; split; auto.
  rewrite <- (proj2 Hr). apply valid_row_Forall, Hr.
Qed.

Lemma mapM_idx_ok s t rs : vrow s t -> Forall (vrow s) rs ->
  mapM (fun x => idx t x) (concat rs) = Ret (concat (map (rmul t) rs)).
Proof.
  intros Ht H. rewrite <- concat_map_rmul. apply (mul_unchecked_ok t (concat rs)). rewrite (proj2 Ht). apply concat_lt; auto.
Qed.

Lemma to_bell_range_ok s rs v lo hi : rep s rs v ->
  to_bell_range v lo hi = Ret (range_start lo * s, range_end hi (length rs) * s).
Proof.
  intros H. unfold to_bell_range. erewrite ssv_len_ok by eauto. cbn [bind].
  unfold clamp_range. rewrite (proj1 (proj2 H)). reflexivity.
Qed.

Lemma ssv_extend_range_transposed_ok s rs v t rs' o lo hi : rep s rs v -> vrow s t -> rep s rs' o ->
  let a := range_start lo in let b := range_end hi (length rs') in
  a <= b -> b <= length rs' ->
  exists v', ssv_extend_range_transposed v t o lo hi = Ret (v', Ok tt) /\
    rep s (rs ++ map (row_product t) (sublist a b rs')) v'.
Proof.
  intros H Ht Ho a b Hab Hb. unfold ssv_extend_range_transposed. rewrite valid_row_stage by apply Ht. cbn [bind].
  unfold test_err. rewrite (proj2 Ht), (proj1 (proj2 H)), Nat.eqb_refl.
  erewrite to_bell_range_ok by eauto. cbn [bind]. fold a b.
  rewrite slice_ret; [|nia|rewrite (rep_length _ _ _ Ho); nia]. cbn [bind].
  destruct Ho as (_ & _ & Ho & E). rewrite E, sublist_concat by (auto using vrow_lengths).
  fold (sublist a b rs').
  assert (Hsub : Forall (vrow s) (sublist a b rs')) by (apply Forall_firstn, Forall_skipn; auto).
  rewrite (mapM_idx_ok s) by auto. cbn [bind]. eexists; split; [reflexivity|].
  apply rep_app; auto. apply map_rmul_vrow; auto.
Qed.

Lemma ssv_extend_range_transposed_panic s rs v t rs' o lo hi : rep s rs v -> vrow s t -> rep s rs' o ->
  let a := range_start lo in let b := range_end hi (length rs') in
  ~ (a <= b /\ b <= length rs') -> ssv_extend_range_transposed v t o lo hi = Panic.
Proof.
  intros H Ht Ho a b Hab. unfold ssv_extend_range_transposed. rewrite valid_row_stage by apply Ht. cbn [bind].
  unfold test_err. rewrite (proj2 Ht), (proj1 (proj2 H)), Nat.eqb_refl.
  erewrite to_bell_range_ok by eauto. cbn [bind]. fold a b. unfold slice. rewrite (rep_length _ _ _ Ho).
  destruct H as [Hs _].
  destruct (Nat.leb_spec (a * s) (b * s)); cbn [andb bind]; auto.
  destruct (Nat.leb_spec (b * s) (length rs' * s)); cbn [andb bind]; auto.
  exfalso. apply Hab. split; nia.
Qed.

Lemma ssv_extend_range_transposed_err s rs v t o lo hi : rep s rs v -> valid_row t -> length t <> s ->
  ssv_extend_range_transposed v t o lo hi = Ret (v, Err (IncompatibleStages s (length t))).
Proof.
  intros H Ht Hn. unfold ssv_extend_range_transposed. rewrite valid_row_stage by auto. cbn [bind].
  unfold test_err. rewrite (proj1 (proj2 H)). rewrite (proj2 (Nat.eqb_neq _ _)) by auto. reflexivity.
Qed.

Lemma within_fold_ok t L n : Forall (fun x => x < length t) L ->
  forall a new, a + n <= length L ->
  foldM (fun bells i => x <- idx bells i;; y <- idx t x;; Ret (bells ++ [y])) (seq a n) (L ++ new) =
  Ret (L ++ new ++ map (fun x => nth x t 0) (firstn n (skipn a L))).
Proof.
  intros H. induction n as [|n IH]; intros a new Hl; cbn [seq foldM].
  - cbn. rewrite app_nil_r; auto.
  - assert (Ha : a < length L) by lia.
    destruct (nth_error L a) as [x|] eqn:N; [|apply nth_error_None in N; lia].
    rewrite (proj2 (idx_some (L ++ new) a x)) by (rewrite nth_error_app1; auto). cbn [bind].
    assert (Hx : x < length t). { rewrite Forall_forall in H. apply H. eapply nth_error_In; eauto. }
    rewrite (proj2 (idx_some t x (nth x t 0))) by (apply nth_error_nth'; auto). cbn [bind].
    rewrite <- app_assoc. rewrite IH by lia. f_equal. f_equal. rewrite <- app_assoc. f_equal. cbn [app].
    apply nth_error_split in N as (l1 & l2 & -> & <-).
    replace (S (length l1)) with (length l1 + 1) by lia.
    rewrite !skipn_app, skipn_all. rewrite skipn_all2 by lia. replace (length l1 + 1 - length l1) with 1 by lia.
    rewrite Nat.sub_diag. reflexivity.
Qed.

Lemma ssv_from_within_ok s rs v t lo hi : rep s rs v -> vrow s t ->
  let a := range_start lo in let b := range_end hi (length rs) in
  a <= b -> b <= length rs ->
  exists v', ssv_extend_transposed_from_within v lo hi t = Ret (v', Ok tt) /\
    rep s (rs ++ map (row_product t) (sublist a b rs)) v'.
Proof.
  intros H Ht a b Hab Hb. unfold ssv_extend_transposed_from_within. rewrite valid_row_stage by apply Ht. cbn [bind].
  unfold test_err. rewrite (proj2 Ht), (proj1 (proj2 H)), Nat.eqb_refl.
  erewrite to_bell_range_ok by eauto. cbn [bind]. fold a b. unfold range.
  assert (Hlt : Forall (fun x => x < length t) (ssv_bells v)).
  { destruct H as (_ & _ & H & E). rewrite E, (proj2 Ht). apply concat_lt; auto. }
  pose proof (within_fold_ok t (ssv_bells v) (b * s - a * s) Hlt (a * s) []) as W.
  rewrite app_nil_r in W. rewrite W by (rewrite (rep_length _ _ _ H); nia). cbn [bind app].
  eexists; split; [reflexivity|]. pose proof H as (_ & _ & Hf & E).
  apply rep_app; auto.
  - apply map_rmul_vrow; auto. apply Forall_firstn, Forall_skipn; auto.
  - rewrite E at 1. rewrite sublist_concat by (auto using vrow_lengths). rewrite concat_map_rmul. reflexivity.
Qed.

(** an empty range (start not before end) never reads anything *)
Lemma ssv_from_within_empty s rs v t lo hi : rep s rs v -> vrow s t ->
  range_end hi (length rs) <= range_start lo ->
  ssv_extend_transposed_from_within v lo hi t = Ret (v, Ok tt).
Proof.
  intros H Ht Hab. unfold ssv_extend_transposed_from_within. rewrite valid_row_stage by apply Ht. cbn [bind].
  unfold test_err. rewrite (proj2 Ht), (proj1 (proj2 H)), Nat.eqb_refl.
  erewrite to_bell_range_ok by eauto. cbn [bind]. unfold range.
  replace (range_end hi (length rs) * s - range_start lo * s) with 0 by nia. cbn [seq foldM bind].
  destruct v as [bs st]. destruct H as (_ & Hst & _). cbn in *. subst. reflexivity.
Qed.

Lemma ssv_from_within_err s rs v t lo hi : rep s rs v -> valid_row t -> length t <> s ->
  ssv_extend_transposed_from_within v lo hi t = Ret (v, Err (IncompatibleStages s (length t))).
Proof.
  intros H Ht Hn. unfold ssv_extend_transposed_from_within. rewrite valid_row_stage by auto. cbn [bind].
  unfold test_err. rewrite (proj1 (proj2 H)). rewrite (proj2 (Nat.eqb_neq _ _)) by auto. reflexivity.
Qed.

Lemma mapM_idx_unchecked_ok s t rs : vrow s t -> Forall (vrow s) rs ->
  mapM (fun x => idx_unchecked t x) (concat rs) = Ret (concat (map (rmul t) rs)).
Proof.
  intros Ht H. rewrite <- concat_map_rmul.
  apply (mapM_ret (fun x => idx_unchecked t x) (fun x => nth x t 0) (concat rs)).
  intros x Hx. pose proof (concat_lt s rs H) as F. rewrite Forall_forall in F. specialize (F x Hx).
  unfold idx_unchecked. rewrite (nth_error_nth' t 0) by (rewrite (proj2 Ht); auto). reflexivity.
Qed.

Lemma ssv_pre_multiply_ok s rs v t : rep s rs v -> vrow s t ->
  exists v', ssv_pre_multiply v t = Ret (v', Ok tt) /\ rep s (map (row_product t) rs) v'.
Proof.
  intros H Ht. unfold ssv_pre_multiply. rewrite valid_row_stage by apply Ht. cbn [bind].
  unfold test_err. rewrite (proj2 Ht), (proj1 (proj2 H)), Nat.eqb_refl.
  destruct H as (Hs & Hst & H & E). rewrite E, (mapM_idx_unchecked_ok s) by auto. cbn [bind].
  eexists; split; [reflexivity|]. apply rep_intro; auto. apply map_rmul_vrow; auto.
Qed.

Lemma ssv_pre_multiply_err s rs v t : rep s rs v -> valid_row t -> length t <> s ->
  ssv_pre_multiply v t = Ret (v, Err (IncompatibleStages (length t) s)).
Proof.
  intros H Ht Hn. unfold ssv_pre_multiply. rewrite valid_row_stage by auto. cbn [bind].
  unfold test_err. rewrite (proj1 (proj2 H)). rewrite (proj2 (Nat.eqb_neq _ _)) by auto. reflexivity.
Qed.

Lemma sublist_all {A} (l : list A) : sublist 0 (length l) l = l.
Proof. unfold sublist. cbn [skipn]. rewrite Nat.sub_0_r. apply firstn_all. Qed.

Lemma ssv_pre_multiplied_ok s rs v t : rep s rs v -> vrow s t ->
  exists v', ssv_pre_multiplied v t = Ret (Ok v') /\ rep s (map (row_product t) rs) v'.
Proof.
  intros H Ht. unfold ssv_pre_multiplied, ssv_extend_transposed. rewrite (proj1 (proj2 H)).
  destruct (ssv_extend_range_transposed_ok s [] (ssv_new s) t rs v Unbounded Unbounded) as (v' & E & R); auto.
  - apply rep_new, H.
  - cbn; lia.
  - rewrite E. cbn [bind]. exists v'. split; auto. cbn [range_start range_end app] in R. rewrite sublist_all in R. exact R.
Qed.

Lemma ssv_pre_multiplied_err s rs v t : rep s rs v -> valid_row t -> length t <> s ->
  ssv_pre_multiplied v t = Ret (Err (IncompatibleStages s (length t))).
Proof.
  intros H Ht Hn. unfold ssv_pre_multiplied, ssv_extend_transposed. rewrite (proj1 (proj2 H)).
  rewrite (ssv_extend_range_transposed_err s []) by (auto; apply rep_new, H). reflexivity.
Qed.

(** ** Split *)

Lemma ssv_split_ok s rs v i : rep s rs v -> i <= length rs ->
  exists a b, ssv_split v i = Some (a, b) /\ rep s (firstn i rs) a /\ rep s (skipn i rs) b.
Proof.
  intros H Hi. pose proof (rep_length _ _ _ H) as L. destruct H as (Hs & Hst & H & E).
  unfold ssv_split, split_vec. rewrite Hst, L. rewrite (proj2 (Nat.ltb_ge _ _)) by nia.
  eexists _, _. split; [reflexivity|]. rewrite E, firstn_concat, skipn_concat by auto using vrow_lengths.
  split; apply rep_intro; auto using Forall_firstn, Forall_skipn.
Qed.

Lemma ssv_split_none s rs v i : rep s rs v -> length rs < i -> ssv_split v i = None.
Proof.
  intros H Hi. pose proof (rep_length _ _ _ H) as L. destruct H as (Hs & Hst & H & E).
  unfold ssv_split, split_vec. rewrite Hst, L. rewrite (proj2 (Nat.ltb_lt _ _)) by nia. reflexivity.
Qed.

(** ** Paths *)

Lemma ssv_path_ok s rs v b : rep s rs v -> b < s ->
  exists p, ssv_path_of v b = Ret (Some p) /\ Forall2 (fun r i => nth_error r i = Some b) rs p.
Proof.
  intros H Hb. unfold ssv_path_of. rewrite (proj1 (proj2 H)). rewrite (proj2 (Nat.ltb_lt _ _)) by auto.
  erewrite rep_rows by eauto. cbn [bind]. destruct H as (Hs & Hst & H & E).
  assert (G : exists p, mapM (fun r => unwrap (place_of r b)) rs = Ret p /\ Forall2 (fun r i => nth_error r i = Some b) rs p).
  { clear E. induction H as [|r t Hr Ht IH]; cbn [mapM].
    - exists []. split; auto.
    - destruct (place_of r b) as [i|] eqn:P.
      + cbn [unwrap bind]. destruct IH as (p & E & F). rewrite E. cbn [bind]. exists (i :: p). split; auto.
        constructor; auto. apply place_of_Some in P; auto. apply Hr.
      + apply place_of_None in P; [|apply Hr]. rewrite (proj2 Hr) in P. lia. }
  destruct G as (p & E' & F). rewrite E'. cbn [bind]. eauto.
Qed.

Lemma ssv_path_none s rs v b : rep s rs v -> s <= b -> ssv_path_of v b = Ret None.
Proof.
  intros H Hb. unfold ssv_path_of. rewrite (proj1 (proj2 H)). rewrite (proj2 (Nat.ltb_ge _ _)) by auto. reflexivity.
Qed.

(** ** Iterators *)

Lemma it_next_ok s rs : 0 < s -> Forall (vrow s) rs ->
  it_next (SsvIter (concat rs) s) = Ret (nth_error rs 0, SsvIter (concat (skipn 1 rs)) s).
Proof.
  intros Hs H. destruct H as [|r t Hr Ht]; [reflexivity|].
  unfold it_next. cbn [it_left it_stage].
  destruct (concat (r :: t)) as [|x l] eqn:E.
  - exfalso. cbn in E. apply app_eq_nil in E as [E _]. subst r. destruct Hr as [_ Hr]. cbn in Hr; lia.
  - rewrite <- E. unfold split_at. rewrite (proj2 (Nat.leb_le s _)).
    2: { cbn. rewrite app_length, (proj2 Hr). lia. }
    cbn [bind concat]. rewrite firstn_app, skipn_app, (proj2 Hr), Nat.sub_diag.
    rewrite firstn_all2, skipn_all2 by (rewrite (proj2 Hr); lia). cbn [firstn skipn app]. rewrite app_nil_r.
    reflexivity.
Qed.

Lemma it_next_back_ok s rs : 0 < s -> Forall (vrow s) rs ->
  it_next_back (SsvIter (concat rs) s) = Ret (last_opt rs, SsvIter (concat (removelast rs)) s).
Proof.
  intros Hs H. destruct rs as [|r rs] using rev_ind; [reflexivity|]. clear IHrs.
  pose proof (vrow_lengths _ _ H) as HL. apply Forall_app in H as [H1 H2]. inversion H2 as [|? ? Hr _]; subst.
  unfold it_next_back. cbn [it_left it_stage].
  assert (L : length (concat (rs ++ [r])) = (length rs + 1) * s).
  { rewrite (concat_length_eq s) by auto. rewrite app_length. reflexivity. }
  destruct (concat (rs ++ [r])) as [|x l] eqn:E.
  - exfalso. cbn in L. nia.
  - rewrite <- E in *. rewrite L. rewrite (proj2 (Nat.leb_le s _)) by nia. cbn [assert_ bind].
    unfold split_at. rewrite L. rewrite (proj2 (Nat.leb_le _ _)) by nia. cbn [bind].
    replace ((length rs + 1) * s - s) with (length rs * s) by lia.
    rewrite firstn_concat, skipn_concat by auto.
    rewrite firstn_app, firstn_all, Nat.sub_diag, skipn_app, skipn_all, Nat.sub_diag.
    cbn [firstn skipn app concat]. rewrite !app_nil_r.
    unfold last_opt. rewrite rev_app_distr. cbn [rev app]. rewrite removelast_last. reflexivity.
Qed.

Lemma Forall_removelast {A} (P : A -> Prop) l : Forall P l -> Forall P (removelast l).
Proof.
  intros H. destruct l as [|x l] using rev_ind; auto. rewrite removelast_last. apply Forall_app in H. apply H.
Qed.

Lemma iter_run_ok s sched : 0 < s -> forall rs, Forall (vrow s) rs ->
  let (os, rest) := deque_run rs sched in
  iter_run (SsvIter (concat rs) s) sched = Ret (os, SsvIter (concat rest) s) /\ Forall (vrow s) rest.
Proof.
  intros Hs. induction sched as [|front t IH]; intros rs H; cbn [deque_run iter_run]; auto.
  destruct front.
  - specialize (IH (skipn 1 rs) (Forall_skipn _ 1 rs H)). destruct (deque_run (skipn 1 rs) t) as [os rest].
    rewrite it_next_ok by auto. cbn [bind]. destruct IH as [E F]. rewrite E. cbn [bind]. auto.
  - specialize (IH (removelast rs) (Forall_removelast _ rs H)). destruct (deque_run (removelast rs) t) as [os rest].
    rewrite it_next_back_ok by auto. cbn [bind]. destruct IH as [E F]. rewrite E. cbn [bind]. auto.
Qed.

Lemma it_len_ok s rs : 0 < s -> Forall (vrow s) rs -> it_len (SsvIter (concat rs) s) = Ret (length rs).
Proof.
  intros Hs H. unfold it_len. cbn [it_left it_stage]. destruct (Nat.eqb_spec s 0); [lia|].
  rewrite (concat_length_eq s) by auto using vrow_lengths. rewrite Nat.div_mul by lia. reflexivity.
Qed.

(** ** Histories *)

Lemma swap_list_ok r a b : a < length r -> b < length r -> row_swap r a b = Ret (swap_list r a b).
Proof.
  intros Ha Hb. rewrite row_swap_ok by auto. f_equal. apply row_ext.
  - unfold swap_list. rewrite !length_upd, map_length, seq_length. reflexivity.
  - intros k Hk. rewrite !length_upd in Hk. unfold swap_list.
    set (F := fun k => if k =? a then nth b r 0 else if k =? b then nth a r 0 else nth k r 0).
    rewrite (nth_indep (map F (seq 0 (length r))) 0 (F 0)) by (rewrite map_length, seq_length; auto).
    rewrite (map_nth F). subst F. cbv beta.
    rewrite seq_nth by auto. cbn [Nat.add].
    destruct (Nat.eqb_spec k b) as [->|Hkb].
    + rewrite nth_upd_same by (rewrite length_upd; auto). destruct (Nat.eqb_spec b a) as [->|]; auto.
    + rewrite nth_upd_other by auto. destruct (Nat.eqb_spec k a) as [->|Hka].
      * rewrite nth_upd_same by auto. reflexivity.
      * rewrite nth_upd_other by auto. reflexivity.
Qed.

Lemma swap_list_vrow s r a b : vrow s r -> a < s -> b < s -> vrow s (swap_list r a b).
Proof.
  intros [V L] Ha Hb. assert (E := swap_list_ok r a b). rewrite L in E. specialize (E Ha Hb).
  rewrite row_swap_ok in E by lia. injection E as E. rewrite <- E.
  pose proof (row_swap_swapped r a b) as S. rewrite L in S. specialize (S Ha Hb).
  split; [eapply swapped_valid; eauto|]. destruct S as (_ & _ & S & _). congruence.
Qed.

Lemma edit_swap_refines s rs v i a b rs' o : rep s rs v -> spec_swap_row s rs i a b = Some (rs', o) ->
  exists v', (r <- ssv_edit v i (fun r => row_swap r a b);; Ret (keep v r)) = Ret (v', o) /\ rep s rs' v'.
Proof.
  intros H E. unfold spec_swap_row in E. destruct (nth_error rs i) as [r|] eqn:N.
  - destruct (a <? s) eqn:Ea; [|discriminate]. destruct (b <? s) eqn:Eb; [|discriminate]. cbn [andb] in E.
    injection E as <- <-. apply Nat.ltb_lt in Ea, Eb.
    assert (V : vrow s r). { destruct H as (_ & _ & H & _). rewrite Forall_forall in H. apply H. eapply nth_error_In; eauto. }
    destruct (ssv_edit_ok s rs v i (fun r => row_swap r a b) r (swap_list r a b)) as (v' & E' & R); auto.
    + apply swap_list_ok; rewrite (proj2 V); auto.
    + apply swap_list_vrow; auto.
    + rewrite E'. cbn [bind keep]. eauto.
  - injection E as <- <-. erewrite ssv_edit_none by eauto. cbn [bind keep]. eauto.
Qed.

Lemma path_entry s r b i : vrow s r -> nth_error r i = Some b ->
  fst (hd (0, 0) (filter (fun ib => snd ib =? b) (combine (seq 0 s) r))) = i.
Proof.
  intros [V L] N. subst s. pose proof (valid_row_NoDup r V) as D. clear V.
  enough (G : forall k, fst (hd (0, 0) (filter (fun ib => snd ib =? b) (combine (seq k (length r)) r))) = k + i) by apply G.
  revert i N. induction r as [|x r IH]; intros i N k; [destruct i; discriminate|].
  cbn [length seq combine filter snd]. inversion D; subst. destruct i as [|i]; cbn in N.
  - injection N as ->. rewrite Nat.eqb_refl. cbn. lia.
  - destruct (Nat.eqb_spec x b) as [->|Hx].
    + exfalso. apply nth_error_In in N. auto.
    + rewrite IH with (i := i) by auto. lia.
Qed.

Lemma spec_range_cases a b n : (a <=? b) && (b <=? n) = true -> a <= b /\ b <= n.
Proof. intros H. apply andb_true_iff in H as [H1 H2]. apply Nat.leb_le in H1, H2. auto. Qed.

Lemma ssv_step_refines s rs v op rs' o : rep s rs v -> vec_op_args_valid op ->
  vec_step s rs op = Some (rs', o) -> exists v', ssv_step v op = Ret (v', o) /\ rep s rs' v'.
Proof.
  intros H A E. destruct op; cbn [vec_step ssv_step vec_op_args_valid] in *.
  - (* push *) destruct (Nat.eqb_spec (length r) s) as [L|L]; injection E as <- <-.
    + destruct (ssv_push_ok s rs v r) as (v' & E' & R); [auto|split; auto|]. rewrite E'. cbn [bind out_of]. eauto.
    + erewrite ssv_push_err by eauto. cbn [bind out_of]. eauto.
  - (* pop *) injection E as <- <-. destruct (ssv_pop_ok s rs v H) as (v' & E' & R). rewrite E'. cbn [bind]. eauto.
  - (* extend *) destruct (find _ rows) as [bad|] eqn:F; injection E as <- <-.
    + erewrite ssv_extend_err by eauto. cbn [bind out_of]. eauto.
    + destruct (ssv_extend_ok s rs v rows) as (v' & E' & R); auto using find_none_vrow. rewrite E'. cbn [bind out_of]. eauto.
  - (* extend_from_buf *) destruct A as [Ho A]. destruct (ssv_build_ok os orows Ho A) as (w & Eo & Ro). rewrite Eo. cbn [bind].
    destruct (Nat.eqb_spec os s) as [->|L]; injection E as <- <-.
    + destruct (ssv_extend_from_buf_ok s rs v orows w H Ro) as (v' & E' & R). rewrite E'. cbn [out_of]. eauto.
    + rewrite (ssv_extend_from_buf_err s rs v os orows w) by auto. cbn [out_of]. eauto.
  - (* extend_range_transposed *) destruct A as [At [Ho A]]. destruct (ssv_build_ok os orows Ho A) as (w & Eo & Ro). rewrite Eo. cbn [bind].
    unfold spec_extend_transposed in E. destruct (Nat.eqb_spec (length t) s) as [L|L]; cbn [andb] in E.
    + destruct (Nat.eqb_spec os s) as [->|]; cbn [negb] in E; [|discriminate].
      destruct (_ && _) eqn:B in E; [|discriminate]. injection E as <- <-. apply spec_range_cases in B as [B1 B2].
      destruct (ssv_extend_range_transposed_ok s rs v t orows w lo hi) as (v' & E' & R); auto; [split; auto|].
      rewrite E'. cbn [bind out_of]. eauto.
    + injection E as <- <-. rewrite (ssv_extend_range_transposed_err s rs) by auto. cbn [bind out_of]. eauto.
  - (* extend_transposed *) destruct A as [At [Ho A]]. destruct (ssv_build_ok os orows Ho A) as (w & Eo & Ro). rewrite Eo. cbn [bind].
    unfold ssv_extend_transposed.
    unfold spec_extend_transposed in E. destruct (Nat.eqb_spec (length t) s) as [L|L]; cbn [andb] in E.
    + destruct (Nat.eqb_spec os s) as [->|]; cbn [negb] in E; [|discriminate].
      destruct (_ && _) eqn:B in E; [|discriminate]. injection E as <- <-. apply spec_range_cases in B as [B1 B2].
      destruct (ssv_extend_range_transposed_ok s rs v t orows w Unbounded Unbounded) as (v' & E' & R); auto; [split; auto|].
      rewrite E'. cbn [bind out_of]. eauto.
    + injection E as <- <-. rewrite (ssv_extend_range_transposed_err s rs) by auto. cbn [bind out_of]. eauto.
  - (* from within *) unfold spec_extend_transposed in E. destruct (Nat.eqb_spec (length t) s) as [L|L].
    + destruct (_ && _) eqn:B in E; [|discriminate]. injection E as <- <-. apply spec_range_cases in B as [B1 B2].
      destruct (ssv_from_within_ok s rs v t lo hi) as (v' & E' & R); auto; [split; auto|].
      rewrite E'. cbn [bind out_of]. eauto.
    + injection E as <- <-. rewrite (ssv_from_within_err s rs) by auto. cbn [bind out_of]. eauto.
  - (* pre_multiply *) destruct (Nat.eqb_spec (length t) s) as [L|L]; injection E as <- <-.
    + destruct (ssv_pre_multiply_ok s rs v t) as (v' & E' & R); [auto|split; auto|]. rewrite E'. cbn [bind out_of]. eauto.
    + erewrite ssv_pre_multiply_err by eauto. cbn [bind out_of]. eauto.
  - (* pre_multiplied *) destruct (Nat.eqb_spec (length t) s) as [L|L]; injection E as <- <-.
    + destruct (ssv_pre_multiplied_ok s rs v t) as (v' & E' & R); [auto|split; auto|]. rewrite E'. cbn [bind]. eauto.
    + erewrite ssv_pre_multiplied_err by eauto. cbn [bind]. eauto.
  - (* split left *) destruct (Nat.leb_spec i (length rs)) as [L|L]; injection E as <- <-.
    + destruct (ssv_split_ok s rs v i H L) as (a & b & E' & Ra & Rb). rewrite E'. cbn. eauto.
    + erewrite ssv_split_none by eauto. cbn. eauto.
  - (* split right *) destruct (Nat.leb_spec i (length rs)) as [L|L]; injection E as <- <-.
    + destruct (ssv_split_ok s rs v i H L) as (a & b & E' & Ra & Rb). rewrite E'. cbn. eauto.
    + erewrite ssv_split_none by eauto. cbn. eauto.
  - eapply edit_swap_refines; eauto.
  - eapply edit_swap_refines; eauto.
  - (* edit last *) unfold ssv_edit_last. erewrite ssv_len_ok by eauto. cbn [bind].
    destruct (length rs) as [|n] eqn:L.
    + destruct rs; [|discriminate]. cbn in E. injection E as <- <-. cbn. eauto.
    + replace (S n - 1) with n in E by lia. eapply edit_swap_refines; eauto.
  - injection E as <- <-. erewrite ssv_len_ok by eauto. cbn [bind]. eauto.
  - injection E as <- <-. erewrite ssv_is_empty_ok by eauto. eauto.
  - injection E as <- <-. erewrite ssv_get_ok by eauto. eauto.
  - destruct (nth_error rs i) as [r|] eqn:N; [|discriminate]. injection E as <- <-.
    erewrite ssv_index_ok by eauto. cbn [bind]. eauto.
  - injection E as <- <-. unfold ssv_first. erewrite ssv_get_ok by eauto. eauto.
  - injection E as <- <-. erewrite ssv_last_ok by eauto. cbn [bind]. eauto.
  - destruct (Nat.ltb_spec b s) as [L|L]; injection E as <- <-.
    + destruct (ssv_path_ok s rs v b H L) as (p & E' & F). rewrite E'. cbn [bind].
      exists v. split; auto. f_equal. f_equal. f_equal. f_equal.
      destruct H as (_ & _ & H & _). clear E'. induction F as [|r i rs p Hr F IH]; cbn [map]; auto.
      inversion H; subst. f_equal; auto. symmetry. apply path_entry; auto.
    + erewrite ssv_path_none by eauto. cbn [bind]. eauto.
Qed.

Lemma ssv_run_refines s ops : forall rs v rs' os, rep s rs v -> Forall vec_op_args_valid ops ->
  vec_run s rs ops = Some (rs', os) -> exists v', ssv_run v ops = Ret (v', os) /\ rep s rs' v'.
Proof.
  induction ops as [|op ops IH]; intros rs v rs' os H A E; cbn [vec_run ssv_run] in *.
  - injection E as <- <-. eauto.
  - inversion A; subst. destruct (vec_step s rs op) as [[rs1 o]|] eqn:E1; [|discriminate].
    destruct (vec_run s rs1 ops) as [[rs2 os2]|] eqn:E2; [|discriminate]. injection E as <- <-.
    destruct (ssv_step_refines s rs v op rs1 o) as (v1 & S1 & R1); auto. rewrite S1. cbn [bind].
    destruct (IH rs1 v1 rs2 os2) as (v2 & S2 & R2); auto. rewrite S2. cbn [bind]. eauto.
Qed.

(** ** Parsing *)

Lemma ssv_parse_loop_ok s ls : forall rs v k, rep s rs v ->
  (exists rs' v', Forall2 (fun l r => row_parse l = Ok r) ls rs' /\ Forall (vrow s) rs' /\
     ssv_parse_loop v k ls = Ret (Ok v') /\ rep s (rs ++ rs') v') \/
  (exists pre l post rs' e, ls = pre ++ l :: post /\
     Forall2 (fun l r => row_parse l = Ok r /\ length r = s) pre rs' /\
     ssv_parse_loop v k ls = Ret (Err e) /\
     ((exists err, row_parse l = Err err /\ e = SpeInvalidRow (k + length pre) err) \/
      (exists r, row_parse l = Ok r /\ length r <> s /\ e = SpeIncompatibleStages (k + length pre) s (length r)))).
Proof.
  induction ls as [|l ls IH]; intros rs v k H; cbn [ssv_parse_loop].
  - left. exists [], v. rewrite app_nil_r. splits; auto.
  - destruct (row_parse l) as [r|err] eqn:P.
    + assert (V : valid_row r). { rewrite row_parse_eq in P. apply from_vec_ok in P as [P ->]. exact P. }
      destruct (Nat.eq_dec (length r) s) as [L|L].
      * destruct (ssv_push_ok s rs v r H) as (v1 & E1 & R1); [split; auto|]. rewrite E1. cbn [bind].
        destruct (IH (rs ++ [r]) v1 (S k) R1) as [(rs' & v' & F & Fv & E & R)|(pre & l' & post & rs' & e & Els & F & E & C)].
        -- left. exists (r :: rs'), v'. rewrite <- app_assoc in R. splits; auto. constructor; auto. split; auto.
        -- right. exists (l :: pre), l', post, (r :: rs'), e. subst ls. splits; auto.
           cbn [length]. replace (k + S (length pre)) with (S k + length pre) by lia. exact C.
      * erewrite ssv_push_err by eauto. cbn [bind]. right.
        exists [], l, ls, [], (SpeIncompatibleStages k s (length r)). cbn [length]. rewrite Nat.add_0_r. splits; auto.
        right. eauto.
    + right. exists [], l, ls, [], (SpeInvalidRow k err). cbn [length]. rewrite Nat.add_0_r. splits; auto. left. eauto.
Qed.

Lemma lines_from_text ended : forall unfinished cur, Forall no_line_feed ended -> no_line_feed unfinished ->
  lines_from cur (text_of ended unfinished) =
  match ended with
  | [] => match cur ++ unfinished with [] => [] | l => [strip_cr l] end
  | l :: t => strip_cr (cur ++ l) :: map strip_cr (text_lines t unfinished)
  end.
Proof.
  unfold text_of, text_lines.
  assert (U : forall u cur, no_line_feed u ->
    lines_from cur u = match cur ++ u with [] => [] | l => [strip_cr l] end).
  { induction u as [|c u IH]; intros cur H; cbn [lines_from].
    - rewrite app_nil_r. destruct cur; auto.
    - destruct (N.eqb_spec c 10) as [->|]; [exfalso; apply H; left; auto|].
      rewrite IH by (intros C; apply H; right; auto). rewrite <- app_assoc. reflexivity. }
  assert (L : forall l cur rest, no_line_feed l -> lines_from cur (l ++ [10%N] ++ rest) = strip_cr (cur ++ l) :: lines_from [] rest).
  { induction l as [|c l IH]; intros cur rest H; cbn [app lines_from].
    - rewrite N.eqb_refl, app_nil_r. reflexivity.
    - destruct (N.eqb_spec c 10) as [->|]; [exfalso; apply H; left; auto|].
      specialize (IH (cur ++ [c]) rest). cbn [app] in IH. rewrite IH by (intros C; apply H; right; auto). rewrite <- app_assoc. reflexivity. }
  induction ended as [|l t IH]; intros unfinished cur He Hu; cbn [map concat].
  - apply U; auto.
  - inversion He; subst. rewrite <- !app_assoc. rewrite L by auto. f_equal.
    rewrite (IH unfinished []) by auto. destruct t as [|l' t']; cbn [app].
    + destruct unfinished; reflexivity.
    + reflexivity.
Qed.

Lemma lines_text ended unfinished : Forall no_line_feed ended -> no_line_feed unfinished ->
  lines (text_of ended unfinished) = map strip_cr (text_lines ended unfinished).
Proof.
  intros He Hu. unfold lines. rewrite lines_from_text by auto. destruct ended as [|l t].
  - unfold text_lines. cbn [app]. destruct unfinished; reflexivity.
  - reflexivity.
Qed.

Lemma text_decompose (s : str) : exists ended unfinished,
  s = text_of ended unfinished /\ Forall no_line_feed ended /\ no_line_feed unfinished.
Proof.
  induction s as [|c s (e & u & -> & He & Hu)].
  - exists [], []. splits; auto. intros [].
  - destruct (N.eqb_spec c 10) as [->|Hc].
    + exists ([] :: e), u. splits; auto. constructor; auto. intros [].
    + destruct e as [|l e].
      * exists [], (c :: u). splits; auto. intros [C|C]; auto.
      * inversion He; subst. exists ((c :: l) :: e), u. splits; auto. constructor; auto. intros [C|C]; auto.
Qed.

Lemma row_parse_strip l : row_parse (strip_cr l) = row_parse l.
Proof.
  unfold strip_cr. destruct (rev l) as [|c t] eqn:R; auto.
  destruct (N.eqb_spec c 13) as [->|]; auto.
  assert (E : l = rev t ++ [13%N]). { rewrite <- (rev_involutive l), R. reflexivity. }
  rewrite !row_parse_eq. subst l. rewrite filter_map_app. cbn [filter_map].
  replace (bell_from_name 13%N) with (@None nat) by reflexivity. rewrite app_nil_r. reflexivity.
Qed.

Lemma ssv_parse_cases ls text : lines text = ls -> ls <> [] ->
  (exists s rs v, 0 < s /\ Forall2 (fun l r => row_parse l = Ok r) ls rs /\ Forall (vrow s) rs /\
     ssv_parse text = Ret (Ok v) /\ rep s rs v) \/
  (exists pre l post rs e s, ls = pre ++ l :: post /\
     Forall2 (fun l r => row_parse l = Ok r /\ length r = s) pre rs /\
     ssv_parse text = Ret (Err e) /\
     ((exists err, row_parse l = Err err /\ e = SpeInvalidRow (1 + length pre) err) \/
      (pre <> [] /\ exists r, row_parse l = Ok r /\ length r <> s /\ e = SpeIncompatibleStages (1 + length pre) s (length r)))).
Proof.
  intros L N. unfold ssv_parse. rewrite L. destruct ls as [|l ls]; [congruence|].
  destruct (row_parse l) as [r|err] eqn:P.
  - assert (V : valid_row r). { rewrite row_parse_eq in P. apply from_vec_ok in P as [P ->]. exact P. }
    destruct (rep_from_row r V) as (v & E & R). rewrite E. cbn [bind].
    destruct (ssv_parse_loop_ok (length r) ls [r] v 2 R) as [(rs' & v' & F & Fv & E' & R')|(pre & l' & post & rs' & e & Els & F & E' & C)].
    + left. exists (length r), (r :: rs'), v'. splits; auto.
      * apply valid_row_pos; auto.
      * constructor; auto. split; auto.
    + right. exists (l :: pre), l', post, (r :: rs'), e, (length r). subst ls. splits; auto.
      destruct C as [C|C]; [left; exact C|right]. split; [discriminate|exact C].
  - right. exists [], l, ls, [], (SpeInvalidRow 1 err), 0. splits; auto. left. eauto.
Qed.

Lemma deque_parts {A} sched : forall (l : list A),
  let (os, rest) := deque_run l sched in
  taken true sched os ++ rest ++ rev (taken false sched os) = l.
Proof.
  induction sched as [|f t IH]; intros l; cbn [deque_run].
  - unfold taken. cbn. rewrite app_nil_r. reflexivity.
  - destruct f.
    + specialize (IH (skipn 1 l)). destruct (deque_run (skipn 1 l) t) as [os rest].
      unfold taken in *. cbn [combine filter_map fst snd Bool.eqb]. destruct l as [|x l]; cbn [nth_error skipn] in *.
      * exact IH.
      * cbn [app]. f_equal. exact IH.
    + specialize (IH (removelast l)). destruct (deque_run (removelast l) t) as [os rest].
      unfold taken in *. cbn [combine filter_map fst snd Bool.eqb]. destruct l as [|x l] using rev_ind.
      * exact IH.
      * clear IHl. unfold last_opt. rewrite rev_app_distr. cbn [rev app]. rewrite removelast_last in IH.
        rewrite <- IH. rewrite <- !app_assoc. reflexivity.
Qed.

Lemma app_eq_len {A} (a b c d : list A) : a ++ b = c ++ d -> length a = length c -> a = c /\ b = d.
Proof.
  revert c. induction a as [|x a IH]; intros [|y c] E L; cbn in *; try discriminate; auto.
  injection E as -> E. injection L as L. destruct (IH c E L) as [-> ->]. auto.
Qed.

(** Closes [valid_row] of a literal row by computation. *)
Ltac vr := match goal with |- valid_row ?l => exact (proj1 (proj1 (from_vec_ok l l) eq_refl)) end.

Lemma Forall2_nth_error_r {A B} (P : A -> B -> Prop) l m i y : Forall2 P l m -> nth_error m i = Some y ->
  exists x, nth_error l i = Some x /\ P x y.
Proof.
  intros F. revert i. induction F as [|a b l m H F IH]; intros [|i] E; cbn in *; try discriminate; eauto.
  injection E as <-. eauto.
Qed.

Lemma Forall2_nth_error_l {A B} (P : A -> B -> Prop) l m i x : Forall2 P l m -> nth_error l i = Some x ->
  exists y, nth_error m i = Some y /\ P x y.
Proof.
  intros F. revert i. induction F as [|a b l m H F IH]; intros [|i] E; cbn in *; try discriminate; eauto.
  injection E as <-. eauto.
Qed.
