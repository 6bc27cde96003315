(** Whatever a program does, and in every build, its rows hold no bell beyond their stage: place
    notation, methods, programs. *)
From Verif Require Import Base Bell Stage Parity Row Utils SameStageVec Block PlaceNot Mask Class Method Program Machine
  Release Spec SpecVec SpecProg SpecRelease ListFacts BellFacts RowFacts MulFacts GroupFacts ParityFacts SsvFacts BlockFacts
  SafeFacts SafeFacts2 WeakFacts WeakFacts2.
From Verif Require Call Library.
Local Open Scope list_scope.

(** ** Place notation *)

Lemma w_to_rows_loop pns : forall v r, wv v -> wrow r -> safe wv (to_rows_loop v r pns).
Proof.
  induction pns as [|p pns IH]; intros v r H V; cbn [to_rows_loop]; [exact H|].
  eapply safe_bind; [apply w_permute_unchecked; auto|]. intros r' V'. apply wr_wrow in V'.
  eapply safe_bind; [apply w_push; auto|]. intros [v' res] H'. sstep; [sgo|]. apply IH; auto.
Qed.

Lemma w_to_rows pns r : wrow r -> safe (okres wv) (pn_block_to_rows pns r).
Proof.
  intros V. unfold pn_block_to_rows. sstep; [sgo|]. sstep; [unfold pn_block_stage; sgo|].
  destruct (test_err _ _); [|exact I]. eapply safe_bind; [apply w_from_row_buf; auto|]. intros v H.
  eapply safe_bind; [apply w_to_rows_loop; auto|]. intros v' H'. exact H'.
Qed.

Lemma w_with_default_plain {A} (d : A) v : wv v -> safe wb (with_default_annots d v).
Proof.
  intros H. unfold with_default_annots. sstep; [sgo|]. sstep; [apply safe_ssv_len|]. exact H.
Qed.

Lemma w_to_block {A} (d : A) pns r : wrow r -> safe (okres wb) (pn_block_to_block d pns r).
Proof.
  intros V. unfold pn_block_to_block. eapply safe_bind; [apply w_to_rows; auto|]. intros [v|e] H; [|exact I].
  eapply safe_bind; [apply w_with_default_plain; auto|]. intros b Hb; exact Hb.
Qed.

Lemma w_to_block_from_rounds {A} (d : A) pns : safe wb (pn_block_to_block_from_rounds d pns).
Proof.
  unfold pn_block_to_block_from_rounds. sstep; [unfold pn_block_stage; sgo|].
  eapply safe_bind; [apply w_to_block, wrow_rounds|]. intros r Hr. apply safe_unwrap_res; auto.
Qed.

Lemma w_ssv_get v i : wv v -> okopt (wr (ssv_stage v)) (ssv_get v i).
Proof.
  intros H. unfold ssv_get, get_range_of_row. destruct (Nat.leb_spec ((i + 1) * ssv_stage v) (length (ssv_bells v))); cbn; auto.
  split.
  - rewrite firstn_length, skipn_length. nia.
  - apply lts_firstn, lts_skipn; auto.
Qed.

Lemma w_leftover_plain {A} (b : block A) : wb b -> safe wrow (block_leftover_row b).
Proof.
  intros H. unfold block_leftover_row. eapply safe_bind with (P := okopt wrow).
  - unfold ssv_last. sstep; [apply safe_ssv_len|]. destruct a; [exact I|]. pose proof (w_ssv_get (blk_rows b) a H) as G.
    destruct (ssv_get _ _); cbn in *; auto. eapply wr_wrow, G.
  - intros o Ho. apply safe_unwrap; auto.
Qed.

Lemma w_block_empty {A} s : safe wb (@block_empty A s).
Proof.
  unfold block_empty. eapply safe_bind; [apply w_from_row_buf, wrow_rounds|]. intros v Hv. exact Hv.
Qed.

Lemma w_block_parse {A} (d : A) t : safe (okres wb) (block_parse d t).
Proof.
  eapply safe_imp; [apply safe_block_parse|]. intros [b|e]; cbn; auto using wb_of_ok.
Qed.

Lemma w_as_row m : (forall b, In (Some b) m -> b < length m) -> safe (okopt wrow) (mask_as_row m).
Proof.
  intros H. destruct (mask_as_row m) as [[q|]| | |] eqn:E; cbn; auto.
  - apply as_row_inv in E. subst m. rewrite map_length in H. apply Forall_forall. intros b Hb. apply H, in_map, Hb.
  - unfold mask_as_row in E. destruct (forallb _ m); [|discriminate].
    destruct (mapM unwrap m) eqn:E'; cbn in E; try discriminate.
    assert (S : safe any (mapM unwrap m)) by sgo. rewrite E' in S. exact S.
Qed.

(** ** Methods *)

Lemma w_follow_cycle {A} (b : block A) fuel : wb b -> forall start pb left_ pbs path,
  safe any (follow_cycle fuel b start pb left_ pbs path).
Proof.
  intros H. induction fuel as [|fuel IH]; intros; cbn [follow_cycle]; [exact I|]. sstep; [sgo|].
  sstep; [apply w_block_path; auto|]. sgo.
Qed.

Lemma w_cycles_loop {A} (b : block A) fuel : wb b -> forall left_ cycles, safe any (cycles_loop fuel b left_ cycles).
Proof.
  intros H. induction fuel as [|fuel IH]; intros; cbn [cycles_loop]; [exact I|].
  destruct (position _ _); [|exact I]. sstep; [apply w_follow_cycle; auto|]. sgo.
Qed.

Lemma w_cycles {A} (b : block A) : wb b -> safe any (cycles_from_lead b).
Proof. intros H. unfold cycles_from_lead. sstep; [sgo|]. sstep; [sgo|]. apply w_cycles_loop; auto. Qed.

Lemma w_classify {A} ho (b : block A) : wb b -> safe any (classify ho b).
Proof.
  intros H. unfold classify. sstep; [apply w_cycles; auto|]. destruct (partition_cycles a) as [hs ws].
  destruct hs as [|h rest]; [exact I|]. sstep; [apply safe_classify_hunt|]. destruct a0 as [little cl].
  sstep; [apply safe_best_loop|]. destruct a0 as [[x best] ib]. sstep; [sgo|]. sstep; [|exact I].
  destruct best; try exact I; [|apply safe_sub_treble_dodging]. sgo.
Qed.

Definition wm (m : method) : Prop := wb (first_lead m).

Lemma w_with_name ho name b : wb b -> safe wm (with_name ho name b).
Proof.
  intros H. unfold with_name. sstep; [apply w_classify; auto|]. sstep; [unfold generate_title; sgo|]. exact H.
Qed.

Lemma safe_any_pn_block_parse t s : safe any (pn_block_parse t s).
Proof.
  unfold pn_block_parse. eapply safe_bind; [apply safe_pnb_parse_loop; auto|]. intros [[|p pns]|e] H; exact I.
Qed.

Lemma w_from_place_not_string ho name s t : safe (okres wm) (from_place_not_string ho name s t).
Proof.
  unfold from_place_not_string. sstep; [apply safe_any_pn_block_parse|].
  destruct a as [pns|e]; [|exact I]. eapply safe_bind; [apply w_to_block_from_rounds|]. intros b Hb.
  eapply safe_bind; [apply w_with_name; auto|]. intros m Hm. exact Hm.
Qed.

Lemma w_with_lead_end ho name pns : safe wm (with_lead_end ho name pns).
Proof.
  unfold with_lead_end. eapply safe_bind; [apply w_to_block_from_rounds|]. intros b Hb.
  sstep; [unfold usub; sgo|]. eapply safe_bind; [apply safe_unwrap, wb_set_annot, Hb|]. intros b' Hb'.
  apply w_with_name; auto.
Qed.

Lemma w_set_label m i l : wm m -> safe wm (set_label m i l).
Proof.
  intros H. unfold set_label. pose proof (wb_set_annot (first_lead m) i l H) as K.
  destruct (block_set_annot _ _ _); cbn in *; auto.
Qed.

Lemma w_library_get lib t : safe (okopt (okres wm)) (Library.get_by_title_option lib t).
Proof.
  unfold Library.get_by_title_option. destruct (stage_from_lower_case_name _) as [s|] eqn:E; [|exact I].
  destruct (Library.hm_get _ _ _); [|exact I]. destruct (Library.hm_get _ _ _) as [cm|]; [|exact I].
  unfold Library.to_method. rewrite bind_assoc. sstep; [apply safe_any_pn_block_parse|].
  destruct a as [pns|e]; [|exact I]. rewrite bind_assoc. eapply safe_bind; [apply w_to_block_from_rounds|]. intros b Hb. exact Hb.
Qed.

Section Methods.
Context (bd : build) (limit : N).

Lemma w_row_in_course m i : smallb bd (first_lead m) -> wm m -> safe wrow (r_row_in_plain_course bd m i).
Proof.
  intros Hs H. unfold r_row_in_plain_course. cbv zeta. sstep; [sgo|]. sstep; [eapply any_any, w_leftover; auto|].
  eapply safe_bind; [apply w_pow_u|]. intros q Wq. sstep; [eapply any_any, w_m_index; auto|].
  eapply safe_imp; [apply w_row_mul; auto|]. intros r Hr. eapply wr_wrow, Hr.
Qed.

Lemma w_plain_course_loop fuel len : forall b : block row_annot, smallb bd b -> wb b -> safe wb (r_plain_course_loop bd limit fuel len b).
Proof.
  induction fuel as [|fuel IH]; intros b Hs H; cbn [r_plain_course_loop]; [exact I|].
  sstep; [eapply any_any, w_leftover; auto|]. destruct (is_rounds _); [exact H|].
  eapply safe_bind; [apply w_block_extend_from_within; auto|]. intros b' [H' E]. apply IH; auto.
  unfold smallb, small. unfold block_stage in E. rewrite E. exact Hs.
Qed.
Lemma w_plain_course fuel m : smallb bd (first_lead m) -> wm m -> safe wb (r_plain_course bd limit fuel m).
Proof. intros Hs H. apply w_plain_course_loop; auto. Qed.
End Methods.

(** ** Programs *)

Definition wval (v : value) : Prop :=
  match v with
  | VRow r => wrow r
  | VAcc a => wacc a
  | VVec v => wv v
  | VIter it => wi it
  | VBlock b => wb b
  | VRepeat ri => wri ri
  | VPn _ | VPnBlock _ | VMask _ => True
  | VMethod m => wm m
  end.

Notation wst := (Forall wval).

Section Prog.
Context (bd : build) (limit : N) (ho : list nat -> list nat) (st : list value) (Hst : wst st)
  (Hw : word_stages (width bd) st).

Lemma wst_nth i v : nth_error st i = Some v -> wval v.
Proof. intros E. rewrite Forall_forall in Hst. apply Hst. eapply nth_error_In; eauto. Qed.
Lemma word_nth i v s : nth_error st i = Some v -> stage_of v = Some s -> (N.of_nat s < 2 ^ width bd)%N.
Proof. intros E. apply Hw. eapply nth_error_In; eauto. Qed.

Ltac getv := match goal with |- context [nth_error st ?i] => destruct (nth_error st i) as [[]|] eqn:? end;
  try exact Hst; match goal with H : nth_error st _ = Some _ |- _ =>
    apply wst_nth in H as ?; try (eapply word_nth in H as ?; [|reflexivity]); cbn [wval] in * end.

Lemma w_with_row i f : (forall r, nth_error st i = Some (VRow r) -> wrow r -> safe wst (f r)) -> safe wst (with_row st i f).
Proof. intros H. unfold with_row. getv. auto. Qed.
Lemma w_with_acc i f : (forall r, wacc r -> safe wst (f r)) -> safe wst (with_acc st i f).
Proof. intros H. unfold with_acc. getv. auto. Qed.
Lemma w_with_vec i f : (forall v, small bd v -> wv v -> safe wst (f v)) -> safe wst (with_vec st i f).
Proof. intros H. unfold with_vec. getv. auto. Qed.
Lemma w_with_iter i f : (forall r, wi r -> safe wst (f r)) -> safe wst (with_iter st i f).
Proof. intros H. unfold with_iter. getv. auto. Qed.
Lemma w_with_block i f : (forall r, smallb bd r -> wb r -> safe wst (f r)) -> safe wst (with_block st i f).
Proof. intros H. unfold with_block. getv. auto. Qed.
Lemma w_with_repeat i f : (forall r, smallb bd (ri_block r) -> wri r -> safe wst (f r)) -> safe wst (with_repeat st i f).
Proof. intros H. unfold with_repeat. getv. auto. Qed.
Lemma w_with_pn i f : (forall r, safe wst (f r)) -> safe wst (with_pn st i f).
Proof. intros H. unfold with_pn. destruct (nth_error st i) as [[]|]; try exact Hst; auto. Qed.
Lemma w_with_pn_block i f : (forall r, safe wst (f r)) -> safe wst (with_pn_block st i f).
Proof. intros H. unfold with_pn_block. destruct (nth_error st i) as [[]|]; try exact Hst; auto. Qed.
Lemma w_with_mask i f : (forall m, nth_error st i = Some (VMask m) -> safe wst (f m)) -> safe wst (with_mask st i f).
Proof. intros H. unfold with_mask. destruct (nth_error st i) as [[]|]; try exact Hst; auto. Qed.
Lemma w_with_method i f : (forall r, smallb bd (first_lead r) -> wm r -> safe wst (f r)) -> safe wst (with_method st i f).
Proof. intros H. unfold with_method. getv. auto. Qed.

Lemma w_rows_at is : Forall wrow (rows_at st is).
Proof.
  induction is as [|i is IH]; cbn; auto. destruct (nth_error st i) as [[]|] eqn:E; auto. apply wst_nth in E. auto.
Qed.

Lemma w_change_row c r : wrow r -> safe (wr (length r)) (change_row st c r).
Proof.
  intros V. assert (S : safe (wr (length r)) (Ret r)) by (apply wrow_wr; auto).
  destruct c as [a b|fuel|i j|i|p]; cbn [change_row].
  - apply w_row_swap; auto.
  - eapply safe_bind; [apply w_parity; auto|]. intros [r' x] H; exact H.
  - destruct (nth_error st i) as [[]|] eqn:Ei; auto. destruct (nth_error st j) as [[]|] eqn:Ej; auto.
    apply wst_nth in Ei, Ej. eapply safe_bind; [apply w_mul_into_row; auto|]. intros [r' x] H; exact H.
  - destruct (nth_error st i) as [[]|] eqn:Ei; auto. apply wst_nth in Ei.
    eapply safe_bind; [apply w_inv_into; auto|]. intros [r' x] H; exact H.
  - destruct (nth_error st p) as [[]|] eqn:Ei; auto.
    eapply safe_bind; [apply w_pn_permute; auto|]. intros [r' x] H; exact H.
Qed.
Lemma w_change_wr n c r : wr n r -> safe (wr (length r)) (change_row st c r).
Proof. intros H. apply w_change_row. eapply wr_wrow, H. Qed.
End Prog.

Lemma w_push_all st vs : wst st -> wst vs -> safe wst (push_all st vs).
Proof. intros H F. cbn. apply Forall_app; auto. Qed.
Lemma w_push_val st v : wst st -> wval v -> safe wst (push st v).
Proof. intros H F. cbn. apply Forall_app; auto. Qed.
Lemma w_put st i v : wst st -> wval v -> safe wst (put st i v).
Proof. intros H F. cbn. apply Forall_upd; auto. Qed.
Lemma w_push_opt st o : wst st -> okopt wval o -> safe wst (push_opt st o).
Proof. destruct o; cbn; auto. intros. apply Forall_app; auto. Qed.
Lemma w_push_res st {E} (r : result value E) : wst st -> okres wval r -> safe wst (push_res st r).
Proof. destruct r; cbn; auto. intros. apply Forall_app; auto. Qed.

Lemma wst_rows rs : Forall wrow rs -> wst (map VRow rs).
Proof. induction 1; cbn; auto. Qed.
Lemma wres_map {A E} (P : A -> Prop) (f : A -> value) (r : result A E) :
  okres P r -> (forall a, P a -> wval (f a)) -> okres wval (res_map f r).
Proof. destruct r; cbn; auto. Qed.
Lemma wopt_map {A} (P : A -> Prop) (f : A -> value) (r : option A) :
  okopt P r -> (forall a, P a -> wval (f a)) -> okopt wval (option_map f r).
Proof. destruct r; cbn; auto. Qed.
Lemma wres_true {A E} (f : A -> value) (r : result A E) : (forall a, wval (f a)) -> okres wval (res_map f r).
Proof. destruct r; cbn; auto. Qed.
Lemma wopt_true {A} (f : A -> value) (r : option A) : (forall a, wval (f a)) -> okopt wval (option_map f r).
Proof. destruct r; cbn; auto. Qed.

Ltac arg := first [apply w_with_row | eapply w_with_acc | eapply w_with_vec | eapply w_with_iter
  | eapply w_with_block | eapply w_with_repeat | apply w_with_pn | apply w_with_pn_block
  | apply w_with_mask | eapply w_with_method]; [assumption | try eassumption; intros..].
Ltac via L := eapply safe_bind; [apply L; auto|].
Ltac ret :=
  match goal with
  | |- safe _ (push_all _ _) => apply w_push_all
  | |- safe _ (push _ _) => apply w_push_val
  | |- safe _ (put _ _ _) => apply w_put
  | |- safe _ (push_opt _ _) => apply w_push_opt
  | |- safe _ (push_res _ _) => apply w_push_res
  end; auto; cbn [wval]; auto.
Ltac rowmap := first [eapply wopt_map; [eassumption|] | eapply wres_map; [eassumption|]]; cbn [wval]; eauto using wr_wrow.

Lemma w_step bd limit ho st c : wst st -> word_stages (width bd) st -> tame_call st c -> safe wst (r_step bd limit ho st c).
Proof.
  intros H W C. destruct c; try match goal with p : place |- _ => destruct p end; cbn [r_step m_step step]; repeat arg.
  (* rows *)
  - sstep; [eapply any_any, safe_stage|]. ret. apply wrow_rounds.
  - via safe_stage. intros s [Hs _]. ret. apply valid_wrow, valid_backrounds; auto.
  - via safe_stage. intros s [Hs _]. ret. apply valid_wrow, valid_queens; auto.
  - ret. eapply wres_map; [apply from_vec_safe|]. exact valid_wrow.
  - ret. eapply wres_map; [apply row_parse_safe|]. exact valid_wrow.
  - via safe_stage. intros s [Hs _]. via safe_from_vec_with_stage. intros r Hr. ret. eapply wres_map; [exact Hr|]. exact valid_wrow.
  - via safe_stage. intros s [Hs _]. via safe_from_vec_with_stage. intros r Hr. ret. eapply wres_map; [exact Hr|]. exact valid_wrow.
  - via safe_stage. intros s [Hs _]. via w_extend_to_stage. intros r' Hr. ret.
  - ret.
  - ret.
  - via w_row_mul. intros x Hx. ret. eapply wr_wrow, Hx.
  - via w_mul_result. intros x Hx. ret. rowmap.
  - via w_mul_into. intros [x y] Hx. ret.
  - via w_row_inv. intros x Hx. ret. eapply wr_wrow, Hx.
  - eapply safe_bind; [apply w_inv_into_buf; auto; eapply C; eauto|]. intros x Hx. ret.
  - via w_pow_u. intros x Hx. ret.
  - via w_m_pow_i. intros x Hx. ret.
  - via w_solve_ax. intros x Hx. ret. rowmap.
  - via w_solve_xa. intros x Hx. ret. rowmap.
  - via w_closure. intros x Hx. ret. apply wst_rows; auto.
  - via w_closure_from_rounds. intros x Hx. ret. apply wst_rows; auto.
  - eapply safe_bind; [apply w_mcp|].
    + clear C. induction sets as [|s sets IH]; cbn; constructor; auto. apply w_rows_at; auto.
    + intros [rs|e] Hr; [|exact H]. ret. apply wst_rows; auto.
  - eapply safe_bind; [apply w_least_group, w_rows_at; auto|].
    intros [rs|e] Hr; [|exact H]. ret. apply wst_rows; auto.
  - sstep; [apply safe_is_group|]. exact H.
  - via w_change_row. intros x Hx. ret. eapply wr_wrow, Hx.
  - eapply safe_bind; [apply w_m_edit; auto; intros r Vr; eapply w_change_wr; eauto|].
    intros [v'|] Hv; [|exact H]. ret.
  - eapply safe_bind; [apply w_edit0; auto; intros r Vr; eapply w_change_wr; eauto|].
    intros [v'|] Hv; [|exact H]. ret.
  - eapply safe_bind; [apply w_edit_last; auto; intros r Vr; eapply w_change_wr; eauto|].
    intros [v'|] Hv; [|exact H]. ret.
  (* accumulators *)
  - via w_acc_new. intros x Hx. ret.
  - via safe_stage. intros s [Hs _]. eapply safe_bind; [apply w_acc_new, wrow_rounds; auto|]. intros x Hx. ret.
  - via w_accumulate. intros [x y] Hx. ret.
  - via w_pre_accumulate. intros [x y] Hx. ret.
  - ret. match goal with K : wacc _ |- _ => destruct K end. split; auto.
  - via w_acc_mul_assign. intros x Hx. ret.
  - ret. match goal with K : wacc _ |- _ => apply K end.
  (* buffers *)
  - via safe_stage. intros s [Hs _]. ret. constructor.
  - via w_from_row_buf. intros x Hx. ret.
  - via w_ssv_parse. intros x Hx. ret. rowmap.
  - via w_m_get. intros x Hx. ret. rowmap.
  - ret. eapply wopt_map; [apply w_get0; auto|]. intros a Ha; eapply wr_wrow, Ha.
  - via w_last. intros x Hx. ret. rowmap.
  - via w_m_index. intros x Hx. ret. eapply wr_wrow, Hx.
  - via w_rows. intros x Hx. ret. eapply wst_rows, Forall_wrow, Hx.
  - via w_push. intros [x y] Hx. ret.
  - via w_pop. intros [x y] (Hx & _ & Hy). eapply safe_bind; [apply w_put; auto; exact Hx|]. intros st' H'.
    ret. cbn in Hy. rowmap.
  - via w_extend. { apply w_rows_at; auto. } intros [x y] Hx. ret.
  - ret. apply wv_extend_from_buf; auto.
  - via w_extend_range_transposed. intros [x y] [Hx _]. ret.
  - via w_extend_range_transposed. intros [x y] [Hx _]. ret.
  - via w_from_within. intros [x y] Hx. ret.
  - via w_pre_multiply. intros [x y] Hx. ret.
  - via w_pre_multiplied. intros x Hx. ret. rowmap.
  - via w_split. intros [[x y]|] Hx; [|exact H]. destruct Hx as (Hx & Hy & _). ret.
  - sstep; [apply w_path; auto|]. exact H.
  - ret.
  - via w_it_next. intros [o it'] (Ho & Hi & _). eapply safe_bind; [apply w_put; auto; exact Hi|]. intros st' H'.
    ret. cbn in Ho. rowmap.
  - via w_it_next_back. intros [o it'] (Ho & Hi & _). eapply safe_bind; [apply w_put; auto; exact Hi|]. intros st' H'.
    ret. cbn in Ho. rowmap.
  (* blocks *)
  - via (@w_block_parse (option str)). intros x Hx. ret. rowmap.
  - via safe_stage. intros s [Hs _]. via (@w_block_empty (option str)). intros x Hx. ret.
  - via (@w_with_default (option str)). intros x Hx. ret.
  - via (@w_from_indices (option str)). intros x Hx. ret. rowmap.
  - via w_m_get. intros x Hx. ret. rowmap.
  - eapply safe_bind; [apply safe_unwrap, w_get0; auto|]. intros x Hx. ret. eapply wr_wrow, Hx.
  - via (@w_leftover (option str)). intros x Hx. ret. eapply wr_wrow, Hx.
  - via (@w_block_rows (option str)). intros x Hx. ret. eapply wst_rows, Forall_wrow, Hx.
  - via w_rows. intros x Hx. ret. eapply wst_rows, Forall_wrow, Hx.
  - via (@w_annot_rows (option str)). intros x Hx. ret. clear - Hx. induction x as [|[r a] x IH]; cbn in *; auto.
    inversion Hx; subst. auto.
  - via (@w_rows_iter (option str)). intros x [Hx _]. ret.
  - sstep; [apply w_block_path; auto|]. exact H.
  - via (@w_block_pre_multiply (option str)). intros [x y] Hx. ret.
  - unfold r_block_extend. via (@w_block_extend_range (option str)). intros [x y] Hx. ret.
  - via (@w_block_extend_range (option str)). intros [x y] Hx. ret.
  - via (@w_block_extend_from_within (option str)). intros x [Hx _]. ret.
  - via (@w_block_split (option str)). intros [[x y]|] Hx; [|exact H]. ret. destruct Hx. constructor; auto.
  - ret.
  - match goal with |- context [block_set_annot ?x ?i ?a] =>
      pose proof (wb_set_annot x i a) as S; destruct (block_set_annot x i a) end; [|exact H]. ret. exact (S H1).
  - via (@w_repeat_new (option str)). intros x Hx. ret. rowmap.
  - via (@w_repeat_next (option str)). intros [o x] [Ho Hx]. eapply safe_bind; [apply w_put; auto; exact Hx|]. intros st' H'.
    ret. rowmap.
  - via (@w_repeat_next_into (option str)). intros [[o r'] x] [Ho Hx]. eapply safe_bind; [apply w_put; auto; exact Hx|].
    intros st' H'. apply w_put; auto.
  (* place notation *)
  - via safe_stage. intros s [Hs _]. via safe_pn_parse. intros x Hx. ret. apply wres_true; cbn; auto.
  - via safe_stage. intros s [Hs _]. ret. apply wopt_true; cbn; auto.
  - via safe_between. intros x Hx. ret. apply wopt_true; cbn; auto.
  - via w_pn_permute_new. intros x Hx. ret. rowmap.
  - via w_transposition. intros x Hx. ret.
  - via safe_stage. intros s [Hs _]. via safe_pn_block_parse. intros x Hx. ret. apply wres_true; cbn; auto.
  - ret. apply wres_true; cbn; auto.
  - via w_to_rows. intros x Hx. ret. rowmap.
  - via (@w_to_block (option str)). intros x Hx. ret. rowmap.
  - via (@w_to_block_from_rounds (option str)). intros x Hx. ret.
  (* masks *)
  - ret.
  - via safe_stage. intros s _. ret.
  - ret.
  - via safe_stage. intros s _. sstep; [apply safe_mask_fix_bells|]. ret.
  - sstep; [apply safe_mask_fix|]. destruct a. ret.
  - sstep; [apply safe_mask_set_bell|]. destruct a. ret.
  - sstep; [apply safe_mask_combine|]. ret. apply wopt_true; cbn; auto.
  - sstep; [apply safe_mask_mul_row|]. ret.
  - sstep; [apply safe_row_mul_mask|]. ret.
  - eapply safe_bind; [apply w_as_row; intros; eapply C; eauto|]. intros x Hx. ret. rowmap.
  (* methods *)
  - ret.
  - via w_with_name. intros x Hx. ret.
  - via safe_stage. intros s [Hs _]. via w_from_place_not_string. intros x Hx. ret. rowmap.
  - via w_with_lead_end. intros x Hx. ret.
  - ret.
  - via (@w_leftover (option str)). intros x Hx. ret. eapply wr_wrow, Hx.
  - via w_m_index. intros x Hx. ret. eapply wr_wrow, Hx.
  - via w_row_in_course. intros x Hx. ret.
  - via w_plain_course. intros x Hx. ret.
  - via w_set_label. intros x Hx. ret.
  (* clones, calls and libraries *)
  - ret. destruct (nth_error st i) eqn:E; cbn; auto. eapply wst_nth; eauto.
  - ret.
  - eapply safe_bind; [eapply w_leftover; [|match goal with K : wb _ |- _ => exact K end]; assumption|].
    intros x Hx. ret. eapply wr_wrow, Hx.
  - unfold Call.le_bob. rewrite bind_assoc. via (@w_to_block_from_rounds unit). intros x Hx. cbn [bind].
    eapply safe_bind; [apply w_leftover_plain; auto|]. intros y Hy. ret. 
  - unfold Call.le_single. rewrite bind_assoc. via (@w_to_block_from_rounds unit). intros x Hx. cbn [bind].
    eapply safe_bind; [apply w_leftover_plain; auto|]. intros y Hy. ret.
  - via w_library_get. intros [[x|x]|] Hx; try exact H. ret.
Qed.

Lemma w_run bd limit ho prog : forall st, wst st -> word_program bd limit ho st prog -> tame bd limit ho st prog ->
  safe wst (r_run_from bd limit ho st prog).
Proof.
  induction prog as [|c prog IH]; intros st H W C; unfold r_run_from; cbn [foldM]; [exact H|].
  destruct C as [C1 C2], W as [W1 W2]. pose proof (w_step bd limit ho st c H W1 C1) as S.
  destruct (r_step bd limit ho st c) as [st'| | |] eqn:E'; cbn in *; auto. apply IH; auto.
Qed.

Lemma beyond_tame bd limit ho prog : Forall (fun c => may_go_beyond c = false) prog -> forall st, tame bd limit ho st prog.
Proof.
  induction 1 as [|c prog Hc F IH]; intros st; cbn; auto. split; auto. destruct c; cbn in *; auto; discriminate.
Qed.

(** To see that the stages in a given store are words. *)
Lemma word_stages_b w st :
  forallb (fun v => match stage_of v with Some s => (N.of_nat s <? 2 ^ w)%N | None => true end) st = true -> word_stages w st.
Proof.
  intros H v s Hv E. rewrite forallb_forall in H. specialize (H v Hv). rewrite E in H. apply N.ltb_lt, H.
Qed.

Ltac word_program_steps :=
  repeat (split; [apply word_stages_b; vm_compute; reflexivity|
    match goal with
    | |- True => exact I
    | _ => let st := fresh "st" in let E := fresh "E" in intros st E; vm_compute in E; injection E as <-
    end]).
