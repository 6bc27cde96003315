(** Which computations come to an end. *)
From Verif Require Import Base Bell Stage Parity Row Utils SameStageVec Block PlaceNot Mask Class Method Program
  Spec SpecVec SpecBlock SpecProg SpecEnds ListFacts BellFacts RowFacts MulFacts GroupFacts ParityFacts SsvFacts BlockFacts ClassFacts RowThms GroupThms MethodThms SafeFacts SafeFacts2.
From Verif Require Call Library.
Local Open Scope list_scope.

Definition ends {A} (e : exec A) : Prop := e <> NoFuel.

Lemma ends_bind {A B} (e : exec A) (f : A -> exec B) : ends e -> (forall a, e = Ret a -> ends (f a)) -> ends (bind e f).
Proof. unfold ends. destruct e; cbn; auto; congruence. Qed.
Lemma ends_ret {A} (a : A) : ends (Ret a). Proof. discriminate. Qed.
Lemma ends_panic {A} : ends (@Panic A). Proof. discriminate. Qed.
Lemma ends_ub {A} : ends (@Ub A). Proof. discriminate. Qed.
Lemma ends_mapM {A B} (f : A -> exec B) l : (forall x, ends (f x)) -> ends (mapM f l).
Proof.
  intros H. induction l; cbn [mapM]; [discriminate|]. apply ends_bind; auto. intros y _. apply ends_bind; auto. discriminate.
Qed.
Lemma ends_foldM {A S} (f : S -> A -> exec S) l : (forall s x, ends (f s x)) -> forall s, ends (foldM f l s).
Proof. intros H. induction l; intros s; cbn [foldM]; [discriminate|]. apply ends_bind; auto. Qed.

Create HintDb ends.
#[export] Hint Resolve ends_ret ends_panic ends_ub : ends.

Ltac headof e := match e with ?f _ => headof f | _ => e end.
Ltac estep :=
  match goal with
  | |- ends (bind _ _) => apply ends_bind; [|intros ? ?]
  | |- ends (mapM _ _) => apply ends_mapM; intros
  | |- ends (foldM _ _ _) => apply ends_foldM; intros
  | |- ends (match ?x with _ => _ end) => destruct x eqn:?
  | |- ends ((fun _ => _) _) => cbv beta
  | |- ends (let _ := _ in _) => cbv zeta
  | |- ends ?e => solve [eauto with ends nocore]
  | |- ends ?e => let h := headof e in unfold h
  end.
Ltac ego := repeat estep.

(** ** Loops *)

Lemma ends_effective_stage_loop l : ends (effective_stage_loop l).
Proof. induction l; cbn [effective_stage_loop]; ego. Qed.
Lemma ends_mul_into_row_loop a out : forall b, ends (mul_into_row_loop a out b).
Proof. revert a. induction out; intros; cbn [mul_into_row_loop]; ego. Qed.
#[export] Hint Resolve ends_effective_stage_loop ends_mul_into_row_loop : ends.
Lemma ends_mcp_first set : forall st, ends (mcp_first st set).
Proof. induction set; intros; cbn [mcp_first]; ego. Qed.
Lemma ends_mcp_step s from set : ends (mcp_step s from set).
Proof. induction set; intros; cbn [mcp_step]; ego. Qed.
#[export] Hint Resolve ends_mcp_first ends_mcp_step : ends.
Lemma ends_mcp_loop sets : forall st from, ends (mcp_loop st from sets).
Proof. induction sets; intros; cbn [mcp_loop]; ego. Qed.
Lemma ends_lgc_seed rows : forall st set frontier, ends (lgc_seed st set frontier rows).
Proof. induction rows; intros; cbn [lgc_seed]; ego. Qed.
Lemma ends_lgc_expand r rows : forall set frontier, ends (lgc_expand r set frontier rows).
Proof. induction rows; intros; cbn [lgc_expand]; ego. Qed.
Lemma ends_is_group_stages set : forall first, ends (is_group_stages first set).
Proof. induction set; intros; cbn [is_group_stages]; ego. Qed.
Lemma ends_is_group_inner set b todo : forall buf, ends (is_group_inner set b buf todo).
Proof. induction todo; intros; cbn [is_group_inner]; ego. Qed.
#[export] Hint Resolve ends_mcp_loop ends_lgc_seed ends_lgc_expand ends_is_group_stages ends_is_group_inner : ends.
Lemma ends_is_group_outer set todo : forall b buf, ends (is_group_outer set b buf todo).
Proof. induction todo; intros; cbn [is_group_outer]; ego. Qed.
#[export] Hint Resolve ends_is_group_outer : ends.
Lemma ends_acc_accumulate a r : ends (acc_accumulate a r).
Proof. ego. Qed.
#[export] Hint Resolve ends_acc_accumulate : ends.
Lemma ends_pow_loop r n : forall a, ends (pow_loop a r n).
Proof. induction n; intros; cbn [pow_loop]; ego. Qed.
Lemma ends_ssv_extend_loop s before rows : forall bells, ends (ssv_extend_loop s before bells rows).
Proof. induction rows; intros; cbn [ssv_extend_loop]; ego. Qed.
Lemma ends_ssv_parse_loop ls : forall v n, ends (ssv_parse_loop v n ls).
Proof. induction ls; intros; cbn [ssv_parse_loop]; ego. Qed.
Lemma ends_zip_eq {X Y} (l : list X) : forall (m : list Y), ends (zip_eq l m).
Proof. induction l; intros []; cbn [zip_eq]; ego. Qed.
Lemma ends_fss_loop parsed : forall places, ends (fss_loop places parsed).
Proof. induction parsed; intros; cbn [fss_loop]; ego. Qed.
#[export] Hint Resolve ends_pow_loop ends_ssv_extend_loop ends_ssv_parse_loop ends_zip_eq ends_fss_loop : ends.
Lemma ends_asym_loop off s toks : forall a b c, ends (asym_loop off s toks a b c).
Proof. induction toks; intros; cbn [asym_loop]; ego. Qed.
#[export] Hint Resolve ends_asym_loop : ends.
Lemma ends_pnb_parse_loop sing s ps : forall a b, ends (pnb_parse_loop sing s ps a b).
Proof. induction ps; intros; cbn [pnb_parse_loop]; ego. Qed.
Lemma ends_permute_loop s : forall fuel places i r, 0 < fuel -> s < i + fuel -> ends (permute_loop fuel s places i r).
Proof.
  induction fuel as [|fuel IH]; intros places i r H0 H; cbn [permute_loop]; [lia|].
  destruct (Nat.ltb_spec i s); [|apply ends_ret]. destruct places as [|p places].
  - estep; [ego|]. apply IH; lia.
  - destruct (p =? i); [apply IH; lia|]. estep; [ego|]. apply IH; lia.
Qed.
Lemma ends_permute_unchecked pn r : ends (permute_unchecked pn r).
Proof. unfold permute_unchecked. apply ends_permute_loop; lia. Qed.
#[export] Hint Resolve ends_pnb_parse_loop ends_permute_unchecked : ends.
Lemma ends_to_rows_loop pns : forall rows r, ends (to_rows_loop rows r pns).
Proof. induction pns; intros; cbn [to_rows_loop]; ego. Qed.
#[export] Hint Resolve ends_to_rows_loop : ends.

(** ** Rows of a buffer *)

Lemma ends_it_collect : forall fuel it, 0 < it_stage it -> length (it_left it) < fuel -> ends (it_collect fuel it).
Proof.
  induction fuel as [|fuel IH]; intros it Hs H; cbn [it_collect]; [lia|].
  unfold it_next. destruct (it_left it) as [|x l] eqn:E; [cbn [bind]; apply ends_ret|].
  unfold split_at. destruct (_ <=? _) eqn:L; [|apply ends_panic]. cbn [bind]. apply Nat.leb_le in L.
  estep; [|apply ends_ret]. apply IH; cbn; auto. rewrite skipn_length. cbn [length] in *. lia.
Qed.
Lemma ends_ssv_rows v : 0 < ssv_stage v -> ends (ssv_rows v).
Proof. intros H. unfold ssv_rows. apply ends_it_collect; cbn; auto. Qed.
Lemma ends_ssv_path_of v b : ends (ssv_path_of v b).
Proof.
  unfold ssv_path_of. destruct (Nat.ltb_spec b (ssv_stage v)); [|ego]. estep; [apply ends_ssv_rows; lia|]. ego.
Qed.
#[export] Hint Resolve ends_ssv_path_of : ends.
Section Blocks.
Context {A : Type}.
Lemma ends_block_rows (b : block A) : okb b -> ends (block_rows b).
Proof.
  intros H. unfold block_rows. estep; [ego|]. apply ends_it_collect; [|lia].
  pose proof (okv_pos _ H) as P. unfold block_rows_iter, it_next_back in H0. cbn [ssv_iterator it_left it_stage] in H0.
  destruct (ssv_bells (blk_rows b)); cbn in H0; [injection H0 as <-; auto|].
  unfold assert_, split_at in H0. repeat (match type of H0 with context [if ?c then _ else _] => destruct c end; cbn in H0; try discriminate).
  injection H0 as <-. exact P.
Qed.
Lemma ends_block_all_rows (b : block A) : okb b -> ends (block_all_rows b).
Proof. intros H. apply ends_ssv_rows, okv_pos, H. Qed.
Lemma ends_block_annot_rows (b : block A) : okb b -> ends (block_annot_rows b).
Proof. intros H. unfold block_annot_rows. estep; [apply ends_block_rows; auto|]. ego. Qed.
End Blocks.

(** ** Classification *)

Lemma follow_cycle_same {A B} (b : block A) (b' : block B) : blk_rows b = blk_rows b' -> forall fuel x y left_ pbs path,
  follow_cycle fuel b x y left_ pbs path = follow_cycle fuel b' x y left_ pbs path.
Proof.
  intros E. induction fuel as [|fuel IH]; intros; cbn [follow_cycle]; auto.
  replace (block_path_of b y) with (block_path_of b' y) by (unfold block_path_of, block_full_path_of; rewrite E; reflexivity).
  destruct (set_idx left_ y false); cbn [bind]; auto. destruct (block_path_of b' y); cbn [bind]; auto.
  destruct (unwrap a0) as [[path' nxt]| | |]; cbn [bind]; auto. cbv zeta. rewrite IH. reflexivity.
Qed.
Lemma cycles_loop_same {A B} (b : block A) (b' : block B) : blk_rows b = blk_rows b' -> forall fuel left_ cs,
  cycles_loop fuel b left_ cs = cycles_loop fuel b' left_ cs.
Proof.
  intros E. induction fuel as [|fuel IH]; intros; cbn [cycles_loop]; auto. destruct (position _ _); auto.
  rewrite (follow_cycle_same b b' E). match goal with |- bind ?e _ = _ => destruct e as [[[? ?] ?]| | |] end; cbn [bind]; auto.
Qed.

Lemma ends_cycles {A} (b : block A) : okb b -> ends (cycles_from_lead b).
Proof.
  intros H. unfold cycles_from_lead. estep; [ego|]. estep; [ego|]. cbv zeta.
  destruct H as [rs R]. destruct rs as [|r0 rs0] eqn:Ers.
  - exfalso. unfold block_first_annot_row, block_get_annot_row, block_get_row in H0.
    erewrite ssv_get_ok in H0 by exact R. discriminate.
  - destruct (@exists_last _ rs) as (init & lo & E1); [congruence|]. rewrite <- Ers, E1 in R. clear r0 rs0 rs Ers E1.
    set (b' := Block (blk_rows b) (map (fun _ => tt) init) : block unit).
    assert (B : brep (block_stage b) (map (fun r => (r, tt)) init) lo b').
    { split; cbn; rewrite map_map; cbn; [rewrite map_id; exact R|reflexivity]. }
    rewrite (cycles_loop_same b b') by reflexivity.
    destruct (cycles_loop_ok _ _ _ _ B (S (block_stage b)) (repeat true (block_stage b)) []) as (st & E & _); cbn [map length bells_of flat_map]; auto.
    + apply repeat_length.
    + intros i Hi. rewrite nth_error_repeat_iff. cbn. tauto.
    + constructor.
    + intros i j x y _ Hx. destruct i; discriminate.
    + cbn. lia.
    + change ([] : list cycle) with (map (cyc (map (fun r => (r, tt)) init) lo) []). rewrite E. apply ends_ret.
Qed.

Lemma ends_cross_loop {A} (b : block A) is : forall x y, ends (cross_loop b is x y).
Proof. induction is; intros; cbn [cross_loop]; ego. Qed.
Lemma ends_best_loop s cs : forall x y z, ends (best_loop s cs x y z).
Proof. induction cs; intros; cbn [best_loop]; ego. Qed.
#[export] Hint Resolve ends_cross_loop ends_best_loop : ends.
Lemma ends_classify {A} ho (b : block A) : okb b -> ends (classify ho b).
Proof. intros H. unfold classify. cbv zeta. estep; [apply ends_cycles; auto|]. ego. Qed.
Lemma ends_with_name ho name b : okb b -> ends (with_name ho name b).
Proof. intros H. unfold with_name. estep; [apply ends_classify; auto|]. ego. Qed.
Lemma safe_Ret {A} (P : A -> Prop) e a : safe P e -> e = Ret a -> P a.
Proof. intros H ->. exact H. Qed.
Lemma ends_from_place_not_string ho name s t : 0 < s -> ends (from_place_not_string ho name s t).
Proof.
  intros H. unfold from_place_not_string. estep; [ego|]. apply (safe_Ret _ _ _ (safe_pn_block_parse t s H)) in H0.
  destruct a as [pns|e]; [|ego]. estep; [ego|]. apply (safe_Ret _ _ _ (safe_to_block_from_rounds None pns H0)) in H1.
  estep; [apply ends_with_name; auto|]. ego.
Qed.
Lemma ends_with_lead_end ho name pns : Forall okpn pns -> ends (with_lead_end ho name pns).
Proof.
  intros H. unfold with_lead_end. estep; [ego|]. apply (safe_Ret _ _ _ (safe_to_block_from_rounds None pns H)) in H0.
  estep; [ego|]. estep; [ego|]. apply ends_with_name.
  pose proof (okb_set_annot _ a0 (Some LABEL_LEAD_END) H0) as K. destruct (block_set_annot _ _ _); [|discriminate]. injection H2 as ->. exact K.
Qed.

(** ** Loops which are cut off *)

(** more rounds do not change the outcome *)
Definition mono {A} (f : nat -> exec A) : Prop := forall k k', k <= k' -> f k <> NoFuel -> f k' = f k.

Lemma mono_const {A} (e : exec A) : mono (fun _ => e). Proof. intros k k' _ _. reflexivity. Qed.
Lemma mono_bind {A B} (f : nat -> exec A) (g : nat -> A -> exec B) : mono f -> (forall a, mono (fun k => g k a)) ->
  mono (fun k => bind (f k) (g k)).
Proof.
  intros F G k k' L N. assert (E : f k' = f k) by (apply F; auto; intros E; rewrite E in N; auto). rewrite E.
  destruct (f k); cbn in *; auto. apply G; auto.
Qed.
Lemma mono_foldM {A S} (f : nat -> S -> A -> exec S) l : (forall s a, mono (fun k => f k s a)) -> forall s, mono (fun k => foldM (f k) l s).
Proof.
  intros H. induction l as [|x l IH]; intros s; cbn [foldM]; [apply mono_const|]. apply mono_bind with (f := fun k => f k s x); auto.
Qed.

Lemma mono_parity r i n : mono (fun k => parity_loop k r i n).
Proof.
  intros k. revert r i n. induction k as [|k IH]; intros r i n k' L N; [destruct (N eq_refl)|].
  destruct k' as [|k']; [lia|]. cbn [parity_loop] in *. destruct (row_stage r); cbn [bind] in *; auto.
  destruct (i <? a); auto. destruct (idx r i) as [cur| | |]; cbn [bind] in *; auto. destruct (cur =? i); [apply IH; auto; lia|].
  destruct (row_swap r i cur); cbn [bind] in *; auto. apply IH; auto; lia.
Qed.
Lemma mono_closure r l : mono (fun k => closure_loop k r l).
Proof.
  intros k. revert l. induction k as [|k IH]; intros l k' L N; [destruct (N eq_refl)|].
  destruct k' as [|k']; [lia|]. cbn [closure_loop] in *. destruct (is_rounds l); auto.
  destruct (mul_unchecked l r) as [x| | |]; cbn [bind] in *; auto.
  assert (E : closure_loop k' r x = closure_loop k r x); [|rewrite E; auto].
  apply IH; [lia|]. intros E. rewrite E in N. auto.
Qed.
Lemma mono_closure_from_rounds r l : mono (fun k => closure_from_rounds_loop k r l).
Proof.
  intros k. revert l. induction k as [|k IH]; intros l k' L N; [destruct (N eq_refl)|].
  destruct k' as [|k']; [lia|]. cbn [closure_from_rounds_loop] in *.
  destruct (mul_unchecked l r) as [x| | |]; cbn [bind] in *; auto. destruct (is_rounds x); auto.
  assert (E : closure_from_rounds_loop k' r x = closure_from_rounds_loop k r x); [|rewrite E; auto].
  apply IH; [lia|]. intros E. rewrite E in N. auto.
Qed.
Lemma mono_lgc rows set fr : mono (fun k => lgc_loop k rows set fr).
Proof.
  intros k. revert set fr. induction k as [|k IH]; intros set fr k' L N; [destruct (N eq_refl)|].
  destruct k' as [|k']; [lia|]. cbn [lgc_loop] in *. destruct fr as [|r fr]; auto.
  destruct (lgc_expand r set fr rows) as [[x y]| | |]; cbn [bind] in *; auto. apply IH; auto; lia.
Qed.
Lemma mono_course n b : mono (fun k => plain_course_loop k n b).
Proof.
  intros k. revert b. induction k as [|k IH]; intros b k' L N; [destruct (N eq_refl)|].
  destruct k' as [|k']; [lia|]. cbn [plain_course_loop] in *. destruct (block_leftover_row b) as [l| | |]; cbn [bind] in *; auto.
  destruct (is_rounds l); auto. destruct (block_extend_from_within b (Included 0) (Excluded n)) as [x| | |]; cbn [bind] in *; auto. apply IH; auto; lia.
Qed.

Lemma mono_row_parity r : mono (fun k => row_parity k r).
Proof. apply (mono_bind (fun k => parity_loop k r 0 0)); [apply mono_parity|]. intros [a n]. apply mono_const. Qed.
Lemma mono_change st r : mono (fun k => change_row st (Parity k) r).
Proof. apply (mono_bind (fun k => row_parity k r)); [apply mono_row_parity|]. intros [a n]. apply mono_const. Qed.
Lemma mono_edit st v i : mono (fun k => ssv_edit v i (change_row st (Parity k))).
Proof.
  unfold ssv_edit. destruct (ssv_get v i) as [r|]; [|apply mono_const]. destruct (get_range_of_row v i).
  apply (mono_bind (fun k => change_row st (Parity k) r)); [apply mono_change|]. intros. apply mono_const.
Qed.

Lemma mono_step ho st c : mono (fun k => step ho st (cut_off k c)).
Proof.
  destruct c; cbn [cut_off]; try apply mono_const; cbn [step]; unfold with_row, with_vec, with_method.
  - destruct (nth_error st i) as [[]|]; try apply mono_const. apply (mono_bind (fun k => closure k r)); [apply mono_closure|]. intros; apply mono_const.
  - destruct (nth_error st i) as [[]|]; try apply mono_const. apply (mono_bind (fun k => closure_from_rounds k r)); [|intros; apply mono_const].
    apply (mono_bind (fun _ => row_stage r)); [apply mono_const|]. intros. apply mono_closure_from_rounds.
  - apply (mono_bind (fun k => least_group_containing k (rows_at st is))); [|intros; apply mono_const].
    apply (mono_bind (fun _ => lgc_seed None [] [] (rows_at st is))); [apply mono_const|]. intros [[set fr]|e]; [|apply mono_const].
    apply (mono_bind (fun k => lgc_loop k (rows_at st is) set fr)); [apply mono_lgc|]. intros; apply mono_const.
  - destruct c; try apply mono_const. destruct p as [i|i j|i|i]; cbn [step]; unfold with_row, with_vec;
      (destruct (nth_error st i) as [[]|]; try apply mono_const).
    + apply (mono_bind (fun k => change_row st (Parity k) r)); [apply mono_change|]. intros; apply mono_const.
    + apply (mono_bind (fun k => ssv_edit v j (change_row st (Parity k)))); [apply mono_edit|]. intros; apply mono_const.
    + apply (mono_bind (fun k => ssv_edit_first v (change_row st (Parity k)))); [apply mono_edit|]. intros; apply mono_const.
    + apply (mono_bind (fun k => ssv_edit_last v (change_row st (Parity k)))); [|intros; apply mono_const].
      apply (mono_bind (fun _ => ssv_len v)); [apply mono_const|]. intros [|n]; [apply mono_const|]. apply mono_edit.
  - destruct (nth_error st m) as [[]|]; try apply mono_const. apply (mono_bind (fun k => plain_course k m0)); [apply mono_course|]. intros; apply mono_const.
Qed.

Lemma mono_run ho prog : forall st, mono (fun k => run_from ho st (map (cut_off k) prog)).
Proof.
  unfold run_from. induction prog as [|c prog IH]; intros st; cbn [map foldM]; [apply mono_const|].
  apply (mono_bind (fun k => step ho st (cut_off k c))); [apply mono_step|]. auto.
Qed.

Lemma mono_end {A} (f : nat -> exec A) k : mono f -> ends (f k) -> comes_to_an_end f.
Proof. intros M E. exists (f k). split; auto. exists k. intros k' L. apply M; auto. Qed.

(** ** Calls *)

Lemma ends_row_parity r : valid_row r -> exists k, ends (row_parity k r).
Proof.
  intros V. destruct (pf_C15_parity_counts_swaps r V) as (p & E & _). exists (S (2 * length r)). rewrite E by lia. apply ends_ret.
Qed.
Lemma ends_closure r : valid_row r -> exists k, ends (closure k r).
Proof. intros V. destruct (pf_C17_closure_lists_the_powers r V) as (? & l & k & E & _). exists k. rewrite E by lia. apply ends_ret. Qed.
Lemma ends_closure_from_rounds r : valid_row r -> exists k, ends (closure_from_rounds k r).
Proof. intros V. destruct (pf_C17_closure_from_rounds_is_a_rotation r V) as (? & l & k & _ & _ & _ & E). exists k. rewrite E by lia. apply ends_ret. Qed.
Lemma ends_least_group rows : Forall valid_row rows -> exists k, ends (least_group_containing k rows).
Proof.
  intros F. destruct rows as [|r rows].
  - exists 1. rewrite (proj1 (pf_C19_least_group_of_nothing_refuted 1 ltac:(lia))). apply ends_ret.
  - destruct (Forall_Exists_dec (fun x => length x = length r) (fun x => Nat.eq_dec _ _) (r :: rows)) as [S|D].
    + destruct (pf_C19_least_group (length r) (r :: rows)) as (k & E); [discriminate| |].
      { rewrite Forall_forall in *. auto. }
      exists k. destruct (E k) as (set & E' & _); auto. rewrite E'. apply ends_ret.
    + exists 0. destruct (pf_C19_least_group_errors (r :: rows) 0 F) as (a & b & _ & E).
      { apply Exists_exists in D as (x & I & N). exists r, x. cbn; auto. }
      rewrite E. apply ends_ret.
Qed.

Lemma ends_edit st v i : okv v -> exists k, ends (ssv_edit v i (change_row st (Parity k))).
Proof.
  intros H. unfold ssv_edit. destruct (ssv_get v i) as [r|] eqn:E; [|exists 0; apply ends_ret].
  assert (V : valid_row r) by (pose proof (okv_get v i H) as K; rewrite E in K; apply K).
  destruct (ends_row_parity r V) as [k K]. exists k. destruct (get_range_of_row v i). estep; [|apply ends_ret].
  cbn [change_row]. estep; [exact K|]. ego.
Qed.

Lemma ends_step ho st c : okst st -> sound_course st c -> exists k, ends (step ho st (cut_off k c)).
Proof.
  intros Hst Hm.
  assert (D : forall i v, nth_error st i = Some v -> okval v).
  { intros i v E. eapply okst_nth; eauto. }
  assert (Dr : forall i r, nth_error st i = Some (VRow r) -> valid_row r) by (intros i r E; exact (D _ _ E)).
  destruct c; cbn [cut_off step];
    unfold with_row, with_acc, with_vec, with_iter, with_block, with_repeat, with_pn, with_pn_block, with_mask, with_method.
  all: try match goal with c : row_change |- _ => destruct c end.
  all: try (exists 0; solve [ego]).
  - destruct (nth_error st i) as [[]|] eqn:E; try (exists 0; apply ends_ret). destruct (ends_closure r) as [k K]; eauto. exists k. estep; [exact K|ego].
  - destruct (nth_error st i) as [[]|] eqn:E; try (exists 0; apply ends_ret). destruct (ends_closure_from_rounds r) as [k K]; eauto. exists k. estep; [exact K|ego].
  - destruct (ends_least_group (rows_at st is)) as [k K]; [apply rows_at_valid; auto|]. exists k. estep; [exact K|ego].
  - destruct p as [i|i j|i|i]; cbn [step]; unfold with_row, with_vec;
      (destruct (nth_error st i) as [[]|] eqn:E; try (exists 0; apply ends_ret)).
    + destruct (ends_row_parity r) as [k K]; eauto. exists k. cbn [change_row]. repeat (estep; [first [exact K | ego]|]). ego.
    + destruct (ends_edit st v j (D _ _ E)) as [k K]. exists k. estep; [exact K|ego].
    + destruct (ends_edit st v 0 (D _ _ E)) as [k K]. exists k. unfold ssv_edit_first. estep; [exact K|ego].
    + unfold ssv_edit_last. destruct (ssv_len v) as [[|n]| | |] eqn:Ev; try (exists 0; cbn [bind]; discriminate).
      * destruct (ends_edit st v n (D _ _ E)) as [k K]. exists k. cbn [bind]. estep; [exact K|ego].
      * exfalso. revert Ev. change (ends (ssv_len v)). ego.
  - exists 0. destruct (nth_error st v) as [[]|] eqn:E; try apply ends_ret. estep; [apply ends_ssv_rows, okv_pos, (D _ _ E)|ego].
  - exists 0. destruct (nth_error st b) as [[]|] eqn:E; try apply ends_ret. estep; [apply ends_block_rows, (D _ _ E)|ego].
  - exists 0. destruct (nth_error st b) as [[]|] eqn:E; try apply ends_ret. estep; [apply ends_block_all_rows, (D _ _ E)|ego].
  - exists 0. destruct (nth_error st b) as [[]|] eqn:E; try apply ends_ret. estep; [apply ends_block_annot_rows, (D _ _ E)|ego].
  - exists 0. destruct (nth_error st b) as [[]|] eqn:E; try apply ends_ret. estep; [apply ends_with_name, (D _ _ E)|ego].
  - exists 0. destruct n; [apply ends_panic|]. change (stage_new (S n)) with (Ret (S n)). cbn [bind]. estep; [apply ends_from_place_not_string; lia|ego].
  - exists 0. destruct (nth_error st p) as [[]|] eqn:E; try apply ends_ret. estep; [apply ends_with_lead_end, (D _ _ E)|ego].
  - destruct (nth_error st m) as [[]|] eqn:E; try (exists 0; apply ends_ret).
    destruct (Hm _ E) as (s & ars & lo & B & I). destruct (pf_C59_plain_course _ _ _ _ B I) as (k & pc & ? & ? & _ & _ & _ & K & _).
    exists k. rewrite K by lia. ego.
Qed.
