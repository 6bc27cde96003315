(** Methods made by the constructors which classify start at rounds, and whole programs end. *)
From Verif Require Import Base Bell Stage Parity Row Utils SameStageVec Block PlaceNot Mask Class Method Program Unwind
  Spec SpecVec SpecBlock SpecPn SpecProg SpecEnds SpecUnwind ListFacts BellFacts RowFacts MulFacts GroupFacts ParityFacts SsvFacts SsvFacts2 BlockFacts
  ClassFacts PnFacts SafeFacts SafeFacts2 UnwindFacts UnwindFacts2 UnwindFacts3 UnwindFacts4 EndFacts.
From Verif Require Call Library.
Local Open Scope list_scope.

Definition from_rounds {A} (b : block A) : Prop := exists r, block_get_row b 0 = Some r /\ is_rounds r = true.
Definition srval (v : value) : Prop := match v with VMethod m => from_rounds (first_lead m) | _ => True end.
Notation srst := (Forall srval).

Lemma sr_with_name ho name b m : with_name ho name b = Ret m -> from_rounds (first_lead m).
Proof.
  unfold with_name, classify, cycles_from_lead, block_first_annot_row, block_get_annot_row. cbv zeta. rewrite bind_assoc, bind_assoc.
  destruct (block_get_row b 0) as [r|] eqn:E; [|discriminate]. destruct (block_get_annot b 0); [|discriminate]. cbn [unwrap bind fst].
  destruct (is_rounds r) eqn:I; [|discriminate]. cbn [assert_ bind]. intros H.
  destruct (cycles_loop _ _ _ _) in H; cbn [bind] in H; try discriminate.
  match type of H with bind ?e _ = _ => destruct e end; cbn [bind] in H; try discriminate.
  destruct (generate_title _ _ _) in H; cbn [bind] in H; try discriminate. injection H as <-. exists r. auto.
Qed.
Lemma sr_from_string ho name s t m : from_place_not_string ho name s t = Ret (Ok m) -> from_rounds (first_lead m).
Proof.
  unfold from_place_not_string. intros H. destruct (pn_block_parse t s) as [[ps|e]| | |]; cbn [bind] in H; try discriminate.
  destruct (pn_block_to_block_from_rounds None ps); cbn [bind] in H; try discriminate.
  destruct (with_name ho name a) eqn:W; cbn [bind] in H; try discriminate. injection H as <-. eapply sr_with_name; eauto.
Qed.
Lemma sr_with_lead_end ho name ps m : with_lead_end ho name ps = Ret m -> from_rounds (first_lead m).
Proof.
  unfold with_lead_end. intros H. destruct (pn_block_to_block_from_rounds None ps); cbn [bind] in H; try discriminate.
  destruct (usub _ _) in H; cbn [bind] in H; try discriminate. destruct (block_set_annot _ _ _) in H; cbn [unwrap bind] in H; try discriminate.
  eapply sr_with_name; eauto.
Qed.
Lemma sr_set_label m i l m' : from_rounds (first_lead m) -> set_label m i l = Ret m' -> from_rounds (first_lead m').
Proof.
  unfold set_label, block_set_annot. intros F H. destruct (nth_error (blk_annots (first_lead m)) i); cbn [unwrap bind] in H; try discriminate. injection H as <-. exact F.
Qed.

Lemma to_rows_keeps pns : forall v r v', to_rows_loop v r pns = Ret v' -> ssv_stage v' = ssv_stage v /\ exists t, ssv_bells v' = ssv_bells v ++ t.
Proof.
  induction pns as [|p pns IH]; intros v r v' H; cbn [to_rows_loop] in H.
  - injection H as <-. split; auto. exists []. rewrite app_nil_r. reflexivity.
  - destruct (permute_unchecked p r) as [r'| | |]; cbn [bind] in H; try discriminate. unfold ssv_push in H.
    destruct (row_stage r'); cbn [bind] in H; try discriminate. destruct (test_err _ _); cbn [bind unwrap_res] in H; try discriminate.
    apply IH in H as [E (t & B)]. cbn in *. split; auto. exists (r' ++ t). rewrite B, app_assoc. reflexivity.
Qed.
Lemma sr_to_block {A} (d : A) pns b : Forall okpn pns -> pn_block_to_block_from_rounds d pns = Ret b -> from_rounds b.
Proof.
  unfold pn_block_to_block_from_rounds, pn_block_stage. intros F H. destruct pns as [|pn pns]; [discriminate|]. cbn [idx nth_error bind] in H.
  inversion F as [|? ? P _]; subst. unfold okpn in P. set (s := pn_stage pn) in *.
  assert (Vr : vrow s (row_rounds s)) by (apply valid_rounds; auto).
  unfold pn_block_to_block, pn_block_to_rows in H.
  rewrite (valid_row_stage (row_rounds s)) in H by apply Vr. cbn [bind] in H.
  unfold pn_block_stage in H. cbn [idx nth_error bind] in H. fold s in H. rewrite (proj2 Vr) in H.
  unfold test_err in H. rewrite Nat.eqb_refl in H.
  destruct (rep_from_row (row_rounds s)) as (v & E & R); [apply Vr|]. rewrite E in H. cbn [bind] in H.
  destruct (to_rows_loop v (row_rounds s) (pn :: pns)) as [v'| | |] eqn:T; cbn [bind] in H; try discriminate.
  apply to_rows_keeps in T as [Es (t & Bt)].
  destruct (with_default_annots d v') as [b'| | |] eqn:W; cbn [bind unwrap_res] in H; try discriminate.
  injection H as <-. unfold with_default_annots in W. destruct (ssv_is_empty v'); cbn [negb assert_ bind] in W; try discriminate.
  destruct (ssv_len v'); cbn [bind] in W; try discriminate. injection W as <-.
  exists (row_rounds s). split; [|apply is_rounds_iff; f_equal; symmetry; apply Vr].
  destruct R as (_ & Rs & _ & Rb). cbn [concat] in Rb. rewrite app_nil_r in Rb.
  unfold block_get_row. cbn [blk_rows]. unfold ssv_get, get_range_of_row. rewrite Es, Rs, Bt, Rb, (proj2 Vr). cbn [Nat.add Nat.mul].
  rewrite app_length, (proj2 Vr). rewrite ?Nat.add_0_r. 
  replace (s <=? s + length t) with true by (symmetry; apply Nat.leb_le; lia). rewrite Nat.sub_0_r. cbn [skipn].
  f_equal. rewrite <- (proj2 Vr) at 1. rewrite firstn_app, Nat.sub_diag, firstn_all, firstn_O, app_nil_r. reflexivity.
Qed.
Lemma sr_library_get lib t m : Library.get_by_title_option lib t = Ret (Some (Ok m)) -> from_rounds (first_lead m).
Proof.
  intros E. unfold Library.get_by_title_option in E. destruct (stage_from_lower_case_name _) as [s|] eqn:Es; [|discriminate].
  apply lower_case_stage_pos in Es. destruct (Library.hm_get _ _ _) in E; [|discriminate]. destruct (Library.hm_get _ _ _) as [cm|] in E; [|discriminate].
  unfold Library.to_method in E. rewrite bind_assoc in E. pose proof (safe_pn_block_parse (Library.cm_place_notation cm) s Es) as P.
  destruct (pn_block_parse (Library.cm_place_notation cm) s) as [[ps|e]| | |]; cbn [bind] in E; try discriminate.
  destruct (pn_block_to_block_from_rounds None ps) as [b| | |] eqn:B; cbn in E; try discriminate. injection E as <-.
  eapply sr_to_block; eauto.
Qed.

(** ** Programs *)

Lemma srst_nth st i v : srst st -> nth_error st i = Some v -> srval v.
Proof. intros H E. rewrite Forall_forall in H. apply H. eapply nth_error_In; eauto. Qed.
Lemma rets_push_s st v : srst st -> srval v -> rets srst (push st v).
Proof. intros H V. cbn. apply Forall_app; auto. Qed.
Lemma rets_put_s st i v : srst st -> srval v -> rets srst (put st i v).
Proof. intros H V. cbn. apply Forall_upd; auto. Qed.
Lemma rets_push_all_s st vs : srst st -> srst vs -> rets srst (push_all st vs).
Proof. intros H V. cbn. apply Forall_app; auto. Qed.
Lemma srst_rows (rs : list row) : srst (map VRow rs).
Proof. induction rs; cbn; constructor; cbn; auto. Qed.
Lemma rets_push_opt_s {A} st (f : A -> value) (o : option A) : srst st -> (forall x, o = Some x -> srval (f x)) -> rets srst (push_opt st (option_map f o)).
Proof. intros H V. destruct o; cbn; auto. apply Forall_app; auto. Qed.
Lemma rets_push_res_s {A E} st (f : A -> value) (o : result A E) : srst st -> (forall x, o = Ok x -> srval (f x)) -> rets srst (push_res st (res_map f o)).
Proof. intros H V. destruct o; cbn; auto. apply Forall_app; auto. Qed.

Ltac s_step st := match goal with
  | |- rets _ (Ret st) => assumption
  | |- rets _ (bind (put ?s ?i ?v) _) =>
      let X := fresh in assert (X : Forall srval (upd s i v)) by (apply Forall_upd; [assumption|try exact I]); cbn [put bind]
  | |- rets _ (bind ?e _) => apply rets_bind; intros
  | |- rets _ (push_res st (res_map _ _)) => apply rets_push_res_s; [assumption|intros]
  | |- rets _ (push_opt _ (option_map _ _)) => apply rets_push_opt_s; [assumption|intros]
  | |- rets _ (push_all st (map VRow _)) => apply rets_push_all_s; [assumption|apply srst_rows]
  | |- rets _ (push_all st _) => apply rets_push_all_s; [assumption|repeat constructor]
  | |- rets _ (push st _) => apply rets_push_s; [assumption|try exact I]
  | |- rets _ (put _ _ _) => apply rets_put_s; [assumption|try exact I]
  | |- rets _ (match ?x with _ => _ end) => destruct x eqn:?
  end; try exact I.

Lemma step_from_rounds ho st c : okst st -> srst st -> makes_unsound_leads c = false -> rets srst (step ho st c).
Proof.
  intros Hst Hw N.
  destruct c; try discriminate N; cbn [step];
    unfold with_row, with_acc, with_vec, with_iter, with_block, with_repeat, with_pn, with_pn_block, with_mask, with_method;
    repeat s_step st; subst; cbn [srval].
  all: try solve [eauto using sr_with_name, sr_from_string, sr_with_lead_end, sr_library_get].
  - clear. induction a; cbn; constructor; cbn; auto.
  - eapply sr_set_label; eauto. exact (srst_nth _ _ _ Hw Heqo).
  - destruct (nth_error st i) eqn:E; [|assumption]. apply rets_push_s; auto. eapply srst_nth; eauto.
Qed.

Lemma sound_of_from_rounds m : whole (first_lead m) -> from_rounds (first_lead m) -> sound_lead m.
Proof.
  intros (s & ars & lo & B) (r & G & I). exists s, ars, lo. split; [apply brep_holds; auto|].
  rewrite (brep_get_row _ _ _ _ 0 B) in G. destruct (all_rows_of ars lo) as [|r' l]; cbn in *; [discriminate|]. injection G as ->.
  apply is_rounds_iff in I. apply identity_rounds. exact I.
Qed.

Lemma sound_store st c : wst st -> srst st -> sound_course st c.
Proof.
  intros W R. destruct c; cbn; auto. intros x E. apply sound_of_from_rounds.
  - rewrite Forall_forall in W. exact (W _ (nth_error_In _ _ E)).
  - exact (srst_nth _ _ _ R E).
Qed.

Lemma cut_unsound k c : makes_unsound_leads (cut_off k c) = makes_unsound_leads c.
Proof. destruct c; try reflexivity. destruct c; reflexivity. Qed.
Lemma unsound_range c : makes_unsound_leads c = false -> is_extend_range c = false.
Proof. destruct c; cbn; auto. Qed.

Lemma run_sound ho prog : forall st, okst st -> wst st -> srst st -> careful ho st prog ->
  Forall (fun c => makes_unsound_leads c = false) prog -> rets (fun st => okst st /\ wst st /\ srst st) (run_from ho st prog).
Proof.
  induction prog as [|c prog IH]; intros st H W R C F; [cbn; auto|]. destruct C as [C1 C2]. inversion F as [|? ? F1 F2]; subst.
  pose proof (step_safe ho st c H C1) as X. pose proof (step_whole ho st c H W (unsound_range _ F1)) as X2.
  pose proof (step_from_rounds ho st c H R F1) as X3.
  unfold run_from in *. cbn [foldM]. destruct (step ho st c) as [st'| | |] eqn:E; cbn in *; auto.
Qed.

Lemma run_ends ho prog : forall st k0, okst st -> wst st -> srst st ->
  (forall k, k0 <= k -> careful ho st (map (cut_off k) prog)) ->
  Forall (fun c => makes_unsound_leads c = false) prog -> exists k, k0 <= k /\ ends (run_from ho st (map (cut_off k) prog)).
Proof.
  induction prog as [|c prog IH]; intros st k0 H W R C F; [exists k0; split; auto; discriminate|].
  inversion F as [|? ? F1 F2]; subst.
  destruct (ends_step ho st c H (sound_store st c W R)) as (k1 & E1).
  pose proof (mono_step ho st c) as M.
  set (k2 := Nat.max k0 k1). assert (E2 : step ho st (cut_off k2 c) = step ho st (cut_off k1 c)) by (apply M; auto; lia).
  assert (Sf : forall k, k2 <= k -> step ho st (cut_off k c) = step ho st (cut_off k2 c)) by (intros k L; rewrite E2; apply M; auto; lia).
  rewrite <- E2 in E1. destruct (C k2) as [C1 _]; [lia|].
  pose proof (step_safe ho st (cut_off k2 c) H C1) as X.
  pose proof (step_whole ho st (cut_off k2 c) H W) as X2. pose proof (step_from_rounds ho st (cut_off k2 c) H R) as X3.
  rewrite cut_unsound in X3. specialize (X3 F1). specialize (X2 (unsound_range _ (eq_trans (cut_unsound k2 c) F1))).
  destruct (step ho st (cut_off k2 c)) as [st'| | |] eqn:E.
  - destruct (IH st' k2) as (k & L & D); auto.
    { intros k L. destruct (C k) as [_ C2]; [lia|]. apply C2. rewrite (Sf k L). reflexivity. }
    exists k. split; [lia|]. unfold run_from in *. cbn [map foldM]. rewrite (Sf k L). exact D.
  - exists k2. split; [lia|]. unfold run_from. cbn [map foldM]. rewrite E. discriminate.
  - exists k2. split; [lia|]. unfold run_from. cbn [map foldM]. rewrite E. discriminate.
  - contradiction E1. reflexivity.
Qed.

Lemma sound_no_course st c : rings_a_course c = false -> sound_course st c.
Proof. destruct c; cbn; auto. discriminate. Qed.

Lemma run_ends_no_course ho prog : forall st k0, okst st ->
  (forall k, k0 <= k -> careful ho st (map (cut_off k) prog)) ->
  Forall (fun c => rings_a_course c = false) prog -> exists k, k0 <= k /\ ends (run_from ho st (map (cut_off k) prog)).
Proof.
  induction prog as [|c prog IH]; intros st k0 H C F; [exists k0; split; auto; discriminate|].
  inversion F as [|? ? F1 F2]; subst.
  destruct (ends_step ho st c H (sound_no_course st c F1)) as (k1 & E1).
  pose proof (mono_step ho st c) as M.
  set (k2 := Nat.max k0 k1). assert (E2 : step ho st (cut_off k2 c) = step ho st (cut_off k1 c)) by (apply M; auto; lia).
  assert (Sf : forall k, k2 <= k -> step ho st (cut_off k c) = step ho st (cut_off k2 c)) by (intros k L; rewrite E2; apply M; auto; lia).
  rewrite <- E2 in E1. destruct (C k2) as [C1 _]; [lia|].
  pose proof (step_safe ho st (cut_off k2 c) H C1) as X.
  destruct (step ho st (cut_off k2 c)) as [st'| | |] eqn:E.
  - destruct (IH st' k2) as (k & L & D); auto.
    { intros k L. destruct (C k) as [_ C2]; [lia|]. apply C2. rewrite (Sf k L). reflexivity. }
    exists k. split; [lia|]. unfold run_from in *. cbn [map foldM]. rewrite (Sf k L). exact D.
  - exists k2. split; [lia|]. unfold run_from. cbn [map foldM]. rewrite E. discriminate.
  - exists k2. split; [lia|]. unfold run_from. cbn [map foldM]. rewrite E. discriminate.
  - contradiction E1. reflexivity.
Qed.

(** ** Loops that never end *)

Lemma parity_for_ever k : forall n, parity_loop k [0; 0] 1 n = NoFuel.
Proof. induction k as [|k IH]; intros n; [reflexivity|]. cbn. apply IH. Qed.
Lemma closure_for_ever k : closure_loop k [0; 0] [0; 0] = NoFuel.
Proof. induction k as [|k IH]; [reflexivity|]. cbn. rewrite IH. reflexivity. Qed.
Lemma closure_from_rounds_for_ever k : closure_from_rounds_loop k [0; 0] [0; 0] = NoFuel.
Proof. induction k as [|k IH]; [reflexivity|]. cbn. rewrite IH. reflexivity. Qed.
Lemma backwards_for_ever k : forall an n v, rep 2 ([1; 0] :: repeat [1; 0] n ++ [[1; 0]]) v -> 1 <= length an ->
  plain_course_loop k 1 (Block v an) = NoFuel.
Proof.
  induction k as [|k IH]; intros an n v R L; [reflexivity|]. cbn [plain_course_loop].
  unfold block_leftover_row at 1. cbn [blk_rows]. rewrite (ssv_last_ok _ _ _ R). rewrite app_comm_cons, last_opt_snoc. cbn [bind unwrap].
  change (is_rounds [1;0]) with false. cbv iota.
  unfold block_extend_from_within, clamp_range, block_get_row, block_leftover_row. cbn [blk_rows blk_annots].
  rewrite (ssv_get_ok _ _ _ 0 R), (ssv_last_ok _ _ _ R), app_comm_cons, last_opt_snoc. cbn [app nth_error bind unwrap].
  change (solve_xa_equals_b [1;0] [1;0]) with (@Ret (result row incompatible_stages) (Ok [0;1])). cbn [bind unwrap_res Nat.add].
  assert (V : vrow 2 [0;1]) by (apply valid_rounds; lia).
  destruct (ssv_from_within_ok 2 _ v [0;1] (Included 1) (Excluded 2) R V) as (v' & E & R').
  { cbn. lia. } { cbn. rewrite app_length. cbn. lia. }
  rewrite E. cbn [bind unwrap_res]. rewrite slice_ret by lia. cbn [bind].
  apply (IH _ (S n)); [|rewrite app_length; lia].
  cbn [range_start range_end] in R'. replace (sublist 1 2 _) with [[1; 0]] in R' by (destruct n; reflexivity).
  cbn [map app] in R'. change (row_product [0;1] [1;0]) with [1;0] in R'. rewrite <- app_assoc in R'.
  replace (repeat [1; 0] (S n) ++ [[1; 0]]) with (repeat [1; 0] n ++ [[1; 0]] ++ [[1; 0]]); [exact R'|].
  change [1; 0] with (id [1; 0]). rewrite app_assoc. f_equal. symmetry. apply (repeat_cons n [1; 0]).
Qed.

Lemma unsound_for_ever k : forall rest an v, rep 3 ([[0;1;2]; [1;2;0]; [2;0;1]; [0;1;2]] ++ rest ++ [[1;2;0]]) v -> 3 <= length an ->
  plain_course_loop k 3 (Block v an) = NoFuel.
Proof.
  induction k as [|k IH]; intros rest an v R L; [reflexivity|]. cbn [plain_course_loop].
  unfold block_leftover_row at 1. cbn [blk_rows]. rewrite (ssv_last_ok _ _ _ R). rewrite app_assoc, last_opt_snoc. cbn [bind unwrap is_rounds].
  change (is_rounds [1;2;0]) with false. cbv iota.
  unfold block_extend_from_within, clamp_range, block_get_row, block_leftover_row. cbn [blk_rows blk_annots].
  rewrite (ssv_get_ok _ _ _ 0 R), (ssv_last_ok _ _ _ R), app_assoc, last_opt_snoc. cbn [app nth_error bind unwrap].
  change (solve_xa_equals_b [0;1;2] [1;2;0]) with (@Ret (result row incompatible_stages) (Ok [1;2;0])). cbn [bind unwrap_res Nat.add].
  assert (V : vrow 3 [1;2;0]).
  { destruct R as (_ & _ & F & _). rewrite Forall_forall in F. apply F. apply in_or_app. right. apply in_or_app. right. left. reflexivity. }
  destruct (ssv_from_within_ok 3 _ v [1;2;0] (Included 1) (Excluded 4) R V) as (v' & E & R').
  { cbn. lia. } { rewrite !app_length. cbn. lia. }
  rewrite E. cbn [bind unwrap_res]. rewrite slice_ret by lia. cbn [bind].
  apply (IH (rest ++ [[1;2;0]; [2;0;1]; [0;1;2]])); [|rewrite app_length; lia].
  cbn [range_start range_end] in R'. unfold sublist in R'. cbn [skipn app firstn Nat.sub map] in R'.
  change (row_product [1;2;0] [1;2;0]) with [2;0;1] in R'. change (row_product [1;2;0] [2;0;1]) with [0;1;2] in R'.
  change (row_product [1;2;0] [0;1;2]) with [1;2;0] in R'.
  cbn [app] in *. rewrite <- !app_assoc in *. exact R'.
Qed.
