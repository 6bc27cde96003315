(** Programs in which a caught panic leaves everything as it was. *)
From Verif Require Import Base Bell Stage Parity Row Utils SameStageVec Block PlaceNot Mask Class Method Program Unwind
  Spec SpecVec SpecBlock SpecPn SpecProg SpecUnwind ListFacts BellFacts RowFacts MulFacts GroupFacts ParityFacts SsvFacts SsvFacts2 BlockFacts
  MethodFacts PnFacts PnFacts2 PnFacts3 PnThms SafeFacts SafeFacts2 UnwindFacts UnwindFacts2 UnwindFacts3.
Local Open Scope list_scope.

(** As many annotations as rows before the left-over one. *)
Definition whole {A} (b : block A) : Prop := exists s ars lo, brep s ars lo b.
Definition wholeri {A} (ri : repeat_iter A) : Prop := exists s ars lo head i, ri_state s ars lo ri head i.

Definition wval (v : value) : Prop :=
  match v with VBlock b => whole b | VRepeat ri => wholeri ri | VMethod m => whole (first_lead m) | _ => True end.
Notation wst := (Forall wval).

Lemma whole_default {A} (d : A) v b : okv v -> with_default_annots d v = Ret b -> whole b.
Proof.
  intros [rs R] E. destruct rs as [|r rs].
  - unfold with_default_annots in E. erewrite ssv_is_empty_ok in E by eauto. discriminate.
  - destruct (with_default_ok _ _ _ d R) as (b' & E' & H); [congruence|]. rewrite E in E'. injection E' as <-. eexists _, _, _; eauto.
Qed.
Lemma whole_parse {A} (d : A) t b : block_parse d t = Ret (Ok b) -> whole b.
Proof.
  unfold block_parse. pose proof (safe_ssv_parse t) as S. destruct (ssv_parse t) as [[v|e]| | |]; cbn; try discriminate.
  destruct (ssv_is_empty v); [discriminate|]. intros E. destruct (with_default_annots d v) eqn:D; cbn in E; try discriminate.
  injection E as <-. eapply whole_default; eauto.
Qed.
Lemma whole_empty {A} s (b : block A) : 0 < s -> block_empty s = Ret b -> whole b.
Proof. intros Hs E. destruct (@block_empty_ok A s Hs) as (b' & E' & H). rewrite E in E'. injection E' as <-. eexists _, _, _; eauto. Qed.
Lemma whole_indices {A} v (f : nat -> A) b : okv v -> with_annots_from_indices v f = Ret (Some b) -> whole b.
Proof.
  intros [rs R] E. destruct rs as [|r rs].
  - unfold with_annots_from_indices in E. erewrite ssv_len_ok in E by eauto. discriminate.
  - destruct (from_indices_ok _ _ _ f R) as (b' & E' & H); [congruence|]. rewrite E in E'. injection E' as <-. eexists _, _, _; eauto.
Qed.
Lemma whole_pre_multiply {A} (b b' : block A) t res : whole b -> valid_row t -> block_pre_multiply b t = Ret (b', res) -> whole b'.
Proof.
  intros (s & ars & lo & H) V E. destruct (Nat.eq_dec (length t) s) as [L|L].
  - destruct (brep_pre_multiply s ars lo b t H) as (b1 & E1 & H1); [split; auto|]. rewrite E in E1. injection E1 as -> ->. eexists _, _, _; eauto.
  - erewrite brep_pre_multiply_err in E by eauto. injection E as <- <-. eexists _, _, _; eauto.
Qed.
Lemma whole_extend {A} (b o : block A) : whole b -> whole o -> exists b' res, block_extend b o = Ret (b', res) /\ whole b'.
Proof.
  intros (s & ars & lo & H) (s' & ars' & lo' & Ho). destruct (Nat.eq_dec s' s) as [->|N].
  - destruct (brep_extend s ars lo b ars' lo' o H Ho) as (b' & E & R). eexists _, _. split; eauto. eexists _, _, _; eauto.
  - erewrite brep_extend_err by eauto. eexists _, _. split; eauto. eexists _, _, _; eauto.
Qed.
Lemma whole_within {A} (b b' : block A) lo hi : whole b -> block_extend_from_within b lo hi = Ret b' -> whole b'.
Proof.
  intros (s & ars & l & H) E.
  destruct (le_dec (range_start lo) (range_end hi (length ars))) as [L|L].
  - destruct (le_dec (range_end hi (length ars)) (length ars)) as [L'|L'].
    + destruct (brep_from_within s ars l b lo hi H L L') as (b1 & E1 & H1). rewrite E in E1. injection E1 as <-. eexists _, _, _; eauto.
    + erewrite brep_from_within_panic in E; eauto; [discriminate|]. tauto.
  - erewrite brep_from_within_panic in E; eauto; [discriminate|]. tauto.
Qed.
Lemma whole_split {A} (b b1 b2 : block A) i : whole b -> block_split b i = Ret (Some (b1, b2)) -> whole b1 /\ whole b2.
Proof.
  intros (s & ars & l & H) E. destruct (le_lt_dec i (length ars)) as [L|L].
  - destruct (brep_split s ars l b i H L) as (c1 & c2 & E1 & H1 & H2). rewrite E in E1. injection E1 as <- <-. split; eexists _, _, _; eauto.
  - erewrite brep_split_none in E by eauto. discriminate.
Qed.
Lemma whole_map {A B} (b : block A) (f : nat -> A -> B) : whole b -> whole (block_map_annots_with_index b f).
Proof. intros (s & ars & l & H). eexists _, _, _. apply brep_index_annots; eauto. Qed.
Lemma whole_map_plain {A B} (b : block A) (f : A -> B) : whole b -> whole (block_map_annots b f).
Proof.
  intros (s & ars & l & H & H'). exists s, (map (fun ra => (fst ra, f (snd ra))) ars), l. split; cbn [block_map_annots blk_rows blk_annots].
  - rewrite map_map. exact H.
  - rewrite H', !map_map. reflexivity.
Qed.
Lemma whole_set_annot {A} (b b' : block A) i x : whole b -> block_set_annot b i x = Some b' -> whole b'.
Proof.
  intros (s & ars & l & H) E. destruct (nth_error ars i) as [[r a]|] eqn:N.
  - destruct (brep_set_annot s ars l b i x r a H N) as (b1 & E1 & H1). rewrite E in E1. injection E1 as <-. eexists _, _, _; eauto.
  - unfold block_set_annot in E. rewrite (proj2 H), nth_error_map, N in E. discriminate.
Qed.
Lemma whole_repeat_new {A} (b : block A) r ri : whole b -> valid_row r -> repeat_iter_new r b = Ret (Ok ri) -> wholeri ri.
Proof.
  intros (s & ars & l & H) V E. destruct (Nat.eq_dec (length r) s) as [L|L].
  - destruct (repeat_new_ok s ars l b r H) as (ri' & E' & R); [split; auto|]. rewrite E in E'. injection E' as <-. eexists _, _, _, _, _; eauto.
  - erewrite repeat_new_err in E by eauto. discriminate.
Qed.

Lemma whole_next_untransposed {A} (ri : repeat_iter A) : wholeri ri ->
  exists o ri', next_untransposed_row ri = Ret (o, ri') /\ wholeri ri' /\
    match o with Some (_, (r, _)) => exists s, vrow s r /\ vrow s (ri_head ri') | None => True end.
Proof.
  intros (s & ars & lo & head & i & H). destruct ars as [|ra ars].
  - assert (i = 0) by (destruct H as (_ & _ & _ & L & _); cbn in L; lia). subst i.
    destruct (next_untransposed_empty s lo ri head H) as (ri' & E & H'). exists None, ri'. splits; auto. eexists _, _, _, _, _; eauto.
  - destruct (next_untransposed_ok s _ lo ri head i H) as (ri' & [r a] & E & N & H'); [congruence|].
    eexists _, ri'. split; [exact E|]. split; [eexists _, _, _, _, _; eauto|]. exists s.
    destruct H' as (Hb & Hh & Vh & _). rewrite Hh. split; auto.
    pose proof (brep_vrows _ _ _ _ Hb) as [F _]. rewrite Forall_forall in F. apply F. apply in_map_iff. exists (r, a). split; auto. eapply nth_error_In; eauto.
Qed.
Lemma whole_next {A} (ri : repeat_iter A) : wholeri ri -> exists o ri', repeat_iter_next ri = Ret (o, ri') /\ wholeri ri'.
Proof.
  intros H. destruct (whole_next_untransposed ri H) as (o & ri' & E & H' & V). unfold repeat_iter_next. rewrite E. cbn [bind].
  destruct o as [[i [r a]]|]; eauto. destruct V as (s & Vr & Vh). rewrite (row_mul_ok s) by auto. cbn. eauto.
Qed.
Lemma whole_next_into {A} (ri : repeat_iter A) out : wholeri ri ->
  exists o out' ri', repeat_iter_next_into ri out = Ret (o, out', ri') /\ wholeri ri'.
Proof.
  intros H. destruct (whole_next_untransposed ri H) as (o & ri' & E & H' & V). unfold repeat_iter_next_into. rewrite E. cbn [bind].
  destruct o as [[i [r a]]|]; eauto. destruct V as (s & Vr & Vh). rewrite (mul_into_ok s) by auto. cbn. eauto.
Qed.

Lemma whole_to_block {A} (d : A) pns r b : valid_row r -> pn_block_to_block d pns r = Ret (Ok b) -> whole b.
Proof.
  intros V E. unfold pn_block_to_block in E. pose proof (safe_to_rows pns r V) as S.
  destruct (pn_block_to_rows pns r) as [[v|e]| | |]; cbn in E; try discriminate.
  destruct (with_default_annots d v) eqn:D; cbn in E; try discriminate. injection E as <-. eapply whole_default; eauto.
Qed.
Lemma whole_from_rounds {A} (d : A) pns b : Forall okpn pns -> pn_block_to_block_from_rounds d pns = Ret b -> whole b.
Proof.
  intros F E. unfold pn_block_to_block_from_rounds, pn_block_stage in E. destruct pns as [|pn pns]; [discriminate|].
  cbn [idx nth_error bind] in E.
  inversion F as [|? ? P _]; subst.
  destruct (pn_block_to_block d (pn :: pns) (row_rounds (pn_stage pn))) as [[b'|e]| | |] eqn:T; cbn in E; try discriminate. injection E as <-.
  eapply whole_to_block; [|exact T]. apply (valid_rounds (pn_stage pn)). exact P.
Qed.
Lemma whole_with_name ho name b m : whole b -> with_name ho name b = Ret m -> whole (first_lead m).
Proof.
  intros H E. unfold with_name in E. destruct (classify ho b) as [c| | |]; cbn in E; try discriminate.
  destruct (generate_title name c (block_stage b)); cbn in E; try discriminate. injection E as <-. exact H.
Qed.
Lemma whole_from_string ho name s t m : 0 < s -> from_place_not_string ho name s t = Ret (Ok m) -> whole (first_lead m).
Proof.
  intros Hs E. unfold from_place_not_string in E. pose proof (safe_pn_block_parse t s Hs) as S.
  destruct (pn_block_parse t s) as [[ps|e]| | |]; cbn in E; try discriminate. cbn in S.
  destruct (pn_block_to_block_from_rounds None ps) as [b| | |] eqn:B; cbn in E; try discriminate.
  destruct (with_name ho name b) as [m'| | |] eqn:W; cbn in E; try discriminate. injection E as <-.
  eapply whole_with_name; eauto. eapply whole_from_rounds; eauto.
Qed.
Lemma whole_with_lead_end ho name ps m : Forall okpn ps -> with_lead_end ho name ps = Ret m -> whole (first_lead m).
Proof.
  intros F E. unfold with_lead_end in E. destruct (pn_block_to_block_from_rounds None ps) as [b| | |] eqn:B; cbn in E; try discriminate.
  destruct (usub (block_len b) 1) as [i| | |]; cbn in E; try discriminate.
  match goal with E : context [block_set_annot b i ?x] |- _ => destruct (block_set_annot b i x) as [b'|] eqn:S end; cbn in E; try discriminate.
  eapply whole_with_name; eauto. eapply whole_set_annot; eauto. eapply whole_from_rounds; eauto.
Qed.
Lemma whole_library_get lib t m : Library.get_by_title_option lib t = Ret (Some (Ok m)) -> whole (first_lead m).
Proof.
  intros E. unfold Library.get_by_title_option in E. destruct (stage_from_lower_case_name _) as [s|] eqn:Es; [|discriminate].
  apply lower_case_stage_pos in Es. destruct (Library.hm_get _ _ _) in E; [|discriminate]. destruct (Library.hm_get _ _ _) as [cm|] in E; [|discriminate].
  unfold Library.to_method in E. rewrite bind_assoc in E. pose proof (safe_pn_block_parse (Library.cm_place_notation cm) s Es) as P.
  destruct (pn_block_parse (Library.cm_place_notation cm) s) as [[ps|e]| | |]; cbn [bind] in E; try discriminate.
  destruct (pn_block_to_block_from_rounds None ps) as [b| | |] eqn:B; cbn in E; try discriminate. injection E as <-.
  eapply whole_from_rounds; eauto.
Qed.
Lemma whole_course_loop fuel len : forall b b', whole b -> plain_course_loop fuel len b = Ret b' -> whole b'.
Proof.
  induction fuel as [|fuel IH]; intros b b' H E; cbn [plain_course_loop] in E; [discriminate|].
  destruct (block_leftover_row b) as [l| | |]; cbn [bind] in E; try discriminate. destruct (is_rounds l); [injection E as <-; auto|].
  destruct (block_extend_from_within b (Included 0) (Excluded len)) eqn:X; cbn [bind] in E; try discriminate. eapply IH; [|exact E]. eapply whole_within; eauto.
Qed.
Lemma whole_course fuel m b : whole (first_lead m) -> plain_course fuel m = Ret b -> whole b.
Proof. intros H E. unfold plain_course in E. eapply whole_course_loop; [|exact E]. apply whole_map; auto. Qed.
Lemma whole_set_label m i l m' : whole (first_lead m) -> set_label m i l = Ret m' -> whole (first_lead m').
Proof.
  intros H E. unfold set_label in E. destruct (block_set_annot (first_lead m) i l) as [b|] eqn:S; cbn in E; try discriminate.
  injection E as <-. eapply whole_set_annot; eauto.
Qed.

(** ** Programs *)

Lemma rets_push_w st v : wst st -> wval v -> rets wst (push st v).
Proof. intros H V. cbn. apply Forall_app; auto. Qed.
Lemma rets_put_w st i v : wst st -> wval v -> rets wst (put st i v).
Proof. intros H V. cbn. apply Forall_upd; auto. Qed.
Lemma rets_push_all_w st vs : wst st -> wst vs -> rets wst (push_all st vs).
Proof. intros H V. cbn. apply Forall_app; auto. Qed.
Lemma wst_rows (rs : list row) : wst (map VRow rs).
Proof. induction rs; cbn; constructor; cbn; auto. Qed.
Lemma rets_push_opt_w {A} st (f : A -> value) (o : option A) : wst st -> (forall x, o = Some x -> wval (f x)) -> rets wst (push_opt st (option_map f o)).
Proof. intros H V. destruct o; cbn; auto. apply Forall_app; auto. Qed.
Lemma rets_push_res_w {A E} st (f : A -> value) (o : result A E) : wst st -> (forall x, o = Ok x -> wval (f x)) -> rets wst (push_res st (res_map f o)).
Proof. intros H V. destruct o; cbn; auto. apply Forall_app; auto. Qed.

Ltac w_step st := match goal with
  | |- rets _ (Ret st) => assumption
  | |- rets _ (bind (put ?s ?i ?v) _) =>
      let X := fresh in assert (X : Forall wval (upd s i v)) by (apply Forall_upd; [assumption|try exact I]); cbn [put bind]
  | |- rets _ (bind ?e _) => apply rets_bind; intros
  | |- rets _ (push_res st (res_map _ _)) => apply rets_push_res_w; [assumption|intros]
  | |- rets _ (push_opt _ (option_map _ _)) => apply rets_push_opt_w; [assumption|intros]
  | |- rets _ (push_all st (map VRow _)) => apply rets_push_all_w; [assumption|apply wst_rows]
  | |- rets _ (push_all st _) => apply rets_push_all_w; [assumption|repeat constructor]
  | |- rets _ (push st _) => apply rets_push_w; [assumption|try exact I]
  | |- rets _ (put _ _ _) => apply rets_put_w; [assumption|try exact I]
  | |- rets _ (match ?x with _ => _ end) => destruct x eqn:?
  end; try exact I.

(** [AnnotBlock::extend_range] does not keep blocks whole (C31). *)
Definition is_extend_range (c : call) : bool := match c with BlockExtendRange _ _ _ _ => true | _ => false end.

Lemma step_whole ho st c : okst st -> wst st -> is_extend_range c = false -> rets wst (step ho st c).
Proof.
  intros Hst Hw N.
  assert (Dr : forall i r, nth_error st i = Some (VRow r) -> valid_row r) by (intros i r E; exact (okst_nth st Hst _ _ E)).
  assert (Dv : forall i r, nth_error st i = Some (VVec r) -> okv r) by (intros i r E; exact (okst_nth st Hst _ _ E)).
  assert (Dp : forall i r, nth_error st i = Some (VPnBlock r) -> Forall okpn r) by (intros i r E; exact (okst_nth st Hst _ _ E)).
  assert (W : forall i v, nth_error st i = Some v -> wval v).
  { intros i v E. rewrite Forall_forall in Hw. apply Hw. eapply nth_error_In; eauto. }
  assert (Db : forall i b, nth_error st i = Some (VBlock b) -> whole b) by (intros i b E; exact (W _ _ E)).
  assert (Di : forall i b, nth_error st i = Some (VRepeat b) -> wholeri b) by (intros i b E; exact (W _ _ E)).
  assert (Dm : forall i b, nth_error st i = Some (VMethod b) -> whole (first_lead b)) by (intros i b E; exact (W _ _ E)).
  destruct c; try discriminate N; cbn [step];
    unfold with_row, with_acc, with_vec, with_iter, with_block, with_repeat, with_pn, with_pn_block, with_mask, with_method;
    repeat w_step st; subst; cbn [wval].
  all: try match goal with H : stage_new _ = Ret _ |- _ => apply stage_new_inv in H as [? ->] end.
  all: try solve [eauto using whole_parse, whole_empty, whole_default, whole_indices, whole_pre_multiply, whole_within,
    whole_set_annot, whole_repeat_new, whole_to_block, whole_from_rounds, whole_with_name, whole_from_string, whole_with_lead_end, whole_set_label].
  all: try (apply whole_map; solve [eauto using whole_course]).
  - clear. induction a; cbn; constructor; cbn; auto.
  - destruct (whole_extend b0 b1) as (b' & res & E & Hb); eauto. rewrite E in H. injection H as <- <-. exact Hb.
  - eapply whole_split in H as [? _]; eauto.
  - eapply whole_split in H as [_ ?]; eauto.
  - destruct (whole_next ri0) as (o' & ri' & E & Hr); eauto. rewrite E in H. injection H as <- <-. injection H0 as <-.
    apply rets_push_opt_w; [|intros; exact I]. apply Forall_upd; auto.
  - destruct (whole_next_into ri0 r) as (o' & l' & ri' & E & Hr); eauto. rewrite E in H. injection H as <- <- <-. injection H0 as <-.
    apply rets_put_w; [|exact I]. apply Forall_upd; auto.
  - apply whole_map_plain. eauto using whole_course.
  - destruct (nth_error st i) eqn:E; [|assumption]. apply rets_push_w; eauto.
  - eapply whole_library_get; eauto.
Qed.

Lemma step_left_unchanged ho st c : okst st -> pnst st -> wst st -> careful_call st c -> takes_a_range c = false ->
  step ho st c = Panic -> step_left st c = st.
Proof.
  intros H P W C N E.
  destruct (writes_early c) eqn:We; [|apply step_left_same; auto]. exfalso.
  assert (Dw : forall i v, nth_error st i = Some v -> wval v).
  { intros i v X. rewrite Forall_forall in W. apply W. eapply nth_error_In; eauto. }
  destruct c; try discriminate; cbn [step] in E; unfold with_block, with_repeat, with_row in E.
  - destruct (nth_error st b) as [[]|] eqn:Eb; try discriminate. destruct (nth_error st c) as [[]|] eqn:Ec; try discriminate.
    destruct (whole_extend b0 b1 (Dw _ _ Eb) (Dw _ _ Ec)) as (b' & res & X & _). rewrite X in E. discriminate.
  - destruct (nth_error st ri) as [[]|] eqn:Eb; try discriminate.
    destruct (whole_next ri0 (Dw _ _ Eb)) as (o & r' & X & _). rewrite X in E. cbn in E. destruct o; discriminate.
  - destruct (nth_error st ri) as [[]|] eqn:Eb; try discriminate. destruct (nth_error st out) as [[]|] eqn:Ec; try discriminate.
    destruct (whole_next_into ri0 r (Dw _ _ Eb)) as (o & l' & r' & X & _). rewrite X in E. discriminate.
Qed.

Lemma run_caught_whole ho prog : forall st, okst st -> pnst st -> wst st -> careful_caught ho st prog -> Forall (fun c => takes_a_range c = false) prog ->
  rets (fun st => okst st /\ pnst st /\ wst st) (run_caught_from ho st prog).
Proof.
  induction prog as [|c prog IH]; intros st H P W C F; [cbn; auto|]. destruct C as [C1 C2]. inversion F as [|? ? F1 F2]; subst.
  pose proof (step_caught_safe ho st c H C1) as S1. pose proof (step_caught_pn ho st c H P) as S2.
  assert (S3 : rets wst (step_caught ho st c)).
  { unfold step_caught. destruct (step ho st c) as [st'| | |] eqn:E; cbn; auto.
    - assert (X : is_extend_range c = false) by (destruct c; auto; discriminate).
      pose proof (step_whole ho st c H W X) as Y. rewrite E in Y. exact Y.
    - rewrite (step_left_unchanged ho st c) by auto. auto. }
  unfold run_caught_from in *. cbn [foldM]. destruct (step_caught ho st c) as [st'| | |] eqn:E; cbn in *; auto.
Qed.
