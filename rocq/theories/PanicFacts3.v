(** Which calls of a program panic. *)
From Verif Require Import Base Bell Stage Parity Row Utils SameStageVec Block PlaceNot Mask Class Method Program
  Spec SpecVec SpecBlock SpecPn SpecClass SpecProg ListFacts BellFacts RowFacts MulFacts GroupFacts ParityFacts SsvFacts SsvFacts2 BlockFacts
  GroupFacts2 RowThms MethodFacts PnFacts PnFacts2 PnFacts3 PnThms MaskFacts MaskFacts2 ClassFacts ClassThms CtorFacts MethodThms CtorThms PropsBell
  SafeFacts SafeFacts2 UnwindFacts2 UnwindFacts3 UnwindFacts4 SpecMask SpecPanics PanicFacts PanicFacts2.
From Verif Require Call Library.
Local Open Scope list_scope.

(** ** More about methods *)

Lemma row_in_lead_panic_iff m s ars lo i : brep s ars lo (first_lead m) -> row_in_plain_lead m i = Panic <-> length ars < i.
Proof.
  intros [R _]. unfold row_in_plain_lead. assert (R' : rep (ssv_stage (blk_rows (first_lead m))) (map fst ars ++ [lo]) (blk_rows (first_lead m))).
  { destruct R as (P & E & R). rewrite E. split; auto. }
  rewrite (index_panic_iff _ i _ R'). rewrite app_length, map_length. cbn. lia.
Qed.
Lemma row_in_course_panic_iff m s ars lo i : brep s ars lo (first_lead m) -> row_in_plain_course m i = Panic <-> ars = [].
Proof.
  intros H. unfold row_in_plain_course, lead_len. erewrite brep_len by eauto. destruct ars as [|ra ars]; [split; auto|].
  split; [|discriminate]. intros E. exfalso. revert E. cbn [length Nat.eqb negb assert_ bind].
  unfold lead_head. erewrite brep_leftover by eauto. cbn [bind].
  pose proof (brep_vrows _ _ _ _ H) as [F V].
  rewrite (pow_u_ok s lo (i / S (length ars)) V). cbn [bind]. pose proof (vrow_rpow s lo (i / S (length ars)) V) as Vr.
  assert (L : i mod S (length ars) < S (length ars)) by (apply Nat.mod_upper_bound; lia).
  pose proof (row_in_lead_panic_iff m s _ lo (i mod S (length ars)) H) as P. cbn [length] in P.
  pose proof (all_rows_vrow _ _ _ _ H) as Fr.
  unfold row_in_plain_lead in *.
  destruct (ssv_index (blk_rows (first_lead m)) (i mod S (length ars))) as [q| | |] eqn:Eq; cbn [bind]; try discriminate.
  - assert (Vq : vrow s q).
    { destruct (nth_error (all_rows_of (ra :: ars) lo) (i mod S (length ars))) as [q'|] eqn:N.
      - rewrite (ssv_index_ok _ _ _ _ _ (proj1 H) N) in Eq. injection Eq as <-. rewrite Forall_forall in Fr. apply Fr. eapply nth_error_In; eauto.
      - apply nth_error_None in N. rewrite all_rows_length in N. cbn in N. lia. }
    rewrite (row_mul_ok s) by auto. discriminate.
  - intros _. assert (S (length ars) < i mod S (length ars)) by (apply P; reflexivity). lia.
Qed.
Lemma returns_course_loop fuel len : forall (b : block row_annot) s ars lo, brep s ars lo b -> len <= length ars -> returns (plain_course_loop fuel len b).
Proof.
  induction fuel as [|fuel IH]; intros b s ars lo H L; cbn [plain_course_loop]; [exact I|].
  erewrite brep_leftover by eauto. cbn [bind]. destruct (is_rounds lo); [exact I|].
  destruct (brep_from_within s ars lo b (Included 0) (Excluded len) H) as (b' & E & H'); [cbn; lia|cbn; lia|]. rewrite E. cbn [bind].
  eapply IH; eauto. rewrite app_length. lia.
Qed.
Lemma returns_course fuel m : whole (first_lead m) -> returns (plain_course fuel m).
Proof.
  intros (s & ars & lo & H). unfold plain_course, lead_len. erewrite brep_len by eauto.
  eapply returns_course_loop; [apply brep_index_annots; eauto|]. rewrite map_length, combine_length, seq_length. lia.
Qed.
Lemma set_label_panic_iff m s ars lo i l : brep s ars lo (first_lead m) -> set_label m i l = Panic <-> length ars <= i.
Proof.
  intros H. unfold set_label. destruct (nth_error ars i) as [[r a]|] eqn:N.
  - destruct (brep_set_annot s ars lo _ i l r a H N) as (b1 & E1 & H1). rewrite E1. cbn. split; [discriminate|].
    assert (i < length ars) by (apply nth_error_Some; congruence). lia.
  - unfold block_set_annot. rewrite (proj2 H), nth_error_map, N. apply nth_error_None in N. cbn. tauto.
Qed.
Lemma returns_library lib t : returns (Library.get_by_title_option lib t).
Proof.
  unfold Library.get_by_title_option. destruct (stage_from_lower_case_name _) as [s|] eqn:Es; [|exact I].
  apply lower_case_stage_pos in Es. destruct (Library.hm_get _ _ _); [|exact I]. destruct (Library.hm_get _ _ _) as [cm|]; [|exact I].
  unfold Library.to_method. rewrite bind_assoc.
  destruct (pf_C43_parse_block (Library.cm_place_notation cm) s Es) as (r & E & _). rewrite E. cbn [bind]. destruct r as [pns|e]; [|exact I].
  destruct (pf_C43_parsed_changes_are_legal _ s pns Es E) as [N F].
  apply returns_bind; [|intros; exact I]. apply returns_bind; [|intros; exact I]. apply returns_from_rounds. exists s; auto.
Qed.

(** ** Blocks of place notation stay well formed *)

Definition pbval (v : value) : Prop := match v with VPnBlock ps => pnblock_ok ps | _ => True end.
Notation pbst := (Forall pbval).

Lemma rets_push_b st v : pbst st -> pbval v -> rets pbst (push st v).
Proof. intros H H'. cbn. apply Forall_app; auto. Qed.
Lemma rets_put_b st i v : pbst st -> pbval v -> rets pbst (put st i v).
Proof. intros H H'. cbn. apply Forall_upd; auto. Qed.
Lemma rets_push_all_b st vs : pbst st -> pbst vs -> rets pbst (push_all st vs).
Proof. intros H H'. cbn. apply Forall_app; auto. Qed.
Lemma pbst_rows (rs : list row) : pbst (map VRow rs).
Proof. induction rs; cbn; constructor; cbn; auto. Qed.
Lemma rets_push_opt_b {A} st (f : A -> value) (o : option A) : pbst st -> (forall x, o = Some x -> pbval (f x)) -> rets pbst (push_opt st (option_map f o)).
Proof. intros H H'. destruct o; cbn; auto. apply Forall_app; auto. Qed.
Lemma rets_push_res_b {A E} st (f : A -> value) (o : result A E) : pbst st -> (forall x, o = Ok x -> pbval (f x)) -> rets pbst (push_res st (res_map f o)).
Proof. intros H H'. destruct o; cbn; auto. apply Forall_app; auto. Qed.

Ltac b_step st := match goal with
  | |- rets _ (Ret st) => assumption
  | |- rets _ (bind (put ?s ?i ?v) _) =>
      let X := fresh in assert (X : Forall pbval (upd s i v)) by (apply Forall_upd; [assumption|exact I]); cbn [put bind]
  | |- rets _ (bind ?e _) => apply rets_bind; intros
  | |- rets _ (push_res st (res_map _ _)) => apply rets_push_res_b; [assumption|intros]
  | |- rets _ (push_opt _ (option_map _ _)) => apply rets_push_opt_b; [assumption|intros]
  | |- rets _ (push_all st (map VRow _)) => apply rets_push_all_b; [assumption|apply pbst_rows]
  | |- rets _ (push_all st _) => apply rets_push_all_b; [assumption|repeat constructor]
  | |- rets _ (push st _) => apply rets_push_b; [assumption|try exact I]
  | |- rets _ (put _ _ _) => apply rets_put_b; [assumption|try exact I]
  | |- rets _ (match ?x with _ => _ end) => destruct x eqn:?
  end; try exact I.

Lemma step_pb ho st c : pnst st -> pbst st -> rets pbst (step ho st c).
Proof.
  intros Hp Hb.
  destruct c; cbn [step];
    unfold with_row, with_acc, with_vec, with_iter, with_block, with_repeat, with_pn, with_pn_block, with_mask, with_method;
    repeat b_step st.
  - clear. induction a; cbn; constructor; cbn; auto.
  - subst. cbn. apply stage_new_inv in H as [Hn ->]. destruct (pf_C43_parsed_changes_are_legal t n x) as [N F]; auto. exists n; auto.
  - cbn. destruct (pf_C45_from_vec (pns_at st ps)) as (K & _). apply K in H as (-> & N & E).
    pose proof (pns_at_legal st Hp ps) as L. destruct (pns_at st ps) as [|pn l]; [congruence|]. exists (pn_stage pn).
    split; [inversion L as [|? ? X _]; apply X|]. split; [discriminate|].
    rewrite Forall_forall in *. intros q Hq. split; auto. apply E; cbn; auto.
  - destruct (nth_error st i) eqn:E; [|assumption]. apply rets_push_b; auto. rewrite Forall_forall in Hb. eapply Hb, nth_error_In; eauto.
Qed.

(** ** The panics of a call *)

Lemma bind_panic_iff {A B} (e : exec A) (f : A -> exec B) : (forall a, e = Ret a -> returns (f a)) -> bind e f = Panic <-> e = Panic.
Proof.
  intros H. destruct e as [a| | |]; cbn; split; auto; try discriminate. intros E. specialize (H a eq_refl). rewrite E in H. contradiction.
Qed.
Lemma never_panics {A} (e : exec A) : returns e -> e = Panic <-> False.
Proof. intros R. split; [apply returns_ne; auto|intros []]. Qed.
Lemma stage_then {A} n (f : stage -> exec A) : (0 < n -> returns (f n)) -> (s <- stage_new n;; f s) = Panic <-> n = 0.
Proof.
  intros H. destruct n as [|n]; [split; auto|]. rewrite (proj2 (stage_new_iff (S n))) by lia. cbn [bind]. rewrite never_panics; [|apply H; lia]. split; [intros []|discriminate].
Qed.
Lemma returns_push_res {A E} st (f : A -> value) (r : result A E) : returns (push_res st (res_map f r)).
Proof. destruct r; exact I. Qed.
Lemma returns_push_opt {A} st (f : A -> value) (r : option A) : returns (push_opt st (option_map f r)).
Proof. destruct r; exact I. Qed.
Lemma with_row_returns st i f : (forall r, nth_error st i = Some (VRow r) -> returns (f r)) -> returns (with_row st i f).
Proof. intros H. unfold with_row. destruct (nth_error st i) as [[]|]; try exact I; auto. Qed.

Section Main.
Context (ho : list nat -> list nat) (st : list value).
Context (HO : forall l, collected_set l (ho l)) (Hst : okst st) (Hpn : pnst st) (Hw : wst st) (Hpb : pbst st).

Lemma D_row i r : nth_error st i = Some (VRow r) -> valid_row r. Proof. intros E. exact (okst_nth st Hst _ _ E). Qed.
Lemma D_acc i r : nth_error st i = Some (VAcc r) -> okacc r. Proof. intros E. exact (okst_nth st Hst _ _ E). Qed.
Lemma D_vec i r : nth_error st i = Some (VVec r) -> okv r. Proof. intros E. exact (okst_nth st Hst _ _ E). Qed.
Lemma D_iter i r : nth_error st i = Some (VIter r) -> oki r. Proof. intros E. exact (okst_nth st Hst _ _ E). Qed.
Lemma D_w i v : nth_error st i = Some v -> wval v.
Proof. intros E. pose proof Hw as W. rewrite Forall_forall in W. apply W. eapply nth_error_In; eauto. Qed.
Lemma D_block i r : nth_error st i = Some (VBlock r) -> whole r. Proof. intros E. exact (D_w _ _ E). Qed.
Lemma D_repeat i r : nth_error st i = Some (VRepeat r) -> wholeri r. Proof. intros E. exact (D_w _ _ E). Qed.
Lemma D_method i r : nth_error st i = Some (VMethod r) -> whole (first_lead r). Proof. intros E. exact (D_w _ _ E). Qed.
Lemma D_pn i r : nth_error st i = Some (VPn r) -> legal r. Proof. intros E. exact (pnst_nth st Hpn _ _ E). Qed.
Lemma D_pnb i r : nth_error st i = Some (VPnBlock r) -> pnblock_ok r.
Proof. intros E. pose proof Hpb as W. rewrite Forall_forall in W. exact (W _ (nth_error_In _ _ E)). Qed.
Lemma D_rows is : Forall valid_row (rows_at st is).
Proof.
  unfold rows_at. induction is as [|i is IH]; cbn [filter_map]; auto.
  destruct (nth_error st i) as [[]|] eqn:E; auto. constructor; auto. exact (D_row _ _ E).
Qed.

Lemma returns_change_row c r : valid_row r -> (forall a b, c <> Swap a b) -> returns (change_row st c r).
Proof.
  intros V N. destruct c as [a b|fuel|i j|i|p]; cbn [change_row].
  - exfalso. eapply N; eauto.
  - apply returns_bind; [apply returns_parity; auto|]. intros [] _; exact I.
  - destruct (nth_error st i) as [[]|] eqn:E1; try exact I. destruct (nth_error st j) as [[]|] eqn:E2; try exact I.
    apply returns_bind; [apply returns_mul_into_row; eauto using D_row|]. intros [] _; exact I.
  - destruct (nth_error st i) as [[]|] eqn:E1; try exact I.
    apply returns_bind; [apply returns_inv_into; eauto using D_row|]. intros [] _; exact I.
  - destruct (nth_error st p) as [[]|] eqn:E1; try exact I.
    apply returns_bind; [apply returns_permute; eauto using D_pn|]. intros [] _; exact I.
Qed.
Lemma change_row_panic_iff c r : valid_row r ->
  change_row st c r = Panic <-> exists a b, c = Swap a b /\ (length r <= a \/ length r <= b).
Proof.
  intros V. assert (D : (exists a b, c = Swap a b) \/ (forall a b, c <> Swap a b)) by (destruct c; eauto; right; discriminate).
  destruct D as [(a & b & ->)|N].
  - cbn [change_row]. rewrite row_swap_panic_iff. split; [eauto|]. intros (x & y & E & H). injection E as <- <-. auto.
  - rewrite never_panics by (apply returns_change_row; auto). split; [intros []|]. intros (a & b & -> & _). exact (N _ _ eq_refl).
Qed.

Ltac get := match goal with |- context [nth_error st ?i] => destruct (nth_error st i) as [[]|] eqn:? end;
  try exact I; try solve [split; [discriminate|]; intros X; decompose [ex and] X; discriminate].
Ltac bad := try exact I; try solve [split; [discriminate|]; intros X; decompose [ex and] X; discriminate].
Ltac row i x E := destruct (nth_error st i) as [[x|?|?|?|?|?|?|?|?|?]|] eqn:E; bad.
Ltac acc i x E := destruct (nth_error st i) as [[?|x|?|?|?|?|?|?|?|?]|] eqn:E; bad.
Ltac vec i x E := destruct (nth_error st i) as [[?|?|x|?|?|?|?|?|?|?]|] eqn:E; bad.
Ltac itr i x E := destruct (nth_error st i) as [[?|?|?|x|?|?|?|?|?|?]|] eqn:E; bad.
Ltac blk i x E := destruct (nth_error st i) as [[?|?|?|?|x|?|?|?|?|?]|] eqn:E; bad.
Ltac rpt i x E := destruct (nth_error st i) as [[?|?|?|?|?|x|?|?|?|?]|] eqn:E; bad.
Ltac pnn i x E := destruct (nth_error st i) as [[?|?|?|?|?|?|x|?|?|?]|] eqn:E; bad.
Ltac pnb i x E := destruct (nth_error st i) as [[?|?|?|?|?|?|?|x|?|?]|] eqn:E; bad.
Ltac msk i x E := destruct (nth_error st i) as [[?|?|?|?|?|?|?|?|x|?]|] eqn:E; bad.
Ltac mth i x E := destruct (nth_error st i) as [[?|?|?|?|?|?|?|?|?|x]|] eqn:E; bad.
Ltac done := intros; repeat match goal with x : (_ * _)%type |- _ => destruct x end;
  try exact I; try apply returns_push_res; try apply returns_push_opt.
Ltac peel := rewrite bind_panic_iff by done.

Lemma place_in_vec i v : nth_error st i = Some (VVec v) -> forall k c,
  (o <- ssv_edit v k (change_row st c);; match o with Some v' => put st i (VVec v') | None => Ret st end) = Panic <->
  exists s rs r, holds v s rs /\ nth_error rs k = Some r /\ exists a b, c = Swap a b /\ (length r <= a \/ length r <= b).
Proof.
  intros E k c. rewrite bind_panic_iff by (intros [] _; exact I).
  assert (G : forall rs, rep (ssv_stage v) rs v -> ssv_edit v k (change_row st c) = Panic <->
     exists r, nth_error rs k = Some r /\ exists a b, c = Swap a b /\ (length r <= a \/ length r <= b)).
  { intros rs R. rewrite (edit_panic_iff v k _ rs R) by (intros r V; apply safe_change_row; [exact Hst|apply V]).
    split; intros (r & N & X); exists r; split; auto.
    - apply change_row_panic_iff in X; auto. apply (nth_valid _ _ _ _ (rep_Forall _ _ _ R) N).
    - apply change_row_panic_iff; auto. apply (nth_valid _ _ _ _ (rep_Forall _ _ _ R) N). }
  split.
  - intros X. destruct (D_vec _ _ E) as [rs R]. destruct (proj1 (G rs R) X) as (r & N & Y). exists (ssv_stage v), rs, r.
    split; [apply holds_rep; auto|]. auto.
  - intros (s & rs & r & H & N & X). apply holds_rep in H. assert (ssv_stage v = s) by apply H. subst s. apply (proj2 (G rs H)). eauto.
Qed.

Lemma step_panics c : careful_call st c -> step ho st c = Panic <-> must_panic st c.
Proof.
  intros C. destruct c; cbn [step must_panic];
    unfold with_row, with_acc, with_vec, with_iter, with_block, with_repeat, with_pn, with_pn_block, with_mask, with_method.
  all: try (apply never_panics; repeat get;
    solve [done
          | apply returns_bind; [solve [eauto using good_returns, good_closure, good_closure_from_rounds,
       returns_mul_result, returns_mul_into, returns_row_inv, returns_inv_into_buf, returns_pow_u, returns_pow_i, returns_solve_ax, returns_solve_xa,
       returns_acc_new, returns_accumulate, returns_pre_accumulate, returns_is_group, returns_ssv_last, returns_rows, returns_push, returns_pop, returns_extend,
       returns_pre_multiply, returns_pre_multiplied, returns_path, returns_it_next, returns_it_next_back, returns_from_indices,
       returns_first_row, returns_leftover, returns_block_rows, returns_all_rows, returns_annot_rows, returns_rows_iter, returns_block_path,
       returns_block_pre_multiply, returns_block_extend, returns_split, returns_repeat_new, returns_next, returns_next_into,
       returns_between, returns_permute_new, returns_transposition, returns_to_rows, returns_to_block, returns_from_rounds, returns_as_row,
       returns_course, D_row, D_acc, D_vec, D_iter, D_block, D_repeat, D_method, D_pn, D_pnb, D_rows]|done]]).
  all: try (apply stage_then; intros; solve [done|apply returns_bind; [solve [eauto using returns_from_vec_with_stage, returns_pn_parse, returns_pn_block_parse]|done]]).
  - (* ExtendToStage *) row i r E. transitivity ((s <- stage_new n;; extend_to_stage r s) = Panic).
    + destruct (stage_new n); cbn [bind]; try (split; [discriminate|discriminate]); [peel; tauto|split; auto].
    + rewrite extend_to_stage_panic_iff by eauto using D_row. split; [eauto|]. intros (x & X & L). injection X as <-. auto.
  - (* Mul *) row i r E. row j r' E'. peel. rewrite row_mul_panic_iff by eauto using D_row.
    split; [eauto 6|]. intros (x & y & X & Y & L). injection X as <-. injection Y as <-. auto.
  - apply never_panics, returns_bind.
    + eapply good_returns, good_mcp. apply Forall_forall. intros x Hx. apply in_map_iff in Hx as (y & <- & _). apply D_rows.
    + intros [] _; exact I.
  - apply never_panics, returns_bind.
    + eapply good_returns, good_least_group. apply D_rows.
    + intros [] _; exact I.
  - (* ChangeRow *)
    assert (G : forall P : row -> Prop, match c with Swap a b => exists r, P r /\ (length r <= a \/ length r <= b) | _ => False end <->
                exists r, P r /\ exists a b, c = Swap a b /\ (length r <= a \/ length r <= b)).
    { intros P. destruct c.
      1: { split; intros (r & Hr & X); exists r; split; auto; [eauto|]. destruct X as (x & y & X & Y). injection X as <- <-. auto. }
      all: split; [intros []|]; intros (r & _ & x & y & X & _); discriminate. }
    rewrite G. clear G. destruct p as [i|i k|i|i]; cbn [place_has].
    + row i r E. peel. rewrite change_row_panic_iff by eauto using D_row. split; [eauto|]. intros (x & X & Y). injection X as <-. auto.
    + vec i v E. rewrite (place_in_vec i v E). split.
      * intros (s & rs & r & H & N & X). exists r. split; auto. exists v, s, rs. auto.
      * intros (r & (v' & s & rs & X & H & N) & Y). injection X as <-. eauto 7.
    + vec i v E. unfold ssv_edit_first. rewrite (place_in_vec i v E). split.
      * intros (s & rs & r & H & N & X). exists r. split; auto. exists v, s, rs. auto.
      * intros (r & (v' & s & rs & X & H & N) & Y). injection X as <-. eauto 7.
    + vec i v E. assert (L : forall rs : list row, last_opt rs = match length rs with 0 => None | S k => nth_error rs k end).
      { intros rs. destruct rs as [|r rs _] using rev_ind; [reflexivity|]. rewrite last_opt_snoc, app_length. cbn.
        rewrite Nat.add_1_r. rewrite nth_error_app2, Nat.sub_diag by auto. reflexivity. }
      destruct (D_vec _ _ E) as [rs0 R0]. unfold ssv_edit_last. rewrite (ssv_len_ok _ _ _ R0). cbn [bind].
      assert (U : forall s rs, holds v s rs -> length rs = length rs0).
      { intros s rs H. apply holds_rep in H. pose proof (ssv_len_ok _ _ _ R0) as X. rewrite (ssv_len_ok _ _ _ H) in X. congruence. }
      destruct (length rs0) as [|k].
      * cbn [bind]. split; [discriminate|]. intros (r & (v' & s & rs & X & H & N) & _). injection X as <-. rewrite L, (U s rs H) in N. discriminate.
      * rewrite (place_in_vec i v E). split.
        -- intros (s & rs & r & H & N & X). exists r. split; auto. exists v, s, rs. rewrite L, (U s rs H). auto.
        -- intros (r & (v' & s & rs & X & H & N) & Y). injection X as <-. rewrite L, (U s rs H) in N. eauto 7.
  - apply stage_then. intros Hn. apply returns_bind; [|intros; exact I]. unfold acc_rounds. apply returns_acc_new, valid_rounds; auto.
  - (* AccMulAssign *) acc a x E. row i r E'. peel. rewrite acc_mul_assign_panic by eauto using D_row, D_acc.
    split; [eauto 6|]. intros (p & q & X & Y & L). injection X as <-. injection Y as <-. auto.
  - apply never_panics. row i r E. apply returns_bind; [|intros; exact I]. destruct (rep_from_row r (D_row _ _ E)) as (v & X & _). rewrite X. exact I.
  - peel. apply ssv_parse_panic_iff.
  - (* VecIndex *) vec v x E. peel. split.
    + intros X. destruct (D_vec _ _ E) as [rs R]. apply (index_panic_iff x i rs R) in X. exists x, (ssv_stage x), rs. split; auto. split; auto. apply holds_rep; auto.
    + intros (y & s & rs & X & H & L). injection X as <-. apply holds_rep in H. pose proof (rep_stage _ _ _ H) as S. rewrite <- S in H. apply (index_panic_iff x i rs H). auto.
  - apply never_panics. vec v x E. row i r E'. vec w y E2. cbn [careful_call] in C. specialize (C x y E E2).
    apply returns_bind; [apply returns_extend_transposed; eauto using D_row, D_vec|done].
  - (* VecExtendRangeTransposed *) vec v x E. row i r E'. vec w y E2. cbn [careful_call] in C. specialize (C x y E E2). peel. split.
    + intros X. destruct (D_vec _ _ E2) as [rs R]. destruct (proj1 (extend_range_panic_iff x r y lo hi rs (D_vec _ _ E) (D_row _ _ E') R C) X) as [X1 X2].
      exists x, r, y, (ssv_stage y), rs. split; auto. split; auto. split; auto. split; [apply holds_rep; auto|]. auto.
    + intros (x' & r' & y' & s & rs & X1 & X2 & X3 & H & L & N). injection X1 as <-. injection X2 as <-. injection X3 as <-.
      apply holds_rep in H. pose proof (rep_stage _ _ _ H) as S. rewrite <- S in H, L.
      apply (extend_range_panic_iff x r y lo hi rs (D_vec _ _ E) (D_row _ _ E') H C). auto.
  - (* VecExtendFromWithin *) vec v x E. row i r E'. peel. split.
    + intros X. destruct (D_vec _ _ E) as [rs R]. destruct (proj1 (from_within_panic_iff x r lo hi rs R (D_row _ _ E')) X) as [X1 X2].
      exists x, r, (ssv_stage x), rs. split; auto. split; auto. split; [apply holds_rep; auto|]. auto.
    + intros (x' & r' & s & rs & X1 & X2 & H & L & N). injection X1 as <-. injection X2 as <-.
      apply holds_rep in H. pose proof (rep_stage _ _ _ H) as S. rewrite <- S in H, L.
      apply (from_within_panic_iff x r lo hi rs H (D_row _ _ E')). auto.
  - apply never_panics. vec v x E. destruct (ssv_split x n) as [[]|]; exact I.
  - peel. apply block_parse_panic_iff.
  - apply stage_then. intros Hn. apply returns_bind; [|intros; exact I]. destruct (@block_empty_ok (option str) n Hn) as (b & E & _). rewrite E. exact I.
  - (* BlockWithDefault *) vec v x E. peel. split.
    + intros X. destruct (D_vec _ _ E) as [rs R]. apply (with_default_panic_iff _ _ _ _ R) in X. subst rs. exists x, (ssv_stage x). split; auto. apply holds_rep; auto.
    + intros (y & s & X & H). injection X as <-. apply holds_rep in H. apply (with_default_panic_iff _ _ _ _ H). auto.
  - (* BlockExtendRange *) blk b x E. blk c y E'. peel. split.
    + intros X. destruct (D_block _ _ E) as (s & ars & l & H). destruct (D_block _ _ E') as (s' & ars' & l' & H').
      apply (block_extend_range_panic_iff _ _ _ _ _ _ _ _ lo hi H H') in X. exists x, y, s, s', ars, ars', l, l'.
      split; auto. split; auto. split; [apply brep_holds; auto|]. split; [apply brep_holds; auto|]. auto.
    + intros (x' & y' & s & s' & ars & ars' & l & l' & X1 & X2 & H & H' & K). injection X1 as <-. injection X2 as <-.
      apply holds_brep in H. apply holds_brep in H'. apply (block_extend_range_panic_iff _ _ _ _ _ _ _ _ lo hi H H'). auto.
  - (* BlockExtendFromWithin *) blk b x E. peel. split.
    + intros X. destruct (D_block _ _ E) as (s & ars & l & H). apply (block_from_within_panic_iff _ _ _ _ lo hi H) in X.
      exists x, s, ars, l. split; auto. split; [apply brep_holds; auto|]. auto.
    + intros (x' & s & ars & l & X1 & H & K). injection X1 as <-. apply holds_brep in H. apply (block_from_within_panic_iff _ _ _ _ lo hi H). auto.
  - apply never_panics. blk b x E. apply returns_bind; [apply returns_split; eauto using D_block|]. intros [[]|] _; exact I.
  - apply never_panics. blk b x E. destruct (block_set_annot x i a); exact I.
  - (* MaskFixBells *) destruct n as [|n]; [split; auto|]. rewrite (proj2 (stage_new_iff (S n))) by lia. cbn [bind]. peel.
    unfold mask_fix_bells. rewrite (fix_bells_loop (S n)) by apply length_empty. split; [auto|]. intros [X|X]; [discriminate|auto].
  - msk m x E. peel. unfold mask_fix. rewrite mask_set_bell_panic_iff. split; [eauto|]. intros (y & X & K). injection X as <-. auto.
  - msk m x E. peel. rewrite mask_set_bell_panic_iff. split; [eauto|]. intros (y & X & K). injection X as <-. auto.
  - msk m x E. msk n y E'. peel. rewrite mask_combine_panic_iff. split; [eauto 6|]. intros (x' & y' & X & Y & K). injection X as <-. injection Y as <-. auto.
  - msk m x E. row i r E'. peel. rewrite mask_mul_row_panic_iff by eauto using D_row. split; [eauto 6|]. intros (x' & y' & X & Y & K). injection X as <-. injection Y as <-. auto.
  - row i r E'. msk m x E. peel. rewrite row_mul_mask_panic_iff by eauto using D_row. split; [eauto 6|]. intros (x' & y' & X & Y & K). injection X as <-. injection Y as <-. auto.
  - (* MethodWithName *) blk b x E. peel. split.
    + intros X. destruct (D_block _ _ E) as (s & ars & l & H). apply brep_holds in H. apply (with_name_panic_iff ho HO name _ _ _ _ H) in X.
      exists x, s, ars, l. auto.
    + intros (x' & s & ars & l & X1 & H & K). injection X1 as <-. apply (with_name_panic_iff ho HO name _ _ _ _ H). auto.
  - rewrite <- (from_string_panic_iff ho HO name n t). destruct (stage_new n); cbn [bind]; try (split; [discriminate|discriminate]); [peel; tauto|split; auto].
  - pnb p x E. peel. rewrite with_lead_end_panic_iff by eauto using D_pnb. split; [eauto|]. intros (y & X & K). injection X as <-. auto.
  - (* MethodRowInLead *) mth m x E. peel. split.
    + intros X. destruct (D_method _ _ E) as (s & ars & l & H). apply (row_in_lead_panic_iff _ _ _ _ i H) in X.
      exists x, s, ars, l. split; auto. split; [apply brep_holds; auto|]. auto.
    + intros (x' & s & ars & l & X1 & H & K). injection X1 as <-. apply holds_brep in H. apply (row_in_lead_panic_iff _ _ _ _ i H). auto.
  - (* MethodRowInCourse *) mth m x E. peel. split.
    + intros X. destruct (D_method _ _ E) as (s & ars & l & H). apply (row_in_course_panic_iff _ _ _ _ i H) in X. subst ars.
      exists x, s, l. split; auto. apply brep_holds; auto.
    + intros (x' & s & l & X1 & H). injection X1 as <-. apply holds_brep in H. apply (row_in_course_panic_iff _ _ _ _ i H). auto.
  - (* MethodSetLabel *) mth m x E. peel. split.
    + intros X. destruct (D_method _ _ E) as (s & ars & lo & H). apply (set_label_panic_iff _ _ _ _ i l H) in X.
      exists x, s, ars, lo. split; auto. split; [apply brep_holds; auto|]. auto.
    + intros (x' & s & ars & lo & X1 & H & K). injection X1 as <-. apply holds_brep in H. apply (set_label_panic_iff _ _ _ _ i l H). auto.
  - apply never_panics. blk b x E. apply returns_bind; [|intros; exact I]. apply returns_leftover. cbn [Call.call_block]. apply whole_map_plain. eauto using D_block.
  - apply never_panics. pnb p x E. apply returns_bind.
    + unfold Call.le_bob. apply returns_bind; [apply returns_from_rounds; eauto using D_pnb|intros; exact I].
    + intros cl X. apply returns_bind; [|intros; exact I]. apply returns_leftover. unfold Call.le_bob in X.
      destruct (pn_block_to_block_from_rounds tt x) eqn:B; try discriminate. injection X as <-. eapply whole_from_rounds; [|exact B]. eauto using pnblock_ok_okpn, D_pnb.
  - apply never_panics. pnb p x E. apply returns_bind.
    + unfold Call.le_single. apply returns_bind; [apply returns_from_rounds; eauto using D_pnb|intros; exact I].
    + intros cl X. apply returns_bind; [|intros; exact I]. apply returns_leftover. unfold Call.le_single in X.
      destruct (pn_block_to_block_from_rounds tt x) eqn:B; try discriminate. injection X as <-. eapply whole_from_rounds; [|exact B]. eauto using pnblock_ok_okpn, D_pnb.
  - apply never_panics. apply returns_bind; [apply returns_library|]. intros [[]|] _; exact I.
Qed.
End Main.

(** ** Whole programs *)

Lemma run_invariants ho prog : forall st st', okst st /\ pnst st /\ wst st /\ pbst st ->
  careful ho st prog -> Forall (fun c => extends_by_range c = false) prog -> run_from ho st prog = Ret st' ->
  okst st' /\ pnst st' /\ wst st' /\ pbst st'.
Proof.
  induction prog as [|c prog IH]; intros st st' I C F E; unfold run_from in *; cbn [Base.foldM] in E.
  - injection E as <-. auto.
  - destruct C as [C1 C2]. inversion F as [|? ? F1 F2]; subst. destruct I as (I1 & I2 & I3 & I4).
    pose proof (step_safe ho st c I1 C1) as S1. pose proof (step_pn ho st c I1 I2) as S2.
    pose proof (step_pb ho st c I2 I4) as S4.
    assert (S3 : rets wst (step ho st c)) by (apply step_whole; auto; destruct c; auto).
    destruct (step ho st c) as [st1| | |] eqn:X; cbn [bind] in E; try discriminate.
    apply (IH st1); auto.
Qed.
Lemma run_panics ho prog : forall st, (forall l, collected_set l (ho l)) -> okst st /\ pnst st /\ wst st /\ pbst st ->
  careful ho st prog -> Forall (fun c => extends_by_range c = false) prog ->
  run_from ho st prog = Panic <->
  exists before c after st', prog = before ++ c :: after /\ run_from ho st before = Ret st' /\ must_panic st' c.
Proof.
  induction prog as [|c prog IH]; intros st HO I C F; unfold run_from in *; cbn [Base.foldM].
  - split; [discriminate|]. intros ([|] & ? & ? & ? & X & _); discriminate.
  - destruct C as [C1 C2]. inversion F as [|? ? F1 F2]; subst.
    pose proof (run_invariants ho [c] st) as K. unfold run_from in K. cbn [Base.foldM] in K.
    destruct I as (I1 & I2 & I3 & I4). pose proof (step_panics ho st HO I1 I2 I3 I4 c C1) as P.
    destruct (step ho st c) as [st1| | |] eqn:X; cbn [bind] in *.
    + rewrite (IH st1); auto.
      * split.
        -- intros (b & c' & a & st' & -> & E & M). exists (c :: b), c', a, st'. split; auto. split; auto. cbn [Base.foldM]. rewrite X. exact E.
        -- intros (b & c' & a & st' & E0 & E & M). destruct b as [|x b]; cbn [app Base.foldM] in *.
           ++ injection E0 as -> ->. injection E as <-. apply P in M. discriminate.
           ++ injection E0 as <- ->. rewrite X in E. cbn [bind] in E. eauto 8.
      * apply (K st1); auto. cbn [careful]. split; auto.
    + split; auto. intros _. exists [], c, prog, st. split; auto. split; auto. apply P; auto.
    + split; [discriminate|]. intros (b & c' & a & st' & E0 & E & M). destruct b as [|x b]; cbn [app Base.foldM] in *.
      * injection E0 as -> ->. injection E as <-. apply P in M. discriminate.
      * injection E0 as <- ->. rewrite X in E. discriminate.
    + split; [discriminate|]. intros (b & c' & a & st' & E0 & E & M). destruct b as [|x b]; cbn [app Base.foldM] in *.
      * injection E0 as -> ->. injection E as <-. apply P in M. discriminate.
      * injection E0 as <- ->. rewrite X in E. discriminate.
Qed.
