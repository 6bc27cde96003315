(** Programs which catch panics. *)
From Verif Require Import Base Bell Stage Parity Row Utils SameStageVec Block PlaceNot Mask Class Method Program Unwind
  Spec SpecVec SpecBlock SpecPn SpecProg SpecUnwind ListFacts BellFacts RowFacts MulFacts GroupFacts ParityFacts SsvFacts SsvFacts2 BlockFacts
  PnFacts PnFacts2 PnFacts3 PnThms SafeFacts SafeFacts2 UnwindFacts UnwindFacts2.
Local Open Scope list_scope.

(** ** Rows stay valid *)

Lemma step_caught_safe ho st c : okst st -> careful_call st c -> safe okst (step_caught ho st c).
Proof.
  intros H C. unfold step_caught. pose proof (step_safe ho st c H C) as S.
  destruct (step ho st c); auto. cbn. apply step_left_ok; auto.
Qed.

Lemma run_caught_safe ho prog : forall st, okst st -> careful_caught ho st prog -> safe okst (run_caught_from ho st prog).
Proof.
  induction prog as [|c prog IH]; intros st H C; cbn; auto. destruct C as [C1 C2].
  pose proof (step_caught_safe ho st c H C1) as S. destruct (step_caught ho st c) as [st'| | |] eqn:E; cbn in *; auto.
  apply IH; auto.
Qed.

Lemma unguarded_careful_caught ho prog : Forall (fun c => unguarded c = false) prog -> forall st, careful_caught ho st prog.
Proof.
  induction 1 as [|c prog Hc _ IH]; intros st; cbn; auto. split; auto. destruct c; cbn in *; auto; discriminate.
Qed.

(** ** Place notations stay legal *)

Definition pnval (v : value) : Prop :=
  match v with VPn p => legal p | VPnBlock ps => Forall legal ps | _ => True end.
Notation pnst := (Forall pnval).

Definition rets {A} (P : A -> Prop) (e : exec A) : Prop := match e with Ret a => P a | _ => True end.
Lemma rets_bind {A B} (P : B -> Prop) (e : exec A) f : (forall a, e = Ret a -> rets P (f a)) -> rets P (bind e f).
Proof. destruct e; cbn; auto. Qed.

Section Pn.
Context (ho : list nat -> list nat) (st : list value) (Hst : okst st) (Hpn : pnst st).

Lemma pnst_nth i v : nth_error st i = Some v -> pnval v.
Proof. intros E. rewrite Forall_forall in Hpn. apply Hpn. eapply nth_error_In; eauto. Qed.

Lemma rets_push_all vs : pnst vs -> rets pnst (push_all st vs).
Proof. intros H. cbn. apply Forall_app; auto. Qed.
Lemma pnst_rows (rs : list row) : pnst (map VRow rs).
Proof. induction rs; cbn; constructor; cbn; auto. Qed.
Lemma rets_push v : pnval v -> rets pnst (push st v).
Proof. intros H. cbn. apply Forall_app; auto. Qed.
Lemma rets_put i v : pnval v -> rets pnst (put st i v).
Proof. intros H. cbn. apply Forall_upd; auto. Qed.
Lemma rets_push_opt {A} (f : A -> value) (o : option A) : (forall x, o = Some x -> pnval (f x)) -> rets pnst (push_opt st (option_map f o)).
Proof. intros H. destruct o; cbn; auto. apply Forall_app; auto. Qed.
Lemma rets_push_res {A E} (f : A -> value) (o : result A E) : (forall x, o = Ok x -> pnval (f x)) -> rets pnst (push_res st (res_map f o)).
Proof. intros H. destruct o; cbn; auto. apply Forall_app; auto. Qed.

Lemma pns_at_legal is : Forall legal (pns_at st is).
Proof.
  unfold pns_at. induction is as [|i is IH]; cbn [filter_map]; auto.
  destruct (nth_error st i) as [[]|] eqn:E; auto. constructor; auto. exact (pnst_nth _ _ E).
Qed.
End Pn.

Ltac pn_step st := match goal with
  | |- rets _ (Ret st) => assumption
  | |- rets _ (bind (put ?s ?i ?v) _) =>
      let X := fresh in assert (X : Forall pnval (upd s i v)) by (apply Forall_upd; [assumption|exact I]); cbn [put bind]
  | |- rets _ (bind ?e _) => apply rets_bind; intros
  | |- rets _ (push_res st (res_map _ _)) => apply rets_push_res; [assumption|intros]
  | |- rets _ (push_opt _ (option_map _ _)) => apply rets_push_opt; [assumption|intros]
  | |- rets _ (push_all st (map VRow _)) => apply rets_push_all; [assumption|apply pnst_rows]
  | |- rets _ (push_all st _) => apply rets_push_all; [assumption|repeat constructor]
  | |- rets _ (push st _) => apply rets_push; [assumption|try exact I]
  | |- rets _ (put _ _ _) => apply rets_put; [assumption|try exact I]
  | |- rets _ (match ?x with _ => _ end) => destruct x eqn:?
  end; try exact I.

Lemma stage_new_inv n s : stage_new n = Ret s -> 0 < n /\ s = n.
Proof. destruct n; cbn; [discriminate|]. intros E; injection E as <-. split; auto; lia. Qed.

Lemma step_pn ho st c : okst st -> pnst st -> rets pnst (step ho st c).
Proof.
  intros Hst Hpn.
  assert (Dn : forall i r, nth_error st i = Some (VRow r) -> valid_row r) by (intros i r E; exact (okst_nth st Hst _ _ E)).
  destruct c; cbn [step];
    unfold with_row, with_acc, with_vec, with_iter, with_block, with_repeat, with_pn, with_pn_block, with_mask, with_method;
    repeat pn_step st.
  - clear. induction a; cbn; constructor; cbn; auto.
  - subst. cbn. apply stage_new_inv in H as [Hn ->].
    apply (pn_parse_legal t n x); auto.
  - apply stage_new_inv in H as [Hn ->].
    unfold pn_cross in H0. destruct (Nat.eqb_spec (n mod 2) 0); [|discriminate]. injection H0 as <-. cbn. apply even_cross_legal; auto.
  - subst. cbn. destruct (pn_between_ok r r0) as (o & E & K); eauto. rewrite E in H. injection H as ->. apply K. reflexivity.
  - subst. cbn. apply stage_new_inv in H as [Hn ->].
    destruct (pf_C43_parsed_changes_are_legal t n x) as [_ F]; auto. eapply Forall_impl; [|exact F]. cbn. tauto.
  - cbn. destruct (pf_C45_from_vec (pns_at st ps)) as (K & _). apply K in H as (-> & _). apply pns_at_legal; auto.
  - destruct (nth_error st i) eqn:E; [|assumption]. apply rets_push; auto. eapply pnst_nth; eauto.
Qed.

Lemma step_left_pn st c : pnst st -> pnst (step_left st c).
Proof.
  intros H. destruct c; cbn [step_left]; auto; unfold left_row, left_acc, left_vec, left_block, left_repeat;
    repeat match goal with
      | |- pnst st => exact H
      | |- pnst (upd _ _ _) => apply Forall_upd; [|exact I]
      | |- pnst (match ?x with _ => _ end) => destruct x
      | |- pnst (let (_, _) := ?x in _) => destruct x
      end.
Qed.

Lemma step_caught_pn ho st c : okst st -> pnst st -> rets pnst (step_caught ho st c).
Proof.
  intros H P. unfold step_caught. pose proof (step_pn ho st c H P) as S. destruct (step ho st c); auto. apply step_left_pn; auto.
Qed.

Lemma run_caught_pn ho prog : forall st, okst st -> pnst st -> careful_caught ho st prog -> rets pnst (run_caught_from ho st prog).
Proof.
  induction prog as [|c prog IH]; intros st H P C; [exact P|]. destruct C as [C1 C2].
  pose proof (step_caught_safe ho st c H C1) as S. pose proof (step_caught_pn ho st c H P) as S'.
  unfold run_caught_from in *. cbn [foldM]. destruct (step_caught ho st c) as [st'| | |] eqn:E; cbn in *; auto.
Qed.

(** ** What does not change *)

Lemma upd_id {X} (l : list X) i x : nth_error l i = Some x -> upd l i x = l.
Proof. revert i. induction l as [|h l IH]; intros [|i] E; cbn in *; try congruence. f_equal; auto. Qed.

Lemma rep_unique s rs v v' : rep s rs v -> rep s rs v' -> v = v'.
Proof. intros (_ & H1 & _ & H2) (_ & H1' & _ & H2'). destruct v, v'. cbn in *. congruence. Qed.

Lemma replace_nth_id {X} (l : list X) i x : nth_error l i = Some x -> replace_nth l i x = l.
Proof. intros N. apply nth_error_split in N as (l1 & l2 & -> & <-). apply replace_nth_split. Qed.

Section Same.
Context (st : list value) (Hst : okst st) (Hpn : pnst st).

Lemma change_row_left_same c r : valid_row r -> change_row_left st c r = r.
Proof.
  intros V. destruct c as [a b|fuel|i j|i|p]; cbn [change_row_left]; auto.
  - rewrite returns_left; auto. rewrite forget_parity. apply returns_parity; auto.
  - destruct (nth_error st i) as [[]|] eqn:Ei; auto. destruct (nth_error st j) as [[]|] eqn:Ej; auto.
    apply (okst_nth st Hst) in Ei, Ej. cbn in *. rewrite returns_left; auto. rewrite forget_mul_into_row. apply returns_mul_into_row; auto.
  - destruct (nth_error st i) as [[]|] eqn:Ei; auto. apply (okst_nth st Hst) in Ei. cbn in *.
    rewrite returns_left; auto. rewrite forget_inv_into. apply returns_inv_into; auto.
  - destruct (nth_error st p) as [[]|] eqn:Ei; auto. apply (pnst_nth st Hpn) in Ei. cbn in Ei.
    rewrite returns_left; auto. rewrite forget_pn_permute. apply returns_permute; auto.
Qed.

Lemma edit_left_same v i c : okv v -> ssv_edit_left st v i c = v.
Proof.
  intros Hv. pose proof Hv as [rs R]. unfold ssv_edit_left. destruct (ssv_get v i) as [r|] eqn:E; auto.
  erewrite ssv_get_ok in E by eauto. assert (Vr : vrow (ssv_stage v) r) by (exact (nth_valid _ _ _ _ (rep_Forall _ _ _ R) E)).
  rewrite change_row_left_same by apply Vr.
  destruct (ssv_edit_ok _ _ _ i (fun r => Ret r) r r R E eq_refl Vr) as (v' & Ev & R').
  rewrite replace_nth_id in R' by auto. pose proof (rep_unique _ _ _ _ R' R). subst v'.
  unfold ssv_edit in Ev. erewrite ssv_get_ok in Ev by eauto. rewrite E in Ev. cbn [get_range_of_row bind] in *.
  injection Ev as Ev. unfold get_range_of_row in *. exact Ev.
Qed.

Ltac getv := match goal with |- context [nth_error st ?i] => destruct (nth_error st i) as [[]|] eqn:? end; try reflexivity;
  match goal with H : nth_error st _ = Some _ |- _ => apply (okst_nth st Hst) in H as ?; cbn [okval] in * end.

Lemma left_row_same i f : (forall r, valid_row r -> f r = r) -> left_row st i f = st.
Proof. intros H. unfold left_row. getv. rewrite H by auto. apply upd_id; auto. Qed.
Lemma left_acc_same i f : (forall r, okacc r -> f r = r) -> left_acc st i f = st.
Proof. intros H. unfold left_acc. getv. rewrite H by auto. apply upd_id; auto. Qed.
Lemma left_vec_same i f : (forall v, nth_error st i = Some (VVec v) -> okv v -> f v = v) -> left_vec st i f = st.
Proof. intros H. unfold left_vec. getv. rewrite H by auto. apply upd_id; auto. Qed.

Lemma step_left_same c : careful_call st c -> writes_early c = false -> step_left st c = st.
Proof.
  intros C W. destruct c; cbn [step_left]; try reflexivity; try discriminate W.
  - getv. getv. apply left_row_same. intros o V. apply returns_left. rewrite forget_mul_into. apply returns_mul_into; auto.
  - getv. apply left_row_same. intros o V. apply returns_left. rewrite forget_inv_into_buf.
    apply returns_bind; [apply returns_inv_into_buf; auto|]. intros; exact I.
  - destruct p as [i|i index|i|i].
    + apply left_row_same. intros r V. apply change_row_left_same; auto.
    + apply left_vec_same. intros v _ Hv. apply edit_left_same; auto.
    + apply left_vec_same. intros v _ Hv. apply edit_left_same; auto.
    + apply left_vec_same. intros v _ Hv. destruct (ssv_len v) as [[|n]| | |]; auto. apply edit_left_same; auto.
  - getv. apply left_acc_same. intros x Hx. apply acc_accumulate_left; auto.
  - getv. apply left_acc_same. intros x Hx. apply acc_pre_accumulate_left; auto.
  - getv. apply left_acc_same. intros x Hx. apply acc_mul_assign_left; auto.
  - apply left_vec_same. intros x _ Hx. apply ssv_extend_left; auto. apply rows_at_valid; auto.
  - getv. getv. apply left_vec_same. intros x Ex Hx. apply extend_range_transposed_left; auto; eapply C; eauto.
  - getv. getv. apply left_vec_same. intros x Ex Hx. apply extend_range_transposed_left; auto; eapply C; eauto.
  - getv. apply left_vec_same. intros x _ Hx. apply from_within_left; auto.
Qed.
End Same.

(** ** What blocks are left as *)

Section Left.
Context {A : Type}.
Implicit Types b o : block A.

Lemma left_extend_range_popped s ars lo b ars' lo' o lo_ hi_ : brep s ars lo b -> brep s ars' lo' o ->
  let a := range_start lo_ in let e := range_end hi_ (length ars') in
  a <= length ars' -> ~ (a <= e + 1 /\ e <= length ars') ->
  exists v, block_extend_range_b o lo_ hi_ b = Unwound (Block v (map snd ars)) /\ rep s (map fst ars) v.
Proof.
  intros H Ho a e Ha Hae.
  pose proof (brep_vrows _ _ _ _ H) as [F V]. pose proof (all_rows_vrow _ _ _ _ Ho) as Fo.
  unfold block_extend_range_b. erewrite brep_len by eauto. unfold clamp_range.
  change (match lo_ with Included y => y | Excluded z => z + 1 | Unbounded => 0 end) with a.
  change (match hi_ with Included y => y + 1 | Excluded z => z | Unbounded => length ars' end) with e.
  erewrite brep_get_row by eauto.
  destruct (nth_error (all_rows_of ars' lo') a) as [first|] eqn:N; [|apply nth_error_None in N; rewrite all_rows_length in N; lia].
  assert (Vf : vrow s first). { rewrite Forall_forall in Fo. apply Fo. eapply nth_error_In; eauto. }
  unfold andthen at 1. cbn [unwrap reading]. unfold look. unfold andthen at 1 2. erewrite brep_leftover by eauto. cbn [reading].
  unfold andthen at 1. rewrite (solve_xa_ok s) by auto. cbn [reading].
  set (t := rmul lo (rinv first)). assert (Ht : vrow s t) by (apply valid_rmul; auto; apply valid_rinv; auto).
  destruct (ssv_pop_ok s (map fst ars ++ [lo]) (blk_rows b) (proj1 H)) as (v1 & E1 & R1).
  unfold rows_of_block, inside. unfold andthen at 1. rewrite pop_b_as, E1. cbn [blk_rows blk_annots]. unfold andthen at 1. cbn [blk_rows blk_annots].
  rewrite removelast_last in R1.
  assert (K : ssv_extend_range_transposed v1 t (blk_rows o) (Included a) (Excluded (e + 1)) = Panic).
  { eapply ssv_extend_range_transposed_panic; eauto; [apply Ho|]. cbn. rewrite <- (map_length fst) in Hae. rewrite app_length. cbn. rewrite (map_length fst) in *. lia. }
  assert (Hv1 : okv v1) by (eapply rep_okv; eauto). assert (Hov : okv (blk_rows o)) by (eapply rep_okv; apply Ho).
  pose proof (extend_range_transposed_left t (blk_rows o) (Included a) (Excluded (e + 1)) v1 Hv1 Hov (proj1 Ht)) as L.
  rewrite (rep_stage _ _ _ R1), (rep_stage _ _ _ (proj1 Ho)) in L. specialize (L eq_refl).
  pose proof (forget_extend_range_transposed t (blk_rows o) (Included a) (Excluded (e + 1)) v1) as Fg. rewrite K in Fg.
  destruct (ssv_extend_range_transposed_b t (blk_rows o) (Included a) (Excluded (e + 1)) v1); cbn in Fg; try discriminate.
  cbn in L. subst. exists v1. rewrite (proj2 H). split; auto.
Qed.

Lemma left_extend_range_outside s ars lo b s' ars' lo' o lo_ hi_ : brep s ars lo b -> brep s' ars' lo' o ->
  length ars' < range_start lo_ -> block_extend_range_b o lo_ hi_ b = Unwound b.
Proof.
  intros H Ho L. unfold block_extend_range_b. erewrite brep_len by eauto. unfold clamp_range.
  change (match lo_ with Included y => y | Excluded z => z + 1 | Unbounded => 0 end) with (range_start lo_).
  erewrite brep_get_row by eauto. rewrite (proj2 (nth_error_None _ _)) by (rewrite all_rows_length; lia). reflexivity.
Qed.

Lemma from_within_b_eq s ars lo b lo_ hi_ first : brep s ars lo b ->
  let a := range_start lo_ in let e := range_end hi_ (length ars) in
  nth_error (all_rows_of ars lo) a = Some first ->
  block_extend_from_within_b lo_ hi_ b =
  match ssv_extend_transposed_from_within_b (Included (a + 1)) (Excluded (e + 1)) (rmul lo (rinv first)) (blk_rows b) with
  | Done v res => (reading (unwrap_res res) ;~ new <~ reading (slice (map snd ars) a e);;
                   update (fun b => Block (blk_rows b) (blk_annots b ++ new))) (Block v (map snd ars))
  | Unwound v => Unwound (Block v (map snd ars))
  | BadAccess => BadAccess
  | OutOfFuel => OutOfFuel
  end.
Proof.
  intros H a e N. pose proof (brep_vrows _ _ _ _ H) as [F V]. pose proof (all_rows_vrow _ _ _ _ H) as Fr.
  assert (Vf : vrow s first). { rewrite Forall_forall in Fr. apply Fr. eapply nth_error_In; eauto. }
  unfold block_extend_from_within_b. unfold look. unfold andthen at 1. erewrite brep_len by eauto. unfold clamp_range.
  change (match lo_ with Included y => y | Excluded z => z + 1 | Unbounded => 0 end) with a.
  change (match hi_ with Included y => y + 1 | Excluded z => z | Unbounded => length ars end) with e.
  erewrite brep_get_row by eauto. rewrite N. unfold andthen at 1. cbn [unwrap reading]. unfold andthen at 1. erewrite brep_leftover by eauto. cbn [reading].
  unfold andthen at 1. rewrite (solve_xa_ok s) by auto. cbn [reading]. unfold andthen at 1. cbn [unwrap_res reading].
  unfold rows_of_block, inside. unfold andthen at 1. rewrite (proj2 H).
  destruct (ssv_extend_transposed_from_within_b _ _ _ _); reflexivity.
Qed.

Lemma left_from_within s ars lo b lo_ hi_ : brep s ars lo b ->
  let a := range_start lo_ in let e := range_end hi_ (length ars) in
  (a < length ars -> length ars < e ->
   exists v new, block_extend_from_within_b lo_ hi_ b = Unwound (Block v (map snd ars)) /\
     rep s (map fst ars ++ [lo] ++ new) v /\ length new = e - a /\
     forall i, i < e - a -> nth_error new i =
       option_map (moved (nth a (map fst ars) []) lo) (nth_error (map fst ars ++ [lo] ++ new) (a + 1 + i))) /\
  (~ (a <= e /\ e <= length ars) -> ~ (a < length ars /\ length ars < e) -> block_extend_from_within_b lo_ hi_ b = Unwound b).
Proof.
  intros H a e.
  pose proof (brep_vrows _ _ _ _ H) as [F V]. pose proof (all_rows_vrow _ _ _ _ H) as Fr. pose proof (all_rows_length ars lo) as Lr.
  split.
  - intros Ha He. 
    set (first := nth a (map fst ars) []).
    assert (Nf : nth_error (all_rows_of ars lo) a = Some first).
    { unfold all_rows_of, first. rewrite nth_error_app1 by (rewrite map_length; auto). apply nth_error_nth'. rewrite map_length; auto. }
    rewrite (from_within_b_eq s ars lo b lo_ hi_ first H Nf). fold a e.
    assert (Vf : vrow s first). { rewrite Forall_forall in Fr. apply Fr. eapply nth_error_In; eauto. }
    set (t := rmul lo (rinv first)). assert (Ht : vrow s t) by (apply valid_rmul; auto; apply valid_rinv; auto).
    destruct (ssv_from_within_any s _ (blk_rows b) t (Included (a + 1)) (Excluded (e + 1)) (proj1 H) Ht) as [K _]; [cbn; lia|].
    cbn [range_start range_end] in K. unfold all_rows_of in *. destruct K as (v' & new & E & R & L & I); [lia|].
    pose proof (forget_from_within (Included (a + 1)) (Excluded (e + 1)) t (blk_rows b)) as Fg. rewrite E in Fg.
    destruct (ssv_extend_transposed_from_within_b _ _ _ _) as [v1 res|v1| |]; cbn in Fg; try discriminate. injection Fg as -> ->.
    exists v', new. split; [|split; [|split]].
    + unfold andthen. cbn [unwrap_res reading]. unfold slice. rewrite map_length. rewrite (proj2 (Nat.leb_gt e _)) by lia. rewrite andb_false_r. reflexivity.
    + rewrite <- app_assoc in R. exact R.
    + lia.
    + intros i Hi. rewrite I by lia. rewrite <- app_assoc.
      destruct (nth_error (map fst ars ++ [lo] ++ new) (a + 1 + i)) as [r|] eqn:Nr; auto. cbn. f_equal. symmetry.
      assert (Vr : vrow s r). { destruct R as (_ & _ & Fa & _). rewrite <- app_assoc in Fa. rewrite Forall_forall in Fa. apply Fa. eapply nth_error_In; eauto. }
      apply (moved_unique s); auto.
      assert (K : rmul t first = lo).
      { unfold t. rewrite (rmul_assoc_vrow s) by (auto; apply valid_rinv; auto). rewrite (rmul_rinv_l s) by auto. apply rmul_rounds_r, V. }
      rewrite <- K. apply (composition_vrow s); auto.
  - intros N1 N2. destruct (nth_error (all_rows_of ars lo) a) as [first|] eqn:Nf.
    + assert (Ha : a < length ars + 1) by (rewrite <- Lr; apply nth_error_Some; congruence).
      rewrite (from_within_b_eq s ars lo b lo_ hi_ first H Nf). fold a e.
      assert (Vf : vrow s first). { rewrite Forall_forall in Fr. apply Fr. eapply nth_error_In; eauto. }
      set (t := rmul lo (rinv first)). assert (Ht : vrow s t) by (apply valid_rmul; auto; apply valid_rinv; auto).
      pose proof (forget_from_within (Included (a + 1)) (Excluded (e + 1)) t (blk_rows b)) as Fg.
      assert (Eb : Block (blk_rows b) (map snd ars) = b) by (rewrite <- (proj2 H); destruct b; reflexivity).
      destruct (le_lt_dec a e) as [L|L].
      * (* from the left-over row to beyond it *)
        assert (Ea : a = length ars) by lia.
        destruct (ssv_from_within_any s _ (blk_rows b) t (Included (a + 1)) (Excluded (e + 1)) (proj1 H) Ht) as [_ K]; [cbn; lia|].
        cbn [range_start] in K. rewrite K in Fg by (fold (all_rows_of ars lo); lia).
        assert (Hb : okv (blk_rows b)) by (eapply rep_okv; apply H).
        pose proof (from_within_left (Included (a + 1)) (Excluded (e + 1)) t (blk_rows b) Hb (proj1 Ht)) as Lf.
        destruct (ssv_extend_transposed_from_within_b _ _ _ _) as [v1 res|v1| |]; cbn in Fg; try discriminate. cbn in Lf. subst. rewrite Eb. reflexivity.
      * rewrite (ssv_from_within_empty s _ (blk_rows b) t (Included (a + 1)) (Excluded (e + 1)) (proj1 H) Ht) in Fg by (cbn; lia).
        destruct (ssv_extend_transposed_from_within_b _ _ _ _) as [v1 res|v1| |]; cbn in Fg; try discriminate. injection Fg as -> ->.
        unfold andthen. cbn [unwrap_res reading]. unfold slice. rewrite (proj2 (Nat.leb_gt a e)) by lia. cbn [andb reading]. rewrite Eb. reflexivity.
    + unfold block_extend_from_within_b, look. unfold andthen at 1. erewrite brep_len by eauto. unfold clamp_range.
      change (match lo_ with Included y => y | Excluded z => z + 1 | Unbounded => 0 end) with a.
      erewrite brep_get_row by eauto. rewrite Nf. reflexivity.
Qed.
End Left.

(** ** An iterator which panics *)

Lemma extend_panicking_left before s v rows : rep s before v -> Forall (vrow s) rows ->
  exists v', ssv_extend_b rows true v = Unwound v' /\ rep s (before ++ rows) v'.
Proof.
  intros R F. unfold ssv_extend_b, look. unfold andthen at 1. generalize (length (ssv_bells v)) as n. revert before v R.
  induction F as [|r rows Vr F IH]; intros before v R n; cbn [ssv_extend_loop_b].
  - exists v. rewrite app_nil_r. auto.
  - unfold look. unfold andthen at 1. unfold andthen at 1. rewrite valid_row_stage by apply Vr. cbn [reading]. unfold test_err.
    rewrite (rep_stage _ _ _ R), (proj2 Vr), Nat.eqb_refl. unfold write. unfold andthen at 1.
    replace (before ++ r :: rows) with ((before ++ [r]) ++ rows) by (rewrite <- app_assoc; reflexivity). apply IH.
    destruct R as (Hs & Hst & Fb & E). apply rep_intro; auto.
    + apply Forall_app; auto.
    + cbn [ssv_bells]. rewrite E, concat_app. cbn. rewrite app_nil_r. reflexivity.
Qed.

(** ** A buffer of a larger stage *)

Lemma each_idx_left (t : row) pre x post : forall v, Forall (fun y => y < length t) pre -> length t <= x ->
  each (fun x => y <~ reading (idx t x);; push_bell y) (pre ++ x :: post) v =
  Unwound (Ssv (ssv_bells v ++ map (fun y => nth y t 0) pre) (ssv_stage v)).
Proof.
  induction pre as [|y pre IH]; intros v F Hx; cbn [app each map].
  - unfold andthen. rewrite app_nil_r. unfold idx. rewrite (proj2 (nth_error_None t x)) by auto. cbn. destruct v; reflexivity.
  - inversion F as [|? ? F1 F2]; subst. unfold andthen at 1. unfold andthen at 1. rewrite (idx_ret 0) by auto. cbn [reading].
    unfold push_bell at 1, update. rewrite IH by auto. cbn [ssv_bells ssv_stage]. rewrite <- app_assoc. reflexivity.
Qed.

Lemma extend_range_transposed_partway s rs v s' rs' o t lo hi pre x post : rep s rs v -> rep s' rs' o -> vrow s t ->
  let a := range_start lo in let b := range_end hi (length rs') in a <= b -> b <= length rs' ->
  concat (sublist a b rs') = pre ++ x :: post -> Forall (fun y => y < s) pre -> s <= x ->
  ssv_extend_range_transposed_b t o lo hi v = Unwound (Ssv (concat rs ++ map (fun y => nth y t 0) pre) s).
Proof.
  intros R R' Vt a b Hab Hb E F Hx. unfold ssv_extend_range_transposed_b, look. unfold andthen at 1 2.
  rewrite valid_row_stage by apply Vt. cbn [reading]. unfold test_err. rewrite (rep_stage _ _ _ R), (proj2 Vt), Nat.eqb_refl.
  erewrite to_bell_range_ok by eauto. unfold andthen at 1. cbn [reading]. fold a b. unfold andthen at 1.
  rewrite slice_ret; [|nia|rewrite (rep_length _ _ _ R'); nia]. cbn [reading].
  destruct R' as (_ & _ & Ho & Eb). rewrite Eb, sublist_concat by (auto using vrow_lengths). fold (sublist a b rs'). rewrite E.
  unfold andthen at 1. rewrite each_idx_left.
  - destruct R as (_ & Hst & _ & Ev). rewrite Hst, Ev. reflexivity.
  - rewrite (proj2 Vt). exact F.
  - rewrite (proj2 Vt). exact Hx.
Qed.
