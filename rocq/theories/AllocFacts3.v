(** Proofs about the requests made to the allocator: histories. *)
From Verif Require Import Base Spec Bell Stage Row Utils SameStageVec Block Alloc SpecVec SpecAcc SpecBlock SpecAlloc
  ListFacts BellFacts RowFacts MulFacts GroupFacts SsvFacts BlockFacts AllocFacts AllocFacts2.
Local Open Scope list_scope.

Lemma bare_ret_inv {A B} (f : A -> B) (m : alloc A) b : bare f m = Ret b -> exists a n, m = Ret (a, n) /\ f a = b.
Proof. unfold bare. destruct m as [[a n]| | |]; cbn [bind]; try discriminate. injection 1 as <-. eauto. Qed.

Section AllocFacts3.
Context (grow : nat -> nat -> nat).

(** ** Buffers of rows *)

Lemma run_room N s ops : forall rs v, rep s rs (ssv_of v) -> Forall vec_op_args_valid ops ->
  never_above N s rs ops -> N * s <= room (as_bells v) ->
  exists rs' outs v', vec_run s rs ops = Some (rs', outs) /\
    a_ssv_run grow v ops = Ret ((v', outs), all_handed_out s rs ops) /\
    room (as_bells v') = room (as_bells v) /\ rep s rs' (ssv_of v').
Proof.
  induction ops as [|op t IH]; intros rs v R A NA Rm; cbn [a_ssv_run vec_run all_handed_out never_above] in *.
  - exists rs, [], v. auto.
  - destruct NA as (L & NL & X & NA). inversion A; subst.
    destruct (vec_step s rs op) as [[rs1 o]|] eqn:V; [|contradiction].
    destruct (ssv_step_refines s rs (ssv_of v) op rs1 o R) as (w & S1 & R1); auto.
    pose proof (bare_step grow v op) as B. rewrite S1 in B. apply bare_ret_inv in B as ([v1 o1] & n & E & Eq).
    unfold on_fst in Eq. cbn [fst snd] in Eq. injection Eq as <- ->.
    assert (L1 : length rs1 <= N) by (destruct t; apply NA).
    destruct (step_room grow N s rs v op rs1 o v1 n) as [Rv ->]; auto.
    destruct (IH rs1 v1) as (rs2 & os & v2 & E1 & E2 & E3 & E4); auto; [rewrite Rv; auto|].
    rewrite E1, E. rewrite abind_ret. rewrite E2. rewrite abind_ret. cbn [bind]. rewrite Nat.add_0_r.
    exists rs2, (o :: os), v2. splits; auto. congruence.
Qed.

(** ** Rows written into a buffer *)

Lemma mul_unchecked_v s a b : vrow s a -> vrow s b -> mapM (fun x => idx a x) b = Ret (rmul a b).
Proof.
  intros Va Vb. apply (mul_unchecked_ok a b). rewrite (proj2 Va), <- (proj2 Vb). apply valid_row_Forall, Vb.
Qed.

Lemma a_mul_into_unchecked_eq s a b out : vrow s a -> vrow s b ->
  a_mul_into_unchecked grow a b out = Ret (Vec (rmul a b) (room_for grow (room out) s), asks (room out) s).
Proof.
  intros Va Vb. unfold a_mul_into_unchecked.
  rewrite (mul_unchecked_v s) by auto. rewrite abind_free, extend_eq.
  cbn [vec_clear items room app length Nat.add]. rewrite length_rmul, (proj2 Vb). reflexivity.
Qed.
Lemma a_mul_into_eq s a b out : vrow s a -> vrow s b ->
  a_mul_into grow a b out = Ret ((Vec (rmul a b) (room_for grow (room out) s), Ok tt), asks (room out) s).
Proof.
  intros Va Vb. unfold a_mul_into. rewrite (valid_row_stage a), (valid_row_stage b) by (apply Va || apply Vb).
  rewrite !abind_free. unfold test_err. rewrite (proj2 Va), (proj2 Vb), Nat.eqb_refl.
  rewrite (a_mul_into_unchecked_eq s) by auto. rewrite abind_ret. cbn [bind]. rewrite Nat.add_0_r. reflexivity.
Qed.
Lemma a_mul_into_err a b out : valid_row a -> valid_row b -> length a <> length b ->
  a_mul_into grow a b out = Ret ((out, Err (IncompatibleStages (length a) (length b))), 0).
Proof.
  intros Va Vb N. unfold a_mul_into. rewrite (valid_row_stage a), (valid_row_stage b) by auto.
  rewrite !abind_free. unfold test_err. apply Nat.eqb_neq in N. rewrite N. reflexivity.
Qed.
Lemma a_mul_eq s a b : vrow s a -> vrow s b -> a_mul grow a b = Ret (Vec (rmul a b) (room_for grow 0 s), asks 0 s).
Proof.
  intros Va Vb. unfold a_mul, a_mul_result. rewrite (valid_row_stage a), (valid_row_stage b) by (apply Va || apply Vb).
  rewrite !abind_free. unfold test_err. rewrite (proj2 Va), (proj2 Vb), Nat.eqb_refl. unfold a_mul_unchecked.
  rewrite (mul_unchecked_v s) by auto. rewrite abind_free, collect_eq, length_rmul, (proj2 Vb).
  rewrite abind_ret. cbn [bind]. rewrite abind_ret. cbn [free unwrap_res bind]. rewrite !Nat.add_0_r. reflexivity.
Qed.
Lemma a_inv_into_buf_eq r out : valid_row r -> items out <> [] ->
  a_inv_into_buf grow r out =
  if length (items out) <? length r
  then Ret (Vec (rinv r) (room_for grow (room out) (length r)), asks (room out) (length r))
  else Ret (Vec (rinv r) (room out), 0).
Proof.
  intros V N. pose proof (valid_row_pos r V) as P. unfold a_inv_into_buf.
  assert (Q : 0 < length (items out)) by (destruct (items out); cbn; [congruence|lia]).
  assert (Fin : forall o k, length (items o) = length r ->
    (out1 <+ Ret (o, k);; so1 <+ free (row_stage (items out1));; _ <+ free (assert_ (so1 =? length r));;
     l <+ free (inv_loop r (items out1));; Ret (Vec l (room out1), 0)) = Ret (Vec (rinv r) (room o), k)).
  { intros o k L. rewrite abind_ret. unfold row_stage. rewrite stage_new_pos, abind_free by lia.
    rewrite L, Nat.eqb_refl. cbn [assert_]. rewrite abind_free, inv_loop_ok by auto. rewrite abind_free. cbn [bind].
    rewrite Nat.add_0_r. reflexivity. }
  unfold row_stage at 1 2. rewrite (stage_new_pos (length (items out))), (stage_new_pos (length r)) by auto.
  rewrite !abind_free.
  destruct (Nat.compare_spec (length (items out)) (length r)) as [C|C|C].
  - rewrite Fin by auto. rewrite (proj2 (Nat.ltb_ge _ _)) by lia. reflexivity.
  - rewrite extend_eq. rewrite Fin by (cbn [items]; rewrite app_length, repeat_length; lia).
    rewrite (proj2 (Nat.ltb_lt _ _)) by lia. cbn [room]. rewrite repeat_length.
    replace (length (items out) + (length r - length (items out))) with (length r) by lia. reflexivity.
  - unfold slice. cbn [Nat.leb andb]. rewrite (proj2 (Nat.leb_le _ _)) by lia. rewrite abind_free.
    rewrite Fin by (cbn [vec_drain_from items]; apply firstn_length_le; lia).
    rewrite (proj2 (Nat.ltb_ge _ _)) by lia. reflexivity.
Qed.

(** ** is_group *)

Lemma asks_room old s : ample grow -> asks (room_for grow old s) s = 0.
Proof. intros G. apply asks_fits, room_ge, G. Qed.

Lemma group_inner_cost s set b_inv todo : ample grow -> vrow s b_inv -> Forall (vrow s) todo -> forall buf,
  exists buf' ok n, a_is_group_inner grow set b_inv buf todo = Ret ((buf', ok), n) /\
    n + asks (room buf') s <= asks (room buf) s.
Proof.
  intros G Vb F. induction F as [|a t Va F IH]; intros buf; cbn [a_is_group_inner].
  - eexists _, _, _. split; [reflexivity|]. lia.
  - rewrite (a_mul_into_unchecked_eq s) by auto. rewrite abind_ret. cbn [items].
    destruct (row_mem _ set).
    + destruct (IH (Vec (rmul a b_inv) (room_for grow (room buf) s))) as (buf' & ok & n & E & L). rewrite E. cbn [bind].
      eexists _, _, _. split; [reflexivity|]. cbn [room] in L. rewrite asks_room in L by auto. lia.
    + cbn [bind]. eexists _, _, _. split; [reflexivity|]. cbn [room]. rewrite asks_room by auto. lia.
Qed.
Lemma group_outer_cost s set todo : ample grow -> Forall (vrow s) set -> Forall (vrow s) todo -> forall b_inv buf,
  items b_inv <> [] ->
  exists ok n, a_is_group_outer grow set b_inv buf todo = Ret (ok, n) /\ n <= asks (room b_inv) s + asks (room buf) s.
Proof.
  intros G Fs F. induction F as [|b t Vb F IH]; intros b_inv buf N; cbn [a_is_group_outer].
  - eexists _, _. split; [reflexivity|]. lia.
  - rewrite a_inv_into_buf_eq by (auto; apply Vb).
    assert (K : forall r k, k + asks r s <= asks (room b_inv) s -> exists ok n,
      (b_inv' <+ Ret (Vec (rinv b) r, k);; '(buf', ok) <+ a_is_group_inner grow set (items b_inv') buf set;;
       if ok : bool then a_is_group_outer grow set b_inv' buf' t else Ret (false, 0)) = Ret (ok, n) /\
      n <= asks (room b_inv) s + asks (room buf) s).
    { intros r k Lk. rewrite abind_ret. cbn [items].
      pose proof (valid_rinv s b Vb) as Vi.
      destruct (group_inner_cost s set (rinv b) set G Vi Fs buf) as (buf' & ok & n & E & L).
      rewrite E, abind_ret. destruct ok.
      - destruct (IH (Vec (rinv b) r) buf') as (ok & n2 & E2 & L2).
        { cbn [items]. destruct Vi as [[H _] _]. exact H. }
        rewrite E2. cbn [bind]. eexists _, _. split; [reflexivity|]. cbn [room] in L2. lia.
      - cbn [bind]. eexists _, _. split; [reflexivity|]. lia. }
    rewrite (proj2 Vb). destruct (_ <? _); apply K; [rewrite asks_room by auto|]; lia.
Qed.

(** ** Accumulators *)

Definition acc_fits (s : nat) (a : aacc) : Prop :=
  vrow s (items (aa_total a)) /\ s <= room (aa_total a) /\ s <= room (aa_temp a).

Lemma acc_call_cost s a o : acc_fits s a -> valid_row (acc_row o) ->
  (forall r, o = SetTo r -> length r = s) ->
  exists a' res, a_acc_call grow a o = Ret ((a', res), 0) /\ acc_fits s a'.
Proof.
  intros (V & R1 & R2) Vo H. destruct o as [r|r|r]; cbn [a_acc_call acc_row] in *.
  - unfold a_accumulate. destruct (Nat.eq_dec (length r) s) as [E|E].
    + rewrite (a_mul_into_eq s) by (auto; split; auto). rewrite room_fits, asks_fits, abind_ret0 by auto.
      eexists _, _. split; [reflexivity|]. unfold acc_fits; cbn [aa_total aa_temp items room]. splits; auto.
      apply valid_rmul; [auto|split; auto].
    + rewrite a_mul_into_err by (auto; try apply V; rewrite (proj2 V); auto). rewrite abind_ret0.
      eexists _, _. split; [reflexivity|]. unfold acc_fits; auto.
  - unfold a_pre_accumulate. destruct (Nat.eq_dec (length r) s) as [E|E].
    + rewrite (a_mul_into_eq s) by (auto; split; auto). rewrite room_fits, asks_fits, abind_ret0 by auto.
      eexists _, _. split; [reflexivity|]. unfold acc_fits; cbn [aa_total aa_temp items room]. splits; auto.
      apply valid_rmul; [split; auto|auto].
    + rewrite a_mul_into_err by (auto; try apply V; rewrite (proj2 V); auto). rewrite abind_ret0.
      eexists _, _. split; [reflexivity|]. unfold acc_fits; auto.
  - pose proof (H r eq_refl) as L. unfold a_set, a_copy_into. rewrite extend_eq. cbn [vec_clear items room app length Nat.add].
    rewrite room_fits, asks_fits, !abind_ret0 by lia. eexists _, _. split; [reflexivity|].
    unfold acc_fits; cbn [aa_total aa_temp items room]. splits; auto. split; auto.
Qed.
Lemma acc_calls_cost s ops : Forall (fun o => valid_row (acc_row o)) ops ->
  (forall r, In (SetTo r) ops -> length r = s) -> forall a, acc_fits s a ->
  exists a', a_acc_calls grow a ops = Ret (a', 0) /\ acc_fits s a'.
Proof.
  intros F. induction F as [|o t Vo F IH]; intros H a A; cbn [a_acc_calls].
  - eauto.
  - destruct (acc_call_cost s a o A Vo) as (a1 & res & E & A1).
    { intros r ->. apply H. left. auto. }
    rewrite E, abind_ret0. apply IH; auto. intros r I. apply H. right. auto.
Qed.
Lemma acc_new_fits s t : ample grow -> vrow s (items t) -> length (items t) <= room t ->
  exists a, a_acc_new grow t = Ret (a, 1) /\ aa_total a = t /\ acc_fits s a.
Proof.
  intros G V R. pose proof (valid_row_pos _ (proj1 V)) as P. unfold a_acc_new, a_rounds.
  rewrite valid_row_stage by apply V. rewrite abind_free, collect_eq, abind_ret. cbn [bind].
  rewrite length_rounds, Nat.add_0_r.
  assert (A1 : asks 0 (length (items t)) = 1).
  { unfold asks. destruct (Nat.leb_spec (length (items t)) 0); [lia|auto]. }
  rewrite A1. eexists. splits; [reflexivity|reflexivity|]. unfold acc_fits; cbn [aa_total aa_temp items room]. splits; auto.
  - rewrite <- (proj2 V). auto.
  - rewrite (proj2 V). apply room_ge, G.
Qed.
Lemma acc_rounds_fits s : ample grow -> 0 < s -> exists a, a_acc_rounds grow s = Ret (a, 2) /\ acc_fits s a.
Proof.
  intros G P. unfold a_acc_rounds, a_rounds. rewrite collect_eq, abind_ret. rewrite length_rounds.
  destruct (acc_new_fits s (Vec (row_rounds s) (room_for grow 0 s))) as (a & E & _ & F); auto.
  - cbn [items]. apply valid_rounds; auto.
  - cbn [items room]. rewrite length_rounds. apply room_ge, G.
  - rewrite E. cbn [bind]. exists a. split; auto. f_equal. f_equal. unfold asks.
    destruct (Nat.leb_spec s 0); [lia|reflexivity].
Qed.
Lemma pow_loop_cost s r n : vrow s r -> forall a, acc_fits s a ->
  exists a', a_pow_loop grow a r n = Ret (a', 0) /\ acc_fits s a'.
Proof.
  intros V. induction n as [|n IH]; intros a A; cbn [a_pow_loop]; eauto.
  pose proof A as (Va & R1 & R2). unfold a_accumulate. rewrite (a_mul_into_eq s) by auto.
  rewrite room_fits, asks_fits, !abind_ret0 by auto. cbn [unwrap_res]. rewrite abind_free.
  apply IH. unfold acc_fits; cbn [aa_total aa_temp items room]. splits; auto. apply valid_rmul; auto.
Qed.
Lemma pow_u_cost s r n : ample grow -> vrow s r -> exists v, a_pow_u grow r n = Ret (v, 2).
Proof.
  intros G V. unfold a_pow_u. rewrite valid_row_stage by apply V. rewrite abind_free.
  destruct (acc_rounds_fits (length r) G) as (a & E & F); [apply valid_row_pos, V|]. rewrite E, abind_ret.
  destruct (pow_loop_cost (length r) r n) with (a := a) as (a' & E2 & F2); auto; [apply vrow_intro, V|].
  rewrite E2, abind_ret0. cbn [bind]. eauto.
Qed.
Lemma inv_cost r : valid_row r -> exists v, a_inv grow r = Ret (v, 1) /\ items v = rinv r.
Proof.
  intros V. pose proof (valid_row_pos r V) as P. unfold a_inv. rewrite valid_row_stage by auto.
  rewrite abind_free, collect_eq, abind_ret, repeat_length. cbn [items room].
  rewrite inv_loop_ok by (auto; apply repeat_length). rewrite abind_free. cbn [bind].
  assert (A1 : asks 0 (length r) = 1) by (unfold asks; destruct (Nat.leb_spec (length r) 0); [lia|auto]).
  rewrite A1. eexists. split; reflexivity.
Qed.

(** ** Repeated blocks *)

Section Repeat.
Context {A : Type}.
Lemma bare_next_untransposed (ri : repeat_iter A) :
  bare (fun x => x) (a_next_untransposed_row grow ri) = next_untransposed_row ri.
Proof.
  unfold a_next_untransposed_row, next_untransposed_row. apply bare_bind_free. intros [[x|] it]; [reflexivity|].
  apply bare_bind_free. intros lo.
  rewrite (bare_bind items _ _ _ (fun head => it' <- get_iter (ri_block ri);; '(o', it'') <- ii_next it';; Ret (o', RepeatIter head it'' (ri_block ri)))).
  - rewrite bare_mul. reflexivity.
  - intros h. apply bare_bind_free. intros it'. apply bare_bind_free. intros [o it'']. reflexivity.
Qed.
Lemma bare_repeat_next (ri : repeat_iter A) :
  bare (on_fst (option_map (fun '(r, i, a) => (items r, i, a)))) (a_repeat_iter_next grow ri) = repeat_iter_next ri.
Proof.
  unfold a_repeat_iter_next, repeat_iter_next.
  rewrite (bare_bind (fun x => x) _ _ _ (fun '(o, ri') => match o with None => Ret (None, ri')
    | Some (i, (r, a)) => next_row <- row_mul (ri_head ri') r;; Ret (Some (next_row, i, a), ri') end)).
  - rewrite bare_next_untransposed. reflexivity.
  - intros [[[i [r a]]|] ri']; [|reflexivity].
    rewrite (bare_bind items _ _ _ (fun n => Ret (Some (n, i, a), ri'))) by reflexivity. rewrite bare_mul. reflexivity.
Qed.
Lemma bare_repeat_next_into (ri : repeat_iter A) out :
  bare (fun p => (fst (fst p), items (snd (fst p)), snd p)) (a_repeat_iter_next_into grow ri out) =
  repeat_iter_next_into ri (items out).
Proof.
  unfold a_repeat_iter_next_into, repeat_iter_next_into.
  rewrite (bare_bind (fun x => x) _ _ _ (fun '(o, ri') => match o with None => Ret (None, items out, ri')
    | Some (i, (r, a)) => '(out', res) <- mul_into (ri_head ri') r (items out);; unwrap_res res;;; Ret (Some (i, a), out', ri') end)).
  - rewrite bare_next_untransposed. reflexivity.
  - intros [[[i [r a]]|] ri']; [|reflexivity].
    rewrite (bare_bind (on_fst items) _ _ _ (fun '(out', res) => unwrap_res res;;; Ret (Some (i, a), out', ri'))).
    + rewrite bare_mul_into. reflexivity.
    + intros [o res]. apply bare_bind_free. reflexivity.
Qed.

Lemma next_untransposed_cost s (ars : list (row * A)) lo ri head i : ri_state s ars lo ri head i -> ars <> [] ->
  let head' := if i <? length ars then head else rmul head lo in
  let i' := if i <? length ars then i else 0 in
  exists ri' ra, a_next_untransposed_row grow ri = Ret ((Some (i', ra), ri'), if i <? length ars then 0 else 1) /\
    nth_error ars i' = Some ra /\ ri_state s ars lo ri' head' (i' + 1).
Proof.
  intros St N head' i'. destruct (next_untransposed_ok s ars lo ri head i St N) as (ri' & ra & E & Nr & St').
  exists ri', ra. splits; auto. pose proof (bare_next_untransposed ri) as B. rewrite E in B.
  apply bare_ret_inv in B as (p & n & E2 & ->). fold i' in E2. rewrite E2. f_equal. f_equal.
  clear Nr St' E. destruct St as (H & Hh & Vh & Hi & Ei). pose proof (brep_vrows _ _ _ _ H) as [F V].
  assert (Hs : 0 < s) by (eapply rep_pos, H).
  unfold a_next_untransposed_row in E2. rewrite Ei, ii_next_ok in E2 by auto. rewrite abind_free in E2. subst i'.
  destruct (Nat.ltb_spec i (length ars)) as [L|L].
  - destruct (nth_error ars i) as [rb|] eqn:Ni; [|apply nth_error_None in Ni; lia]. injection E2. auto.
  - replace (nth_error ars i) with (@None (row * A)) in E2 by (symmetry; apply nth_error_None; lia).
    erewrite brep_leftover in E2 by eauto. rewrite abind_free, Hh in E2. rewrite (a_mul_eq s) in E2 by auto.
    ai E2 X1 h. aif E2 X2 it. aif E2 X3 q. destruct q. injection E2 as _ _ <-. injection X1 as _ <-.
    unfold asks. destruct (Nat.leb_spec s 0); lia.
Qed.

Lemma wraps_step L i k : 0 < L -> i <= L ->
  (if i <? L then 0 else 1) + ((if i <? L then i else 0) + 1 + k - 1) / L = (i + S k - 1) / L.
Proof.
  intros P Hi. destruct (Nat.ltb_spec i L) as [H|H].
  - cbn [Nat.add]. f_equal. lia.
  - assert (i = L) by lia. subst i. replace (L + S k - 1) with (k + 1 * L) by lia. rewrite Nat.div_add by lia.
    replace (0 + 1 + k - 1) with k by lia. lia.
Qed.

Lemma nexts_cost s (ars : list (row * A)) lo k : ars <> [] -> forall ri head i, ri_state s ars lo ri head i ->
  exists outs, a_nexts grow k ri = Ret (outs, k + (i + k - 1) / length ars).
Proof.
  intros N. assert (P : 0 < length ars) by (destruct ars; [congruence|cbn; lia]).
  induction k as [|k IH]; intros ri head i St; cbn [a_nexts].
  - exists ([], ri). f_equal. f_equal. rewrite Nat.div_small; [reflexivity|]. destruct St as (_ & _ & _ & Hi & _). lia.
  - destruct (next_untransposed_cost s ars lo ri head i St N) as (ri' & [r a] & E & Nr & St').
    unfold a_repeat_iter_next. rewrite E, abind_ret. pose proof St' as (Hb & Hh & Vh & _ & _).
    pose proof (brep_vrows _ _ _ _ Hb) as [F V].
    assert (Vr : vrow s r). { rewrite Forall_forall in F. apply F. apply in_map_iff. exists (r, a). split; auto. eapply nth_error_In; eauto. }
    rewrite Hh, (a_mul_eq s) by auto. rewrite abind_ret. cbn [bind]. rewrite abind_ret.
    destruct (IH ri' _ _ St') as (outs & E2). rewrite E2. destruct outs as [os ri2]. rewrite abind_ret. cbn [bind].
    eexists. f_equal. f_equal. rewrite <- (wraps_step (length ars) i k) by (auto; apply St).
    assert (A1 : asks 0 s = 1). { unfold asks. pose proof (valid_row_pos r (proj1 Vr)). rewrite (proj2 Vr) in *. destruct (Nat.leb_spec s 0); lia. }
    rewrite A1. lia.
Qed.
Lemma next_intos_cost s (ars : list (row * A)) lo k : ars <> [] -> forall ri head i out, ri_state s ars lo ri head i ->
  s <= room out ->
  exists os out', a_next_intos grow k ri out = Ret ((os, out'), (i + k - 1) / length ars) /\ room out' = room out.
Proof.
  intros N. assert (P : 0 < length ars) by (destruct ars; [congruence|cbn; lia]).
  induction k as [|k IH]; intros ri head i out St R; cbn [a_next_intos].
  - exists [], out. split; auto. f_equal. f_equal. symmetry. apply Nat.div_small. destruct St as (_ & _ & _ & Hi & _). lia.
  - destruct (next_untransposed_cost s ars lo ri head i St N) as (ri' & [r a] & E & Nr & St').
    unfold a_repeat_iter_next_into. rewrite E, abind_ret. pose proof St' as (Hb & Hh & Vh & _ & _).
    pose proof (brep_vrows _ _ _ _ Hb) as [F V].
    assert (Vr : vrow s r). { rewrite Forall_forall in F. apply F. apply in_map_iff. exists (r, a). split; auto. eapply nth_error_In; eauto. }
    rewrite Hh, (a_mul_into_eq s) by auto. rewrite room_fits, asks_fits, abind_ret0 by auto. cbn [unwrap_res].
    rewrite abind_free. cbn [bind]. rewrite abind_ret.
    destruct (IH ri' _ _ (Vec (rmul (if i <? length ars then head else rmul head lo) r) (room out)) St') as (os & out' & E2 & Ro); auto.
    rewrite E2. rewrite abind_ret. cbn [bind].
    eexists _, _. split; [|exact Ro]. f_equal. f_equal. rewrite <- (wraps_step (length ars) i k) by (auto; apply St). lia.
Qed.
Lemma next_untransposed_empty_cost s lo (ri : repeat_iter A) head : ri_state s [] lo ri head 0 ->
  exists ri', a_next_untransposed_row grow ri = Ret ((None, ri'), 1) /\ ri_state s [] lo ri' (rmul head lo) 0.
Proof.
  intros St. destruct (next_untransposed_empty s lo ri head St) as (ri' & E & St'). exists ri'. split; auto.
  pose proof (bare_next_untransposed ri) as B. rewrite E in B.
  apply bare_ret_inv in B as (p & n & E2 & ->). rewrite E2. f_equal. f_equal.
  clear St' E. destruct St as (H & Hh & Vh & Hi & Ei). pose proof (brep_vrows _ _ _ _ H) as [F V].
  assert (Hs : 0 < s) by (eapply rep_pos, H).
  unfold a_next_untransposed_row in E2. rewrite Ei, ii_next_ok in E2 by auto. rewrite abind_free in E2. cbn [nth_error] in E2.
  erewrite brep_leftover in E2 by eauto. rewrite abind_free, Hh in E2. rewrite (a_mul_eq s) in E2 by auto.
  ai E2 X1 h. aif E2 X2 it. aif E2 X3 q. destruct q. injection E2 as _ _ <-. injection X1 as _ <-.
  unfold asks. destruct (Nat.leb_spec s 0); lia.
Qed.

Lemma empty_cost s lo k : forall (ri : repeat_iter A) head out, ri_state s [] lo ri head 0 ->
  (exists ri', a_nexts grow k ri = Ret ((repeat None k, ri'), k)) /\
  a_next_intos grow k ri out = Ret ((repeat (items out, None) k, out), k).
Proof.
  induction k as [|k IH]; intros ri head out St; [split; [exists ri|]; reflexivity|]. cbn [a_nexts a_next_intos repeat].
  destruct (next_untransposed_empty_cost s lo ri head St) as (ri' & E & St').
  unfold a_repeat_iter_next, a_repeat_iter_next_into. rewrite !E, !abind_ret. cbn [bind]. rewrite !abind_ret.
  destruct (IH ri' _ out St') as ((ri2 & E1) & E2). rewrite E1, E2, !abind_ret. cbn [bind]. split; [exists ri2|]; f_equal; f_equal; lia.
Qed.
End Repeat.
End AllocFacts3.
