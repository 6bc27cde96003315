(** Programs over the safe API keep every row valid. *)
From Verif Require Import Base Bell Stage Parity Row Utils SameStageVec Block PlaceNot Mask Class Method Program
  Spec SpecVec SpecProg ListFacts BellFacts RowFacts MulFacts GroupFacts ParityFacts SsvFacts BlockFacts.
Local Open Scope list_scope.

(** ** Outcomes *)

Definition safe {A} (P : A -> Prop) (e : exec A) : Prop :=
  match e with Ret a => P a | Ub => False | _ => True end.

Lemma safe_bind {A B} (P : A -> Prop) (Q : B -> Prop) e f :
  safe P e -> (forall a, P a -> safe Q (f a)) -> safe Q (bind e f).
Proof. destruct e; cbn; auto. Qed.

Lemma safe_imp {A} (P Q : A -> Prop) e : safe P e -> (forall a, P a -> Q a) -> safe Q e.
Proof. destruct e; cbn; auto. Qed.

Lemma safe_ret {A} (P : A -> Prop) a : P a -> safe P (Ret a).
Proof. auto. Qed.

Definition any {A} : A -> Prop := fun _ => True.
Lemma any_any {A} (P : A -> Prop) e : safe P e -> safe any e.
Proof. destruct e; cbn; unfold any; auto. Qed.

Definition okopt {A} (P : A -> Prop) (o : option A) : Prop := match o with Some x => P x | None => True end.
Definition okres {A E} (P : A -> Prop) (r : result A E) : Prop := match r with Ok x => P x | Err _ => True end.
Definition okfst {A B} (P : A -> Prop) (p : A * B) : Prop := P (fst p).

Create HintDb safe.
#[export] Hint Resolve safe_ret : safe.

Lemma safe_unwrap {A} (P : A -> Prop) o : okopt P o -> safe P (unwrap o).
Proof. destruct o; cbn; auto. Qed.
Lemma safe_unwrap_res {A E} (P : A -> Prop) (r : result A E) : okres P r -> safe P (unwrap_res r).
Proof. destruct r; cbn; auto. Qed.
Lemma safe_assert b : safe (fun _ => b = true) (assert_ b).
Proof. destruct b; cbn; auto. Qed.
Lemma safe_idx {A} (l : list A) i : safe (fun x => nth_error l i = Some x) (idx l i).
Proof. unfold idx. destruct (nth_error l i); cbn; auto. Qed.
Lemma safe_set_idx {A} (l : list A) i x : safe any (set_idx l i x).
Proof. unfold set_idx. destruct (i <? length l); cbn; unfold any; auto. Qed.
Lemma safe_slice {A} (l : list A) a b : safe any (slice l a b).
Proof. unfold slice. destruct (_ && _); cbn; unfold any; auto. Qed.
Lemma safe_stage n : safe (fun s => 0 < s /\ s = n) (stage_new n).
Proof. destruct n; cbn; auto. split; auto. lia. Qed.
Lemma safe_row_stage r : safe (fun s => 0 < s /\ s = length r) (row_stage r).
Proof. apply safe_stage. Qed.
Lemma safe_mapM {A B} (f : A -> exec B) (P : A -> Prop) (Q : B -> Prop) l :
  (forall x, P x -> safe Q (f x)) -> Forall P l -> safe (Forall Q) (mapM f l).
Proof.
  intros Hf. induction 1; cbn [mapM]; [cbn; auto|]. eapply safe_bind; [apply Hf; eauto|]. intros y Hy.
  eapply safe_bind; [apply IHForall|]. intros ys Hys. cbn; auto.
Qed.
Lemma Forall_any {A} (l : list A) : Forall any l.
Proof. induction l; constructor; unfold any; auto. Qed.
Lemma safe_mapM_any {A B} (f : A -> exec B) l : (forall x, safe any (f x)) -> safe any (mapM f l).
Proof. intros H. eapply any_any, (safe_mapM f any any); eauto using Forall_any. Qed.
Lemma safe_foldM {A S} (P : S -> Prop) (f : S -> A -> exec S) l : (forall s a, P s -> safe P (f s a)) ->
  forall s, P s -> safe P (foldM f l s).
Proof. intros Hf. induction l; intros s Hs; cbn [foldM]; auto. eapply safe_bind; eauto. Qed.

(** one step of a proof that a computation has no undefined behaviour *)
Ltac sstep :=
  match goal with
  | |- safe _ (bind _ _) => eapply (safe_bind any); [|intros ? _]
  | |- safe _ (Ret _) => exact I
  | |- safe _ Panic => exact I
  | |- safe _ NoFuel => exact I
  | |- safe any (unwrap _) => apply safe_unwrap; match goal with |- okopt _ ?o => destruct o; exact I end
  | |- safe any (unwrap_res _) => apply safe_unwrap_res; match goal with |- okres _ ?o => destruct o; exact I end
  | |- safe any (assert_ _) => eapply any_any, safe_assert
  | |- safe any (idx _ _) => eapply any_any, safe_idx
  | |- safe any (set_idx _ _ _) => apply safe_set_idx
  | |- safe any (slice _ _ _) => apply safe_slice
  | |- safe any (stage_new _) => eapply any_any, safe_stage
  | |- safe any (row_stage _) => eapply any_any, safe_row_stage
  | |- safe any (mapM _ _) => apply safe_mapM_any; intros
  | |- safe any (foldM _ _ _) => apply (safe_foldM any); [intros ? ? _ | exact I]
  | |- safe _ (if ?b then _ else _) => destruct b
  | |- safe _ (match ?x with _ => _ end) => destruct x
  end.
Ltac sgo := repeat (sstep || (solve [eauto with safe nocore])).

(** ** Rows *)

Lemma valid_length n r : vrow n r -> length r = n. Proof. intros H; apply H. Qed.

Lemma same_stage_cases (a b : row) : valid_row a -> valid_row b ->
  length a <> length b \/ (vrow (length b) a /\ vrow (length b) b).
Proof.
  intros Va Vb. destruct (Nat.eq_dec (length a) (length b)); [right|left; auto]. split; split; auto.
Qed.

Lemma safe_mul_result a b : valid_row a -> valid_row b -> safe (okres valid_row) (mul_result a b).
Proof.
  intros Va Vb. destruct (same_stage_cases a b Va Vb) as [N|[Ha Hb]].
  - rewrite mul_result_err by auto. exact I.
  - erewrite mul_result_ok by eauto. apply (valid_rmul _ _ _ Ha Hb).
Qed.

Lemma safe_row_mul a b : valid_row a -> valid_row b -> safe valid_row (row_mul a b).
Proof. intros Va Vb. unfold row_mul. eapply safe_bind; [apply safe_mul_result; auto|]. intros r Hr. apply safe_unwrap_res; auto. Qed.

Lemma safe_mul_into a b o : valid_row a -> valid_row b -> valid_row o -> safe (okfst valid_row) (mul_into a b o).
Proof.
  intros Va Vb Vo. destruct (same_stage_cases a b Va Vb) as [N|[Ha Hb]].
  - rewrite mul_into_err by auto. exact Vo.
  - erewrite mul_into_ok by eauto. apply (valid_rmul _ _ _ Ha Hb).
Qed.

Lemma safe_mul_into_row a b o : valid_row a -> valid_row b -> valid_row o ->
  safe (fun p => vrow (length o) (fst p)) (mul_into_row a b o).
Proof.
  intros Va Vb Vo. destruct (Nat.eq_dec (length a) (length b)) as [E|E].
  - destruct (Nat.eq_dec (length a) (length o)) as [E'|E'].
    + assert (Ha : vrow (length o) a) by (split; auto). assert (Hb : vrow (length o) b) by (split; auto; lia).
      rewrite (mul_into_row_ok (length o)) by auto. cbn. apply valid_rmul; auto.
    + unfold mul_into_row. rewrite !valid_row_stage by auto. cbn [bind]. unfold test_err.
      rewrite (proj2 (Nat.eqb_eq _ _) E). rewrite (proj2 (Nat.eqb_neq _ _) E'). cbn. split; auto.
  - unfold mul_into_row. rewrite !valid_row_stage by auto. cbn [bind]. unfold test_err.
    rewrite (proj2 (Nat.eqb_neq _ _) E). cbn. split; auto.
Qed.

Lemma safe_row_inv a : valid_row a -> safe (vrow (length a)) (row_inv a).
Proof. intros V. rewrite row_inv_ok by auto. cbn. apply valid_rinv, vrow_intro; auto. Qed.

Lemma safe_inv_into a o : valid_row a -> valid_row o -> safe (fun p => vrow (length o) (fst p)) (inv_into a o).
Proof.
  intros V Vo. destruct (Nat.eq_dec (length o) (length a)) as [E|E].
  - rewrite inv_into_ok by auto. cbn. rewrite E. apply valid_rinv, vrow_intro; auto.
  - rewrite inv_into_err; auto; [|apply Vo]. cbn. split; auto.
Qed.

Lemma safe_inv_into_buf a o : valid_row a -> valid_row o -> safe valid_row (inv_into_buf a o).
Proof.
  intros V Vo. rewrite inv_into_buf_ok; auto; [|apply Vo]. cbn. apply (valid_rinv (length a)), vrow_intro; auto.
Qed.

Lemma safe_solve_ax a b : valid_row a -> valid_row b -> safe (okres valid_row) (solve_ax_equals_b a b).
Proof.
  intros V Vb. unfold solve_ax_equals_b. eapply safe_bind; [apply safe_row_inv; auto|]. intros r [Hr _].
  apply safe_mul_result; auto.
Qed.

Lemma safe_solve_xa a b : valid_row a -> valid_row b ->
  safe (okres (fun t => vrow (length b) t /\ length a = length b)) (solve_xa_equals_b a b).
Proof.
  intros V Vb. destruct (Nat.eq_dec (length a) (length b)) as [E|E].
  - rewrite (solve_xa_ok (length b)); [|split; auto|split; auto]. cbn. split; auto.
    apply valid_rmul; [split; auto|]. apply valid_rinv; split; auto.
  - rewrite solve_xa_err by auto. exact I.
Qed.

Lemma safe_row_swap r a b : valid_row r -> safe (vrow (length r)) (row_swap r a b).
Proof.
  intros V. destruct (Nat.lt_ge_cases a (length r)) as [Ha|Ha]; [|rewrite row_swap_panic by auto; exact I].
  destruct (Nat.lt_ge_cases b (length r)) as [Hb|Hb]; [|rewrite row_swap_panic by auto; exact I].
  rewrite swap_list_ok by auto. cbn. apply swap_list_vrow; auto using vrow_intro.
Qed.

Lemma safe_parity_loop fuel : forall r i n, valid_row r ->
  safe (fun p => vrow (length r) (fst p)) (parity_loop fuel r i n).
Proof.
  induction fuel as [|fuel IH]; intros r i n V; cbn [parity_loop]; [exact I|].
  sstep; [sgo|]. destruct (i <? _); [|cbn; apply vrow_intro; auto].
  sstep; [sgo|]. destruct (_ =? i); [apply IH; auto|].
  eapply safe_bind; [apply safe_row_swap; auto|]. intros r' [V' L']. rewrite <- L'. apply IH; auto.
Qed.

Lemma safe_parity fuel r : valid_row r -> safe (fun p => vrow (length r) (fst p)) (row_parity fuel r).
Proof.
  intros V. unfold row_parity. eapply safe_bind; [apply safe_parity_loop; auto|]. intros [r' n] H. exact H.
Qed.

Lemma safe_permute_loop fuel s : forall places i r, valid_row r -> safe (vrow (length r)) (permute_loop fuel s places i r).
Proof.
  induction fuel as [|fuel IH]; intros places i r V; cbn [permute_loop]; [exact I|].
  destruct (i <? s); [|cbn; apply vrow_intro; auto].
  assert (Hswap : safe (vrow (length r)) (r' <- row_swap r i (i + 1);; permute_loop fuel s places (i + 2) r')).
  { eapply safe_bind; [apply safe_row_swap; auto|]. intros r' [V' L']. rewrite <- L'. apply IH; auto. }
  destruct places as [|p places']; auto. destruct (p =? i); auto.
Qed.

Lemma safe_permute_unchecked pn r : valid_row r -> safe (vrow (length r)) (permute_unchecked pn r).
Proof. apply safe_permute_loop. Qed.

Lemma safe_pn_permute pn r : valid_row r -> safe (fun p => vrow (length r) (fst p)) (pn_permute pn r).
Proof.
  intros V. unfold pn_permute. sstep; [sgo|]. destruct (test_err _ _); [|cbn; apply vrow_intro; auto].
  eapply safe_bind; [apply safe_permute_unchecked; auto|]. intros r' H; exact H.
Qed.

Lemma safe_pn_permute_new pn r : valid_row r -> safe (okres valid_row) (pn_permute_new pn r).
Proof.
  intros V. unfold pn_permute_new. sstep; [sgo|]. destruct (test_err _ _); [|exact I].
  eapply safe_bind; [apply safe_permute_unchecked; auto|]. intros r' H; apply H.
Qed.

Lemma safe_transposition pn : 0 < pn_stage pn -> safe valid_row (pn_transposition pn).
Proof.
  intros H. unfold pn_transposition. eapply safe_imp; [apply safe_permute_unchecked|intros a Ha; apply Ha].
  apply valid_rounds; auto.
Qed.

Lemma safe_extend_to_stage r s : valid_row r -> safe valid_row (extend_to_stage r s).
Proof.
  intros V. destruct (Nat.le_gt_cases (length r) s) as [L|L].
  - destruct (extend_to_stage_ok r s V L) as (E & H). rewrite E. cbn. apply H.
  - rewrite extend_to_stage_panic by auto. exact I.
Qed.

Lemma from_vec_safe l : okres valid_row (from_vec l).
Proof. destruct (from_vec l) as [r|] eqn:E; cbn; auto. apply from_vec_ok in E as [V ->]; auto. Qed.

Lemma safe_from_vec_with_stage l s : 0 < s -> safe (okres valid_row) (from_vec_with_stage l s).
Proof.
  intros Hs. destruct (fvws_cases l s) as [(e & E & _)|(_ & _ & [(b & E & _)|(Ia & L & E)])]; rewrite E; cbn; auto.
  apply initial_arrangement_extend; auto.
Qed.

(** ** Powers, accumulators, groups *)

Definition okacc (a : accumulator) : Prop := valid_row (acc_total a) /\ valid_row (acc_temp a).

Lemma safe_acc_new r : valid_row r -> safe okacc (acc_new r).
Proof.
  intros V. unfold acc_new. eapply safe_bind; [apply safe_row_stage|]. intros s [Hs _]. cbn. split; auto.
  apply valid_rounds; auto.
Qed.

Lemma safe_accumulate a r : okacc a -> valid_row r -> safe (okfst okacc) (acc_accumulate a r).
Proof.
  intros [Vt Vm] V. unfold acc_accumulate. eapply safe_bind; [apply safe_mul_into; auto|].
  intros [t res] H. destruct res; cbn; split; auto.
Qed.

Lemma safe_pre_accumulate a r : okacc a -> valid_row r -> safe (okfst okacc) (acc_pre_accumulate a r).
Proof.
  intros [Vt Vm] V. unfold acc_pre_accumulate. eapply safe_bind; [apply safe_mul_into; auto|].
  intros [t res] H. destruct res; cbn; split; auto.
Qed.

Lemma safe_acc_mul_assign a r : okacc a -> valid_row r -> safe okacc (acc_mul_assign a r).
Proof.
  intros Ha V. unfold acc_mul_assign. eapply safe_bind; [apply safe_accumulate; auto|].
  intros [t res] H. destruct res; cbn; auto.
Qed.

Lemma safe_pow_u r n : valid_row r -> safe valid_row (pow_u r n).
Proof. intros V. rewrite (pow_u_ok (length r)) by (apply vrow_intro; auto). cbn. apply (vrow_rpow (length r)), vrow_intro; auto. Qed.

Lemma safe_pow_i r e : valid_row r -> safe valid_row (pow_i r e).
Proof.
  intros V. unfold pow_i. destruct (e <? 0)%Z; [|apply safe_pow_u; auto].
  eapply safe_bind; [apply safe_row_inv; auto|]. intros a [Va _]. apply safe_pow_u; auto.
Qed.

Lemma safe_mul_unchecked n a b : vrow n a -> vrow n b -> safe (vrow n) (mul_unchecked a b).
Proof. intros Ha Hb. erewrite mul_unchecked_vrow by eauto. cbn. apply valid_rmul; auto. Qed.

Lemma safe_closure_loop fuel n r : vrow n r -> forall l, vrow n l -> safe (Forall (vrow n)) (closure_loop fuel r l).
Proof.
  intros Vr. induction fuel as [|fuel IH]; intros l Vl; cbn [closure_loop]; [exact I|].
  destruct (is_rounds l); [cbn; auto|]. eapply safe_bind; [apply safe_mul_unchecked; eauto|]. intros x Vx.
  eapply safe_bind; [apply IH; auto|]. intros xs Vxs. cbn; auto.
Qed.

Lemma Forall_valid n rs : Forall (vrow n) rs -> Forall valid_row rs.
Proof. apply Forall_impl. intros r H; apply H. Qed.

Lemma safe_closure fuel r : valid_row r -> safe (Forall valid_row) (closure fuel r).
Proof.
  intros V. eapply safe_imp; [|apply (Forall_valid (length r))]. apply safe_closure_loop; apply vrow_intro; auto.
Qed.

Lemma safe_closure_from_rounds_loop fuel n r : vrow n r -> forall l, vrow n l ->
  safe (Forall (vrow n)) (closure_from_rounds_loop fuel r l).
Proof.
  intros Vr. induction fuel as [|fuel IH]; intros l Vl; cbn [closure_from_rounds_loop]; [exact I|].
  eapply safe_bind; [apply safe_mul_unchecked; eauto|]. intros x Vx.
  destruct (is_rounds x); [cbn; auto|].
  eapply safe_bind; [apply IH; auto|]. intros xs Vxs. cbn; auto.
Qed.

Lemma safe_closure_from_rounds fuel r : valid_row r -> safe (Forall valid_row) (closure_from_rounds fuel r).
Proof.
  intros V. unfold closure_from_rounds. eapply safe_bind; [apply safe_row_stage|]. intros s [Hs ->].
  eapply safe_imp; [|apply (Forall_valid (length r))].
  apply safe_closure_from_rounds_loop; [apply vrow_intro; auto|apply valid_rounds; auto].
Qed.

Definition ok_stage_rows (p : option stage * list row) : Prop :=
  match fst p with None => snd p = [] | Some n => Forall (vrow n) (snd p) end.

Lemma test_err_opt_cases st s :
  (exists e st', test_err_opt st s = (st', Err e)) \/
  (test_err_opt st s = (Some s, Ok tt) /\ (st = None \/ st = Some s)).
Proof.
  destruct st as [n|]; cbn; auto. unfold test_err. destruct (Nat.eqb_spec n s); eauto. subst; auto.
Qed.

Lemma safe_mcp_first set : Forall valid_row set -> forall st,
  safe (okres (fun p => match st with
                        | None => ok_stage_rows p
                        | Some n => fst p = Some n /\ Forall (vrow n) (snd p)
                        end)) (mcp_first st set).
Proof.
  induction 1 as [|r t V F IH]; intros st; cbn [mcp_first].
  - destruct st; cbn; auto; reflexivity.
  - eapply safe_bind; [apply safe_row_stage|]. intros s [Hs ->].
    destruct (test_err_opt_cases st (length r)) as [(e & st' & E)|[E Hst]]; rewrite E; [exact I|].
    eapply safe_bind; [apply IH|]. intros [[st'' rs]|e] H; [|exact I]. cbn in H. destruct H as [-> H].
    assert (Forall (vrow (length r)) (r :: rs)) by (constructor; auto; apply vrow_intro; auto).
    destruct Hst as [->| ->]; cbn; auto.
Qed.

Lemma safe_mcp_step n from set : Forall (vrow n) from -> Forall valid_row set ->
  safe (okres (Forall (vrow n))) (mcp_step n from set).
Proof.
  intros Ff. induction 1 as [|r t V F IH]; cbn [mcp_step]; [cbn; auto|].
  eapply safe_bind; [apply safe_row_stage|]. intros s [Hs ->]. unfold test_err.
  destruct (Nat.eqb_spec n (length r)) as [E|E]; [|exact I].
  eapply safe_bind; [eapply (safe_mapM _ (vrow n)); [|eauto]; intros x Hx; apply safe_mul_unchecked; [exact Hx|split; auto]|].
  intros here Hh. eapply safe_bind; [apply IH|]. intros [rs|e] H; [|exact I]. cbn in *. apply Forall_app; auto.
Qed.

Lemma safe_mcp_loop sets : Forall (Forall valid_row) sets -> forall n from, Forall (vrow n) from ->
  safe (okres (Forall valid_row)) (mcp_loop (Some n) from sets).
Proof.
  induction 1 as [|set t V F IH]; intros n from Ff; cbn [mcp_loop]; [cbn; eauto using Forall_valid|].
  destruct from as [|r from]; [cbn; auto|]. cbn [unwrap bind].
  eapply safe_bind; [apply safe_mcp_step; eauto|]. intros [to|e] H; [|exact I]. apply IH; auto.
Qed.

Lemma safe_mcp sets : Forall (Forall valid_row) sets -> safe (okres (Forall valid_row)) (multi_cartesian_product sets).
Proof.
  intros F. unfold multi_cartesian_product. destruct F as [|set t V F]; [cbn; auto|].
  eapply safe_bind; [apply (safe_mcp_first _ V None)|]. intros [[[n|] from]|e] H; cbn in H; [| |exact I].
  - apply safe_mcp_loop; auto.
  - unfold ok_stage_rows in H. cbn in H. subst from. rewrite mcp_loop_nil. cbn. auto.
Qed.

Lemma safe_lgc_seed rows : Forall valid_row rows -> forall st set frontier,
  match st with None => set = [] /\ frontier = [] | Some n => Forall (vrow n) set /\ Forall (vrow n) frontier end ->
  safe (okres (fun p => (rows = [] /\ p = (set, frontier)) \/
     exists n, (st = None \/ st = Some n) /\ Forall (vrow n) rows /\ Forall (vrow n) (fst p) /\ Forall (vrow n) (snd p)))
    (lgc_seed st set frontier rows).
Proof.
  induction 1 as [|r t V F IH]; intros st set frontier H; cbn [lgc_seed]; [cbn; auto|].
  eapply safe_bind; [apply safe_row_stage|]. intros s [Hs ->].
  destruct (test_err_opt_cases st (length r)) as [(e & st' & E)|[E Hst]]; rewrite E; [exact I|].
  assert (Hr : vrow (length r) r) by (apply vrow_intro; auto).
  assert (H' : Forall (vrow (length r)) set /\ Forall (vrow (length r)) frontier).
  { destruct Hst as [->| ->]; [destruct H as [-> ->]; auto|auto]. }
  destruct H' as [Fs Ff].
  assert (G : forall set' frontier', Forall (vrow (length r)) set' -> Forall (vrow (length r)) frontier' ->
    safe (okres (fun p => (r :: t = [] /\ p = (set, frontier)) \/
     exists n, (st = None \/ st = Some n) /\ Forall (vrow n) (r :: t) /\ Forall (vrow n) (fst p) /\ Forall (vrow n) (snd p)))
    (lgc_seed (Some (length r)) set' frontier' t)).
  { intros set' frontier' F1 F2. eapply safe_imp; [apply (IH (Some (length r))); auto|].
    intros [[a b]|e] Hp; cbn in *; auto. right. exists (length r). destruct Hp as [[-> Ep]|(n & [Hn|Hn] & Ht & Ha & Hb)].
    - injection Ep as -> ->. auto.
    - discriminate.
    - injection Hn as <-. auto. }
  destruct (row_mem r set); apply G; auto; apply Forall_app; auto.
Qed.

Lemma safe_lgc_expand n r rows : vrow n r -> Forall (vrow n) rows -> forall set frontier,
  Forall (vrow n) set -> Forall (vrow n) frontier ->
  safe (fun p => Forall (vrow n) (fst p) /\ Forall (vrow n) (snd p)) (lgc_expand r set frontier rows).
Proof.
  intros Vr. induction 1 as [|x t V F IH]; intros set frontier Fs Ff; cbn [lgc_expand]; [cbn; auto|].
  eapply safe_bind; [apply safe_mul_unchecked; eauto|]. intros y Vy.
  destruct (row_mem y set); apply IH; auto; apply Forall_app; auto.
Qed.

Lemma safe_lgc_loop n rows fuel : Forall (vrow n) rows -> forall set frontier,
  Forall (vrow n) set -> Forall (vrow n) frontier -> safe (Forall (vrow n)) (lgc_loop fuel rows set frontier).
Proof.
  intros Fr. induction fuel as [|fuel IH]; intros set frontier Fs Ff; cbn [lgc_loop]; [exact I|].
  destruct Ff as [|r frontier Vr Ff]; [cbn; auto|].
  eapply safe_bind; [apply (safe_lgc_expand n); auto|]. intros [a b] [Ha Hb]. apply IH; auto.
Qed.

Lemma safe_least_group fuel rows : Forall valid_row rows -> safe (okres (Forall valid_row)) (least_group_containing fuel rows).
Proof.
  intros F. unfold least_group_containing. eapply safe_bind; [apply (safe_lgc_seed rows F None); auto|].
  intros [[set frontier]|e] H; [|exact I].
  destruct H as [[-> E]|(n & _ & Fr & Fs & Ff)].
  - injection E as -> ->. destruct fuel; cbn; auto.
  - cbn [fst snd] in *. eapply safe_bind; [apply (safe_lgc_loop n); auto|]. intros a Ha. cbn. eauto using Forall_valid.
Qed.

Lemma safe_is_group_stages set : forall first, safe any (is_group_stages first set).
Proof. induction set as [|r t IH]; intros first; cbn [is_group_stages]; [exact I|]. sgo. Qed.

Lemma safe_is_group_inner set b_inv todo : forall buf, safe any (is_group_inner set b_inv buf todo).
Proof. induction todo as [|a t IH]; intros buf; cbn [is_group_inner]; [exact I|]. unfold mul_into_unchecked. sgo. Qed.

Lemma safe_inv_loop r out : safe any (inv_loop r out).
Proof. unfold inv_loop. apply (safe_foldM any); [|exact I]. intros s [i b] _. sgo. Qed.

Lemma safe_is_group_outer set todo : forall b_inv buf, safe any (is_group_outer set b_inv buf todo).
Proof.
  induction todo as [|b t IH]; intros b_inv buf; cbn [is_group_outer]; [exact I|].
  sstep. { unfold inv_into_buf. sgo. apply safe_inv_loop. }
  sstep; [apply safe_is_group_inner|]. sgo.
Qed.

Lemma safe_is_group set : safe any (is_group_set set).
Proof.
  unfold is_group_set. destruct set as [|r t]; [exact I|]. sstep; [apply safe_is_group_stages|].
  sstep; [|exact I]. sstep; [apply safe_is_group_outer|]. exact I.
Qed.
