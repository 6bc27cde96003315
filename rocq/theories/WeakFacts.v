(** Whatever a program does, and in every build, its rows hold no bell beyond their stage. *)
From Verif Require Import Base Bell Stage Parity Row Utils SameStageVec Block PlaceNot Mask Class Method Program Machine
  Release Spec SpecVec SpecProg SpecRelease ListFacts BellFacts RowFacts MulFacts GroupFacts ParityFacts SsvFacts BlockFacts
  SafeFacts SafeFacts2.
Local Open Scope list_scope.

(** ** Rows *)

Definition lts (n : nat) (l : list nat) : Prop := Forall (fun b => b < n) l.
Definition wr (n : nat) (r : row) : Prop := length r = n /\ lts n r.
Definition wrow (r : row) : Prop := lts (length r) r.

Lemma wr_wrow n r : wr n r -> wrow r. Proof. intros [<- H]; exact H. Qed.
Lemma wrow_wr r : wrow r -> wr (length r) r. Proof. split; auto. Qed.
Lemma wrow_within r : wrow r <-> within_stage r.
Proof. unfold wrow, lts, within_stage. rewrite Forall_forall. tauto. Qed.

Lemma valid_wrow r : valid_row r -> wrow r.
Proof. intros (_ & _ & H). apply Forall_forall. intros b Hb. apply H; auto. Qed.
Lemma vrow_wr n r : vrow n r -> wr n r.
Proof. intros [V <-]. apply wrow_wr, valid_wrow; auto. Qed.

Lemma lts_nth n l i x : lts n l -> nth_error l i = Some x -> x < n.
Proof. intros F E. unfold lts in F. rewrite Forall_forall in F. apply F. eapply nth_error_In; eauto. Qed.
Lemma lts_app n l m : lts n (l ++ m) <-> lts n l /\ lts n m.
Proof. apply Forall_app. Qed.
Lemma lts_firstn n k l : lts n l -> lts n (firstn k l).
Proof. intros F. rewrite <- (firstn_skipn k l) in F. apply lts_app in F. tauto. Qed.
Lemma lts_skipn n k l : lts n l -> lts n (skipn k l).
Proof. intros F. rewrite <- (firstn_skipn k l) in F. apply lts_app in F. tauto. Qed.
Lemma lts_upd n l i x : lts n l -> x < n -> lts n (upd l i x).
Proof. intros F H. apply Forall_upd; auto. Qed.
Lemma lts_seq n a k : a + k <= n -> lts n (seq a k).
Proof. intros H. apply Forall_forall. intros x Hx. apply in_seq in Hx. lia. Qed.
Lemma lts_weaken n m l : n <= m -> lts n l -> lts m l.
Proof. intros H. apply Forall_impl. intros a Ha. lia. Qed.
Lemma lts_repeat n x k : x < n -> lts n (repeat x k).
Proof. intros H. apply Forall_forall. intros y Hy. apply repeat_spec in Hy. lia. Qed.

Lemma w_mapM_idx n a b : lts n a -> safe (fun r => lts n r /\ length r = length b) (mapM (fun x => idx a x) b).
Proof.
  intros F. induction b as [|x b IH]; cbn [mapM]; [cbn; split; [constructor|auto]|].
  eapply safe_bind; [apply safe_idx|]. intros y Hy. eapply safe_bind; [apply IH|]. intros r [Fr Lr]. cbn.
  split; [|lia]. constructor; auto. exact (lts_nth _ _ _ _ F Hy).
Qed.

Lemma w_mul_unchecked n a b : lts n a -> length b = n -> safe (wr n) (mul_unchecked a b).
Proof. intros F L. eapply safe_imp; [apply w_mapM_idx; eauto|]. intros r [Fr Lr]. split; auto. lia. Qed.

Lemma test_err_ok a b u : test_err a b = Ok u -> a = b.
Proof. unfold test_err. destruct (Nat.eqb_spec a b); auto. discriminate. Qed.

Lemma w_mul_result a b : wrow a -> safe (okres (wr (length b))) (mul_result a b).
Proof.
  intros Wa. unfold mul_result. eapply safe_bind; [apply safe_row_stage|]. intros sa [_ ->].
  eapply safe_bind; [apply safe_row_stage|]. intros sb [_ ->]. destruct (test_err _ _) eqn:E; [|exact I].
  apply test_err_ok in E. eapply safe_bind; [apply (w_mul_unchecked (length b)); auto; rewrite <- E; exact Wa|].
  intros r Hr. exact Hr.
Qed.

Lemma w_row_mul a b : wrow a -> safe (wr (length b)) (row_mul a b).
Proof. intros Wa. unfold row_mul. eapply safe_bind; [apply w_mul_result; auto|]. intros r Hr. apply safe_unwrap_res; auto. Qed.

Lemma w_mul_into a b o : wrow a -> wrow o -> safe (okfst wrow) (mul_into a b o).
Proof.
  intros Wa Wo. unfold mul_into. eapply safe_bind; [apply safe_row_stage|]. intros sa [_ ->].
  eapply safe_bind; [apply safe_row_stage|]. intros sb [_ ->]. destruct (test_err _ _) eqn:E; [|exact Wo].
  apply test_err_ok in E. unfold mul_into_unchecked. rewrite bind_assoc.
  eapply safe_bind; [apply (w_mapM_idx (length a)); exact Wa|]. intros r [Fr Lr]. cbn. unfold okfst, wrow; cbn.
  rewrite Lr, <- E. exact Fr.
Qed.

Lemma w_mul_into_row_loop n a : lts n a -> forall out b,
  safe (fun r => lts n r /\ length r = length out) (mul_into_row_loop a out b).
Proof.
  intros F. induction out as [|o out IH]; intros [|y b]; cbn [mul_into_row_loop]; try exact I; [cbn; split; [constructor|auto]|].
  eapply safe_bind; [apply safe_idx|]. intros x Hx. eapply safe_bind; [apply IH|]. intros r [Fr Lr]. cbn. split; [|lia].
  constructor; auto. exact (lts_nth _ _ _ _ F Hx).
Qed.

Lemma w_mul_into_row a b o : wrow a -> wrow o -> safe (fun p => wr (length o) (fst p)) (mul_into_row a b o).
Proof.
  intros Wa Wo. unfold mul_into_row. eapply safe_bind; [apply safe_row_stage|]. intros sa [_ ->].
  eapply safe_bind; [apply safe_row_stage|]. intros sb [_ ->]. destruct (test_err (length a) (length b)) eqn:E; [|apply wrow_wr, Wo].
  eapply safe_bind; [apply safe_row_stage|]. intros so [_ ->]. destruct (test_err (length a) (length o)) eqn:E'; [|apply wrow_wr, Wo].
  apply test_err_ok in E'. eapply safe_bind; [apply (w_mul_into_row_loop (length a)); exact Wa|]. intros r [Fr Lr].
  cbn. split; auto. rewrite <- E'. exact Fr.
Qed.

Lemma enumerate_lt {A} (l : list A) : Forall (fun p => fst p < length l) (enumerate l).
Proof.
  apply Forall_forall. intros [i x] H. apply In_enumerate in H. apply nth_error_Some. cbn. congruence.
Qed.

Lemma safe_foldM_in {A S0} (P : S0 -> Prop) (Q : A -> Prop) (f : S0 -> A -> exec S0) l :
  (forall s a, P s -> Q a -> safe P (f s a)) -> Forall Q l -> forall s, P s -> safe P (foldM f l s).
Proof. intros Hf. induction 1; intros s Hs; cbn [foldM]; auto. eapply safe_bind; eauto. Qed.

Lemma w_set_idx n l i x : wr n l -> x < n -> safe (wr n) (set_idx l i x).
Proof.
  intros [L F] H. unfold set_idx. destruct (i <? length l); [|exact I]. split; [rewrite length_upd; auto|apply lts_upd; auto].
Qed.

Lemma w_inv_loop r out : wr (length r) out -> safe (wr (length r)) (inv_loop r out).
Proof.
  intros W. unfold inv_loop. eapply (safe_foldM_in (wr (length r))); [|apply enumerate_lt|exact W].
  intros o [i b] Wo Hi. apply w_set_idx; auto.
Qed.

Lemma w_row_inv a : safe (wr (length a)) (row_inv a).
Proof.
  unfold row_inv. eapply safe_bind; [apply safe_row_stage|]. intros s [Hs ->]. apply w_inv_loop. split.
  - apply repeat_length.
  - apply lts_repeat. exact Hs.
Qed.

Lemma w_inv_into a o : wrow o -> safe (fun p => wr (length o) (fst p)) (inv_into a o).
Proof.
  intros Wo. unfold inv_into. eapply safe_bind; [apply safe_row_stage|]. intros s [_ ->].
  eapply safe_bind; [apply safe_row_stage|]. intros so [_ ->]. destruct (test_err _ _) eqn:E; [|apply wrow_wr, Wo].
  apply test_err_ok in E. eapply safe_bind; [apply w_inv_loop; rewrite E; apply wrow_wr, Wo|]. intros r Hr. cbn. rewrite <- E. exact Hr.
Qed.

Lemma w_inv_into_buf a o : wrow a -> wrow o -> length o <= length a \/ valid_row a -> safe wrow (inv_into_buf a o).
Proof.
  intros Wa Wo [L|V].
  - unfold inv_into_buf. eapply safe_bind; [apply safe_row_stage|]. intros so [Hso ->].
    eapply safe_bind; [apply safe_row_stage|]. intros s [Hs ->].
    eapply safe_bind with (P := wr (length a)).
    + destruct (Nat.compare_spec (length o) (length a)) as [E|E|E]; [|cbn|lia].
      * cbn. rewrite <- E. apply wrow_wr, Wo.
      * split; [rewrite app_length, repeat_length; lia|]. apply lts_app. split; [eapply lts_weaken; [|exact Wo]; lia|].
        apply lts_repeat. exact Hs.
    + intros o1 W1. sstep; [sgo|]. sstep; [sgo|]. eapply safe_imp; [apply w_inv_loop; exact W1|]. intros r Hr. eapply wr_wrow; eauto.
  - destruct o as [|x o].
    + unfold inv_into_buf. cbn. exact I.
    + rewrite inv_into_buf_ok; auto; [|discriminate]. cbn. apply valid_wrow, (valid_rinv (length a)), vrow_intro; auto.
Qed.

Lemma w_solve_ax a b : safe (okres wrow) (solve_ax_equals_b a b).
Proof.
  unfold solve_ax_equals_b. eapply safe_bind; [apply w_row_inv|]. intros r Hr.
  eapply safe_imp; [apply w_mul_result; eapply wr_wrow; eauto|]. intros [x|e] Hx; cbn in *; auto. eapply wr_wrow; eauto.
Qed.

Lemma w_solve_xa a b : wrow b -> safe (okres (wr (length a))) (solve_xa_equals_b a b).
Proof.
  intros Wb. unfold solve_xa_equals_b. eapply safe_bind; [apply w_row_inv|]. intros r [Lr _]. rewrite <- Lr.
  apply w_mul_result; auto.
Qed.

Lemma w_row_swap r a b : wrow r -> safe (wr (length r)) (row_swap r a b).
Proof.
  intros W. unfold row_swap. eapply safe_bind; [apply safe_idx|]. intros x Hx. eapply safe_bind; [apply safe_idx|]. intros y Hy.
  cbn. split; [rewrite !length_upd; auto|]. apply lts_upd; [apply lts_upd; auto|]; [exact (lts_nth _ _ _ _ W Hy)|exact (lts_nth _ _ _ _ W Hx)].
Qed.

Lemma w_parity_loop fuel : forall r i n, wrow r -> safe (fun p => wr (length r) (fst p)) (parity_loop fuel r i n).
Proof.
  induction fuel as [|fuel IH]; intros r i n W; cbn [parity_loop]; [exact I|].
  sstep; [sgo|]. destruct (i <? _); [|cbn; apply wrow_wr; auto].
  sstep; [sgo|]. destruct (_ =? i); [apply IH; auto|].
  eapply safe_bind; [apply w_row_swap; auto|]. intros r' W'. rewrite <- (proj1 W'). apply IH. eapply wr_wrow; eauto.
Qed.

Lemma w_parity fuel r : wrow r -> safe (fun p => wr (length r) (fst p)) (row_parity fuel r).
Proof. intros W. unfold row_parity. eapply safe_bind; [apply w_parity_loop; auto|]. intros [r' n] H. exact H. Qed.

Lemma w_permute_loop fuel s : forall places i r, wrow r -> safe (wr (length r)) (permute_loop fuel s places i r).
Proof.
  induction fuel as [|fuel IH]; intros places i r W; cbn [permute_loop]; [exact I|].
  destruct (i <? s); [|cbn; apply wrow_wr; auto].
  assert (Hswap : safe (wr (length r)) (r' <- row_swap r i (i + 1);; permute_loop fuel s places (i + 2) r')).
  { eapply safe_bind; [apply w_row_swap; auto|]. intros r' W'. rewrite <- (proj1 W'). apply IH. eapply wr_wrow; eauto. }
  destruct places as [|p places']; auto. destruct (p =? i); auto.
Qed.

Lemma w_permute_unchecked pn r : wrow r -> safe (wr (length r)) (permute_unchecked pn r).
Proof. apply w_permute_loop. Qed.

Lemma w_pn_permute pn r : wrow r -> safe (fun p => wr (length r) (fst p)) (pn_permute pn r).
Proof.
  intros W. unfold pn_permute. sstep; [sgo|]. destruct (test_err _ _); [|cbn; apply wrow_wr; auto].
  eapply safe_bind; [apply w_permute_unchecked; auto|]. intros r' H; exact H.
Qed.

Lemma w_pn_permute_new pn r : wrow r -> safe (okres wrow) (pn_permute_new pn r).
Proof.
  intros W. unfold pn_permute_new. sstep; [sgo|]. destruct (test_err _ _); [|exact I].
  eapply safe_bind; [apply w_permute_unchecked; auto|]. intros r' H; eapply wr_wrow; eauto.
Qed.

Lemma wrow_rounds s : wrow (row_rounds s).
Proof. destruct s; [constructor|]. apply valid_wrow. apply (valid_rounds (S s)). lia. Qed.

Lemma w_transposition pn : safe wrow (pn_transposition pn).
Proof.
  unfold pn_transposition. eapply safe_imp; [apply w_permute_unchecked, wrow_rounds|]. intros a Ha. eapply wr_wrow; eauto.
Qed.

Lemma w_extend_to_stage r s : wrow r -> safe wrow (extend_to_stage r s).
Proof.
  intros W. unfold extend_to_stage. sstep; [sgo|]. eapply safe_bind; [apply safe_assert|]. intros u Hu.
  cbn. unfold wrow. rewrite app_length. unfold range. rewrite seq_length. apply lts_app. split.
  - eapply lts_weaken; [|exact W]. lia.
  - apply lts_seq. lia.
Qed.

Lemma okres_weak {E} (x : result row E) : okres valid_row x -> okres wrow x.
Proof. destruct x; cbn; auto using valid_wrow. Qed.

(** ** Powers, accumulators, groups *)

Definition wacc (a : accumulator) : Prop := wrow (acc_total a) /\ wrow (acc_temp a).

Lemma w_acc_new r : wrow r -> safe wacc (acc_new r).
Proof. intros W. unfold acc_new. sstep; [sgo|]. cbn. split; auto. apply wrow_rounds. Qed.

Lemma w_accumulate a r : wacc a -> safe (okfst wacc) (acc_accumulate a r).
Proof.
  intros [Vt Vm]. unfold acc_accumulate. eapply safe_bind; [apply w_mul_into; auto|].
  intros [t res] H. destruct res; cbn; split; auto.
Qed.

Lemma w_pre_accumulate a r : wacc a -> wrow r -> safe (okfst wacc) (acc_pre_accumulate a r).
Proof.
  intros [Vt Vm] W. unfold acc_pre_accumulate. eapply safe_bind; [apply w_mul_into; auto|].
  intros [t res] H. destruct res; cbn; split; auto.
Qed.

Lemma w_acc_mul_assign a r : wacc a -> safe wacc (acc_mul_assign a r).
Proof.
  intros Ha. unfold acc_mul_assign. eapply safe_bind; [apply w_accumulate; auto|].
  intros [t res] H. destruct res; cbn; auto.
Qed.

Lemma w_pow_loop r n : forall a, wacc a -> safe wacc (pow_loop a r n).
Proof.
  induction n as [|n IH]; intros a Ha; cbn [pow_loop]; [exact Ha|].
  eapply safe_bind; [apply w_accumulate; auto|]. intros [a' res] H. sstep; [sgo|]. apply IH; auto.
Qed.

Lemma w_pow_u r n : safe wrow (pow_u r n).
Proof.
  unfold pow_u. sstep; [sgo|]. eapply safe_bind; [apply w_acc_new, wrow_rounds|]. intros x Hx.
  eapply safe_bind; [apply w_pow_loop; exact Hx|]. intros y Hy. apply Hy.
Qed.

Lemma w_m_pow_i bd r e : safe wrow (m_pow_i bd r e).
Proof.
  unfold m_pow_i. destruct (e <? 0)%Z; [|apply w_pow_u]. eapply safe_bind; [apply w_row_inv|]. intros a _.
  sstep; [unfold iword; sgo|]. apply w_pow_u.
Qed.

Lemma w_closure_loop fuel n r : length r = n -> forall l, wr n l -> safe (Forall (wr n)) (closure_loop fuel r l).
Proof.
  intros Lr. induction fuel as [|fuel IH]; intros l Wl; cbn [closure_loop]; [exact I|].
  destruct (is_rounds l); [cbn; auto|]. eapply safe_bind; [apply (w_mul_unchecked n); [apply Wl|auto]|]. intros x Wx.
  eapply safe_bind; [apply IH; auto|]. intros xs Wxs. cbn; auto.
Qed.

Lemma Forall_wrow n rs : Forall (wr n) rs -> Forall wrow rs.
Proof. apply Forall_impl. intros r H; eapply wr_wrow; eauto. Qed.

Lemma w_closure fuel r : wrow r -> safe (Forall wrow) (closure fuel r).
Proof.
  intros W. eapply safe_imp; [|apply (Forall_wrow (length r))]. apply w_closure_loop; auto. apply wrow_wr; auto.
Qed.

Lemma w_closure_from_rounds_loop fuel n r : length r = n -> forall l, wr n l ->
  safe (Forall (wr n)) (closure_from_rounds_loop fuel r l).
Proof.
  intros Lr. induction fuel as [|fuel IH]; intros l Wl; cbn [closure_from_rounds_loop]; [exact I|].
  eapply safe_bind; [apply (w_mul_unchecked n); [apply Wl|auto]|]. intros x Wx.
  destruct (is_rounds x); [cbn; auto|].
  eapply safe_bind; [apply IH; auto|]. intros xs Wxs. cbn; auto.
Qed.

Lemma rounds_wr n : 0 < n -> wr n (row_rounds n).
Proof. intros H. apply vrow_wr, valid_rounds; auto. Qed.

Lemma w_closure_from_rounds fuel r : safe (Forall wrow) (closure_from_rounds fuel r).
Proof.
  unfold closure_from_rounds. eapply safe_bind; [apply safe_row_stage|]. intros s [Hs ->].
  eapply safe_imp; [|apply (Forall_wrow (length r))]. apply w_closure_from_rounds_loop; auto. apply rounds_wr; auto.
Qed.

Lemma w_mcp_first set : Forall wrow set -> forall st,
  safe (okres (fun p => match st with
                        | None => match fst p with None => snd p = [] | Some n => Forall (wr n) (snd p) end
                        | Some n => fst p = Some n /\ Forall (wr n) (snd p)
                        end)) (mcp_first st set).
Proof.
  induction 1 as [|r t V F IH]; intros st; cbn [mcp_first].
  - destruct st; cbn; auto; reflexivity.
  - eapply safe_bind; [apply safe_row_stage|]. intros s [Hs ->].
    destruct (test_err_opt_cases st (length r)) as [(e & st' & E)|[E Hst]]; rewrite E; [exact I|].
    eapply safe_bind; [apply IH|]. intros [[st'' rs]|e] H; [|exact I]. cbn in H. destruct H as [-> H].
    assert (Forall (wr (length r)) (r :: rs)) by (constructor; auto; apply wrow_wr; auto).
    destruct Hst as [->| ->]; cbn; auto.
Qed.

Lemma w_mcp_step n from set : Forall (wr n) from -> safe (okres (Forall (wr n))) (mcp_step n from set).
Proof.
  intros Ff. induction set as [|r t IH]; cbn [mcp_step]; [cbn; auto|].
  eapply safe_bind; [apply safe_row_stage|]. intros s [Hs ->]. destruct (test_err _ _) eqn:E; [|exact I]. apply test_err_ok in E.
  eapply safe_bind; [eapply (safe_mapM _ (wr n)); [|eauto]; intros x Hx; apply w_mul_unchecked; [apply Hx|auto]|].
  intros here Hh. eapply safe_bind; [apply IH|]. intros [rs|e] H; [|exact I]. cbn in *. apply Forall_app; auto.
Qed.

Lemma w_mcp_loop sets : forall n from, Forall (wr n) from -> safe (okres (Forall wrow)) (mcp_loop (Some n) from sets).
Proof.
  induction sets as [|set t IH]; intros n from Ff; cbn [mcp_loop]; [cbn; eauto using Forall_wrow|].
  destruct from as [|r from]; [cbn; auto|]. cbn [unwrap bind].
  eapply safe_bind; [apply w_mcp_step; eauto|]. intros [to|e] H; [|exact I]. apply IH; auto.
Qed.

Lemma w_mcp sets : Forall (Forall wrow) sets -> safe (okres (Forall wrow)) (multi_cartesian_product sets).
Proof.
  intros F. unfold multi_cartesian_product. destruct F as [|set t V F]; [cbn; auto|].
  eapply safe_bind; [apply (w_mcp_first _ V None)|]. intros [[[n|] from]|e] H; cbn in H; [| |exact I].
  - apply w_mcp_loop; auto.
  - subst from. rewrite mcp_loop_nil. cbn. auto.
Qed.

Lemma w_lgc_seed rows : Forall wrow rows -> forall st set frontier,
  match st with None => set = [] /\ frontier = [] | Some n => Forall (wr n) set /\ Forall (wr n) frontier end ->
  safe (okres (fun p => (rows = [] /\ p = (set, frontier)) \/
     exists n, (st = None \/ st = Some n) /\ Forall (wr n) rows /\ Forall (wr n) (fst p) /\ Forall (wr n) (snd p)))
    (lgc_seed st set frontier rows).
Proof.
  induction 1 as [|r t V F IH]; intros st set frontier H; cbn [lgc_seed]; [cbn; auto|].
  eapply safe_bind; [apply safe_row_stage|]. intros s [Hs ->].
  destruct (test_err_opt_cases st (length r)) as [(e & st' & E)|[E Hst]]; rewrite E; [exact I|].
  assert (Hr : wr (length r) r) by (apply wrow_wr; auto).
  assert (H' : Forall (wr (length r)) set /\ Forall (wr (length r)) frontier).
  { destruct Hst as [->| ->]; [destruct H as [-> ->]; auto|auto]. }
  destruct H' as [Fs Ff].
  assert (G : forall set' frontier', Forall (wr (length r)) set' -> Forall (wr (length r)) frontier' ->
    safe (okres (fun p => (r :: t = [] /\ p = (set, frontier)) \/
     exists n, (st = None \/ st = Some n) /\ Forall (wr n) (r :: t) /\ Forall (wr n) (fst p) /\ Forall (wr n) (snd p)))
    (lgc_seed (Some (length r)) set' frontier' t)).
  { intros set' frontier' F1 F2. eapply safe_imp; [apply (IH (Some (length r))); auto|].
    intros [[a b]|e] Hp; cbn in *; auto. right. exists (length r). destruct Hp as [[-> Ep]|(n & [Hn|Hn] & Ht & Ha & Hb)].
    - injection Ep as -> ->. auto.
    - discriminate.
    - injection Hn as <-. auto. }
  destruct (row_mem r set); apply G; auto; apply Forall_app; auto.
Qed.

Lemma w_lgc_expand n r rows : wr n r -> Forall (wr n) rows -> forall set frontier,
  Forall (wr n) set -> Forall (wr n) frontier ->
  safe (fun p => Forall (wr n) (fst p) /\ Forall (wr n) (snd p)) (lgc_expand r set frontier rows).
Proof.
  intros Vr. induction 1 as [|x t V F IH]; intros set frontier Fs Ff; cbn [lgc_expand]; [cbn; auto|].
  eapply safe_bind; [apply (w_mul_unchecked n); [apply Vr|apply V]|]. intros y Vy.
  destruct (row_mem y set); apply IH; auto; apply Forall_app; auto.
Qed.

Lemma w_lgc_loop n rows fuel : Forall (wr n) rows -> forall set frontier,
  Forall (wr n) set -> Forall (wr n) frontier -> safe (Forall (wr n)) (lgc_loop fuel rows set frontier).
Proof.
  intros Fr. induction fuel as [|fuel IH]; intros set frontier Fs Ff; cbn [lgc_loop]; [exact I|].
  destruct Ff as [|r frontier Vr Ff]; [cbn; auto|].
  eapply safe_bind; [apply (w_lgc_expand n); auto|]. intros [a b] [Ha Hb]. apply IH; auto.
Qed.

Lemma w_least_group fuel rows : Forall wrow rows -> safe (okres (Forall wrow)) (least_group_containing fuel rows).
Proof.
  intros F. unfold least_group_containing. eapply safe_bind; [apply (w_lgc_seed rows F None); auto|].
  intros [[set frontier]|e] H; [|exact I].
  destruct H as [[-> E]|(n & _ & Fr & Fs & Ff)].
  - injection E as -> ->. destruct fuel; cbn; auto.
  - cbn [fst snd] in *. eapply safe_bind; [apply (w_lgc_loop n); auto|]. intros a Ha. cbn. eauto using Forall_wrow.
Qed.
