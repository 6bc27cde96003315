(** Which computations do not panic. *)
From Verif Require Import Base Bell Stage Parity Row Utils SameStageVec Block PlaceNot Mask Class Method Program
  Spec SpecVec SpecBlock SpecPn SpecProg ListFacts BellFacts RowFacts MulFacts GroupFacts ParityFacts SsvFacts SsvFacts2 BlockFacts
  GroupFacts2 RowThms MethodFacts PnFacts PnFacts2 PnFacts3 PnThms SafeFacts SafeFacts2 UnwindFacts2 UnwindFacts3 UnwindFacts4.
From Verif Require Call Library.
Local Open Scope list_scope.

(** The computation returns something with the property, or is cut off. *)
Definition good {A} (P : A -> Prop) (e : exec A) : Prop :=
  match e with Ret a => P a | NoFuel => True | _ => False end.

Lemma good_bind {A B} (P : A -> Prop) (Q : B -> Prop) e f :
  good P e -> (forall a, P a -> good Q (f a)) -> good Q (bind e f).
Proof. destruct e; cbn; auto; contradiction. Qed.
Lemma good_imp {A} (P Q : A -> Prop) e : good P e -> (forall a, P a -> Q a) -> good Q e.
Proof. destruct e; cbn; auto. Qed.
Lemma good_returns {A} (P : A -> Prop) e : good P e -> returns e.
Proof. destruct e; cbn; auto. Qed.
Lemma good_ret {A} (P : A -> Prop) a : P a -> good P (Ret a).
Proof. auto. Qed.
Lemma good_mapM {A B} (f : A -> exec B) (P : A -> Prop) (Q : B -> Prop) l :
  (forall x, P x -> good Q (f x)) -> Forall P l -> good (Forall Q) (mapM f l).
Proof.
  intros H. induction 1 as [|x l Px F IH]; cbn [mapM]; [cbn; auto|].
  eapply good_bind; [apply H; auto|]. intros y Qy. eapply good_bind; [apply IH|]. intros ys Qys. cbn. auto.
Qed.
Lemma good_row_stage r : valid_row r -> good (fun s => 0 < s /\ s = length r) (row_stage r).
Proof. intros V. rewrite valid_row_stage by auto. cbn. split; auto. destruct V as [N _]. destruct r; cbn; [congruence|lia]. Qed.
Lemma good_mul_unchecked n a b : vrow n a -> vrow n b -> good (vrow n) (mul_unchecked a b).
Proof. intros Ha Hb. erewrite mul_unchecked_vrow by eauto. cbn. apply valid_rmul; auto. Qed.

(** ** Groups *)

Lemma good_closure_loop fuel n r : vrow n r -> forall l, vrow n l -> good (Forall (vrow n)) (closure_loop fuel r l).
Proof.
  intros Vr. induction fuel as [|fuel IH]; intros l Vl; cbn [closure_loop]; [exact I|].
  destruct (is_rounds l); [cbn; auto|]. eapply good_bind; [apply good_mul_unchecked; eauto|]. intros x Vx.
  eapply good_bind; [apply IH; auto|]. intros xs Vxs. cbn; auto.
Qed.
Lemma good_closure fuel r : valid_row r -> good (Forall valid_row) (closure fuel r).
Proof.
  intros V. eapply good_imp; [|apply (Forall_valid (length r))]. apply good_closure_loop; apply vrow_intro; auto.
Qed.
Lemma good_closure_from_rounds_loop fuel n r : vrow n r -> forall l, vrow n l ->
  good (Forall (vrow n)) (closure_from_rounds_loop fuel r l).
Proof.
  intros Vr. induction fuel as [|fuel IH]; intros l Vl; cbn [closure_from_rounds_loop]; [exact I|].
  eapply good_bind; [apply good_mul_unchecked; eauto|]. intros x Vx.
  destruct (is_rounds x); [cbn; auto|].
  eapply good_bind; [apply IH; auto|]. intros xs Vxs. cbn; auto.
Qed.
Lemma good_closure_from_rounds fuel r : valid_row r -> good (Forall valid_row) (closure_from_rounds fuel r).
Proof.
  intros V. unfold closure_from_rounds. eapply good_bind; [apply good_row_stage; auto|]. intros s [Hs ->].
  eapply good_imp; [|apply (Forall_valid (length r))].
  apply good_closure_from_rounds_loop; [apply vrow_intro; auto|apply valid_rounds; auto].
Qed.

Lemma good_mcp_first set : Forall valid_row set -> forall st,
  good (okres (fun p => match st with
                        | None => ok_stage_rows p
                        | Some n => fst p = Some n /\ Forall (vrow n) (snd p)
                        end)) (mcp_first st set).
Proof.
  induction 1 as [|r t V F IH]; intros st; cbn [mcp_first].
  - destruct st; cbn; auto; reflexivity.
  - eapply good_bind; [apply good_row_stage; auto|]. intros s [Hs ->].
    destruct (test_err_opt_cases st (length r)) as [(e & st' & E)|[E Hst]]; rewrite E; [exact I|].
    eapply good_bind; [apply IH|]. intros [[st'' rs]|e] H; [|exact I]. cbn in H. destruct H as [-> H].
    assert (Forall (vrow (length r)) (r :: rs)) by (constructor; auto; apply vrow_intro; auto).
    destruct Hst as [->| ->]; cbn; auto.
Qed.
Lemma good_mcp_step n from set : Forall (vrow n) from -> Forall valid_row set ->
  good (okres (Forall (vrow n))) (mcp_step n from set).
Proof.
  intros Ff. induction 1 as [|r t V F IH]; cbn [mcp_step]; [cbn; auto|].
  eapply good_bind; [apply good_row_stage; auto|]. intros s [Hs ->]. unfold test_err.
  destruct (Nat.eqb_spec n (length r)) as [E|E]; [|exact I].
  eapply good_bind; [eapply (good_mapM _ (vrow n)); [|eauto]; intros x Hx; apply good_mul_unchecked; [exact Hx|split; auto]|].
  intros here Hh. eapply good_bind; [apply IH|]. intros [rs|e] H; [|exact I]. cbn in *. apply Forall_app; auto.
Qed.
Lemma good_mcp_loop sets : Forall (Forall valid_row) sets -> forall n from, Forall (vrow n) from ->
  good (okres (Forall valid_row)) (mcp_loop (Some n) from sets).
Proof.
  induction 1 as [|set t V F IH]; intros n from Ff; cbn [mcp_loop]; [cbn; eauto using Forall_valid|].
  destruct from as [|r from]; [cbn; auto|]. cbn [unwrap bind].
  eapply good_bind; [apply good_mcp_step; eauto|]. intros [to|e] H; [|exact I]. apply IH; auto.
Qed.
Lemma good_mcp sets : Forall (Forall valid_row) sets -> good (okres (Forall valid_row)) (multi_cartesian_product sets).
Proof.
  intros F. unfold multi_cartesian_product. destruct F as [|set t V F]; [cbn; auto|].
  eapply good_bind; [apply (good_mcp_first _ V None)|]. intros [[[n|] from]|e] H; cbn in H; [| |exact I].
  - apply good_mcp_loop; auto.
  - unfold ok_stage_rows in H. cbn in H. subst from. rewrite mcp_loop_nil. cbn. auto.
Qed.

Lemma good_lgc_seed rows : Forall valid_row rows -> forall st set frontier,
  match st with None => set = [] /\ frontier = [] | Some n => Forall (vrow n) set /\ Forall (vrow n) frontier end ->
  good (okres (fun p => (rows = [] /\ p = (set, frontier)) \/
     exists n, (st = None \/ st = Some n) /\ Forall (vrow n) rows /\ Forall (vrow n) (fst p) /\ Forall (vrow n) (snd p)))
    (lgc_seed st set frontier rows).
Proof.
  induction 1 as [|r t V F IH]; intros st set frontier H; cbn [lgc_seed]; [cbn; auto|].
  eapply good_bind; [apply good_row_stage; auto|]. intros s [Hs ->].
  destruct (test_err_opt_cases st (length r)) as [(e & st' & E)|[E Hst]]; rewrite E; [exact I|].
  assert (Hr : vrow (length r) r) by (apply vrow_intro; auto).
  assert (H' : Forall (vrow (length r)) set /\ Forall (vrow (length r)) frontier).
  { destruct Hst as [->| ->]; [destruct H as [-> ->]; auto|auto]. }
  destruct H' as [Fs Ff].
  assert (G : forall set' frontier', Forall (vrow (length r)) set' -> Forall (vrow (length r)) frontier' ->
    good (okres (fun p => (r :: t = [] /\ p = (set, frontier)) \/
     exists n, (st = None \/ st = Some n) /\ Forall (vrow n) (r :: t) /\ Forall (vrow n) (fst p) /\ Forall (vrow n) (snd p)))
    (lgc_seed (Some (length r)) set' frontier' t)).
  { intros set' frontier' F1 F2. eapply good_imp; [apply (IH (Some (length r))); auto|].
    intros [[a b]|e] Hp; cbn in *; auto. right. exists (length r). destruct Hp as [[-> Ep]|(n & [Hn|Hn] & Ht & Ha & Hb)].
    - injection Ep as -> ->. auto.
    - discriminate.
    - injection Hn as <-. auto. }
  destruct (row_mem r set); apply G; auto; apply Forall_app; auto.
Qed.
Lemma good_lgc_expand n r rows : vrow n r -> Forall (vrow n) rows -> forall set frontier,
  Forall (vrow n) set -> Forall (vrow n) frontier ->
  good (fun p => Forall (vrow n) (fst p) /\ Forall (vrow n) (snd p)) (lgc_expand r set frontier rows).
Proof.
  intros Vr. induction 1 as [|x t V F IH]; intros set frontier Fs Ff; cbn [lgc_expand]; [cbn; auto|].
  eapply good_bind; [apply good_mul_unchecked; eauto|]. intros y Vy.
  destruct (row_mem y set); apply IH; auto; apply Forall_app; auto.
Qed.
Lemma good_lgc_loop n rows fuel : Forall (vrow n) rows -> forall set frontier,
  Forall (vrow n) set -> Forall (vrow n) frontier -> good (Forall (vrow n)) (lgc_loop fuel rows set frontier).
Proof.
  intros Fr. induction fuel as [|fuel IH]; intros set frontier Fs Ff; cbn [lgc_loop]; [exact I|].
  destruct Ff as [|r frontier Vr Ff]; [cbn; auto|].
  eapply good_bind; [apply (good_lgc_expand n); auto|]. intros [a b] [Ha Hb]. apply IH; auto.
Qed.
Lemma good_least_group fuel rows : Forall valid_row rows -> good (okres (Forall valid_row)) (least_group_containing fuel rows).
Proof.
  intros F. unfold least_group_containing. eapply good_bind; [apply (good_lgc_seed rows F None); auto|].
  intros [[set frontier]|e] H; [|exact I].
  destruct H as [[-> E]|(n & _ & Fr & Fs & Ff)].
  - injection E as -> ->. destruct fuel; cbn; auto.
  - cbn [fst snd] in *. eapply good_bind; [apply (good_lgc_loop n); auto|]. intros a Ha. cbn. eauto using Forall_valid.
Qed.

Lemma good_is_group_stages set : Forall valid_row set -> forall n,
  good (okres (fun _ => Forall (vrow n) set)) (is_group_stages (Some n) set).
Proof.
  induction 1 as [|r t V F IH]; intros n; cbn [is_group_stages]; [cbn; auto|].
  eapply good_bind; [apply good_row_stage; auto|]. intros s [Hs ->]. unfold test_err.
  destruct (Nat.eqb_spec n (length r)) as [->|]; [|exact I].
  eapply good_imp; [apply IH|]. intros [u|e] H; cbn in *; auto. constructor; auto. apply vrow_intro; auto.
Qed.
Lemma returns_is_group set : Forall valid_row set -> returns (is_group_set set).
Proof.
  intros F. destruct F as [|r t V F]; [exact I|].
  pose proof (good_is_group_stages t F (length r)) as G.
  assert (X : is_group_stages None (r :: t) = is_group_stages (Some (length r)) t).
  { cbn [is_group_stages]. rewrite valid_row_stage by auto. reflexivity. }
  destruct (is_group_stages (Some (length r)) t) as [[[]|e]| | |] eqn:E; cbn in G; try contradiction.
  - destruct (is_group_set_ok (length r) (r :: t)) as (ok & -> & _); [discriminate|constructor; auto; apply vrow_intro; auto|]. exact I.
  - unfold is_group_set. rewrite X. exact I.
  - unfold is_group_set. rewrite X. exact I.
Qed.

(** ** Rows *)

Lemma returns_ne {A} (e : exec A) : returns e -> e <> Panic.
Proof. intros H ->. exact H. Qed.
Lemma returns_mul_result a b : valid_row a -> valid_row b -> returns (mul_result a b).
Proof.
  intros Va Vb. destruct (same_stage_cases a b Va Vb) as [N|[Ha Hb]].
  - rewrite mul_result_err by auto. exact I.
  - erewrite mul_result_ok by eauto. exact I.
Qed.
Lemma rinv_valid a : valid_row a -> valid_row (rinv a).
Proof. intros V. apply (valid_rinv (length a)), vrow_intro; auto. Qed.
Lemma returns_row_inv a : valid_row a -> returns (row_inv a).
Proof. intros V. rewrite row_inv_ok by auto. exact I. Qed.
Lemma returns_pow_u a n : valid_row a -> returns (pow_u a n).
Proof. intros V. rewrite (pow_u_ok (length a)) by (apply vrow_intro; auto). exact I. Qed.
Lemma returns_pow_i a e : valid_row a -> returns (pow_i a e).
Proof.
  intros V. unfold pow_i. destruct (e <? 0)%Z; [|apply returns_pow_u; auto]. rewrite row_inv_ok by auto. cbn [bind].
  apply returns_pow_u, rinv_valid; auto.
Qed.
Lemma returns_solve_ax a b : valid_row a -> valid_row b -> returns (solve_ax_equals_b a b).
Proof. intros. unfold solve_ax_equals_b. rewrite row_inv_ok by auto. cbn [bind]. apply returns_mul_result; auto using rinv_valid. Qed.
Lemma returns_solve_xa a b : valid_row a -> valid_row b -> returns (solve_xa_equals_b a b).
Proof. intros. unfold solve_xa_equals_b. rewrite row_inv_ok by auto. cbn [bind]. apply returns_mul_result; auto using rinv_valid. Qed.
Lemma returns_from_vec_with_stage l s : 0 < s -> returns (from_vec_with_stage l s).
Proof. intros H. destruct (pf_C08_with_stage_never_panics_and_errors_are_truthful l s H) as (res & -> & _). exact I. Qed.
Lemma returns_acc_new r : valid_row r -> returns (acc_new r).
Proof. intros V. unfold acc_new. rewrite valid_row_stage by auto. exact I. Qed.
Lemma returns_accumulate a r : okacc a -> valid_row r -> returns (acc_accumulate a r).
Proof. intros [H _] V. apply returns_bind; [apply returns_mul_into; auto|]. intros [t [|]] _; exact I. Qed.
Lemma returns_pre_accumulate a r : okacc a -> valid_row r -> returns (acc_pre_accumulate a r).
Proof. intros [H _] V. apply returns_bind; [apply returns_mul_into; auto|]. intros [t [|]] _; exact I. Qed.
Lemma acc_mul_assign_panic a r : okacc a -> valid_row r -> acc_mul_assign a r = Panic <-> length (acc_total a) <> length r.
Proof.
  intros [Ha Hb] V. unfold acc_mul_assign. destruct (Nat.eq_dec (length (acc_total a)) (length r)) as [E|E].
  - erewrite acc_accumulate_ok by (split; [eassumption|first [reflexivity|congruence]]). cbn. split; [discriminate|congruence].
  - pose proof (acc_accumulate_err a r Ha V E) as X. rewrite X. cbn. tauto.
Qed.
Lemma row_mul_panic_iff a b : valid_row a -> valid_row b -> row_mul a b = Panic <-> length a <> length b.
Proof.
  intros Va Vb. split; [|apply row_mul_panic; auto]. intros E L. rewrite (row_mul_ok (length a)) in E; [discriminate| |]; split; auto.
Qed.
Lemma extend_to_stage_panic_iff r n : valid_row r -> (s <- stage_new n;; extend_to_stage r s) = Panic <-> n < length r.
Proof.
  intros V. destruct n as [|n].
  - cbn. split; auto. intros _. destruct V as [N _]. destruct r; cbn; [congruence|lia].
  - rewrite (proj2 (stage_new_iff (S n))) by lia. cbn [bind]. split; [|apply extend_to_stage_panic; auto]. intros E. destruct (le_lt_dec (length r) (S n)) as [L|L]; auto.
    rewrite (proj1 (extend_to_stage_ok r (S n) V L)) in E. discriminate.
Qed.
Lemma row_swap_panic_iff r a b : row_swap r a b = Panic <-> (length r <= a \/ length r <= b).
Proof.
  split; [|apply row_swap_panic]. intros E. destruct (le_lt_dec (length r) a); auto. destruct (le_lt_dec (length r) b); auto.
  rewrite row_swap_ok in E by auto. discriminate.
Qed.

(** ** Buffers *)

Lemma returns_ssv_last v : okv v -> returns (ssv_last v).
Proof. intros [rs R]. erewrite ssv_last_ok by eauto. exact I. Qed.
Lemma returns_rows v : okv v -> returns (ssv_rows v).
Proof. intros [rs R]. erewrite rep_rows by eauto. exact I. Qed.
Lemma returns_push v r : okv v -> valid_row r -> returns (ssv_push v r).
Proof.
  intros [rs R] V. destruct (Nat.eq_dec (length r) (ssv_stage v)) as [E|E].
  - destruct (ssv_push_ok _ _ _ r R) as (v' & -> & _); [split; auto|]. exact I.
  - rewrite (ssv_push_err _ _ _ _ R V E). exact I.
Qed.
Lemma returns_pop v : okv v -> returns (ssv_pop v).
Proof. intros [rs R]. destruct (ssv_pop_ok _ _ _ R) as (v' & -> & _). exact I. Qed.
Lemma returns_extend v rows : okv v -> Forall valid_row rows -> returns (ssv_extend v rows).
Proof.
  intros [rs R] F. destruct (find (fun r => negb (length r =? ssv_stage v)) rows) as [bad|] eqn:E.
  - rewrite (ssv_extend_err _ _ _ _ _ R F E). exact I.
  - destruct (ssv_extend_ok _ _ _ rows R) as (v' & -> & _); [apply find_none_vrow; auto|]. exact I.
Qed.
Lemma extend_range_panic_iff v t w lo hi rs : okv v -> valid_row t -> rep (ssv_stage w) rs w -> ssv_stage v = ssv_stage w ->
  ssv_extend_range_transposed v t w lo hi = Panic <->
  length t = ssv_stage w /\ ~ (range_start lo <= range_end hi (length rs) /\ range_end hi (length rs) <= length rs).
Proof.
  intros [rs0 R] V Rw E. rewrite E in R. destruct (Nat.eq_dec (length t) (ssv_stage w)) as [L|L].
  - split.
    + intros X. split; auto. intros [Y Z].
      destruct (ssv_extend_range_transposed_ok _ _ _ t _ _ lo hi R (conj V L) Rw Y Z) as (v' & E' & _). rewrite X in E'. discriminate.
    + intros [_ N]. exact (ssv_extend_range_transposed_panic _ _ _ t _ _ lo hi R (conj V L) Rw N).
  - rewrite (ssv_extend_range_transposed_err _ _ _ t w lo hi R V L). split; [discriminate|tauto].
Qed.
Lemma returns_extend_transposed v t w : okv v -> valid_row t -> okv w -> ssv_stage v = ssv_stage w -> returns (ssv_extend_transposed v t w).
Proof.
  intros Hv V [rs R] E. unfold ssv_extend_transposed.
  pose proof (extend_range_panic_iff v t w Unbounded Unbounded rs Hv V R E) as X. cbn [range_start range_end] in X.
  destruct (ssv_extend_range_transposed v t w Unbounded Unbounded); cbn; auto. apply X; [reflexivity|]. lia.
Qed.
Lemma returns_pre_multiply v t : okv v -> valid_row t -> returns (ssv_pre_multiply v t).
Proof.
  intros [rs R] V. destruct (Nat.eq_dec (length t) (ssv_stage v)) as [L|L].
  - destruct (ssv_pre_multiply_ok _ _ _ t R (conj V L)) as (v' & -> & _). exact I.
  - rewrite (ssv_pre_multiply_err _ _ _ t R V L). exact I.
Qed.
Lemma returns_pre_multiplied v t : okv v -> valid_row t -> returns (ssv_pre_multiplied v t).
Proof.
  intros [rs R] V. destruct (Nat.eq_dec (length t) (ssv_stage v)) as [L|L].
  - destruct (ssv_pre_multiplied_ok _ _ _ t R (conj V L)) as (v' & -> & _). exact I.
  - rewrite (ssv_pre_multiplied_err _ _ _ t R V L). exact I.
Qed.
Lemma returns_path v b : okv v -> returns (ssv_path_of v b).
Proof.
  intros [rs R]. destruct (le_lt_dec (ssv_stage v) b) as [L|L].
  - rewrite (ssv_path_none _ _ _ _ R L). exact I.
  - destruct (ssv_path_ok _ _ _ _ R L) as (p & -> & _). exact I.
Qed.

(** Copying onto the end of the same list, from a place inside it: there is always something to copy. *)
Lemma within_never t : forall n a bells, Forall (fun x => x < length t) bells -> Forall (fun y => y < length t) t -> a < length bells ->
  returns (foldM (fun bells i => x <- idx bells i;; y <- idx t x;; Ret (bells ++ [y])) (seq a n) bells).
Proof.
  induction n as [|n IH]; intros a bells F Ft L; cbn [seq foldM]; [exact I|].
  rewrite (idx_ret 0) by auto. cbn [bind].
  assert (Lx : nth a bells 0 < length t) by (rewrite Forall_forall in F; apply F, nth_In; auto).
  rewrite (idx_ret 0) by auto. cbn [bind]. apply IH; auto.
  - apply Forall_app; split; auto. constructor; auto. rewrite Forall_forall in Ft. apply Ft, nth_In; auto.
  - rewrite app_length. cbn. lia.
Qed.
Lemma from_within_panic_iff v t lo hi rs : rep (ssv_stage v) rs v -> valid_row t ->
  ssv_extend_transposed_from_within v lo hi t = Panic <->
  length t = ssv_stage v /\ length rs <= range_start lo < range_end hi (length rs).
Proof.
  intros R V. destruct (Nat.eq_dec (length t) (ssv_stage v)) as [L|L].
  2: { rewrite (ssv_from_within_err _ _ _ t lo hi R V L). split; [discriminate|tauto]. }
  destruct (le_lt_dec (range_end hi (length rs)) (range_start lo)) as [O|O].
  { rewrite (ssv_from_within_empty _ _ _ t lo hi R (conj V L) O). split; [discriminate|lia]. }
  unfold ssv_extend_transposed_from_within. rewrite valid_row_stage by auto. cbn [bind]. unfold test_err.
  rewrite L, Nat.eqb_refl. rewrite (to_bell_range_ok _ _ _ lo hi R). cbn [bind].
  pose proof (rep_length _ _ _ R) as RL. pose proof (rep_pos _ _ _ R) as P.
  set (a := range_start lo) in *. set (b := range_end hi (length rs)) in *. set (s := ssv_stage v) in *.
  unfold range. destruct (le_lt_dec (length rs) a) as [G|G].
  - split; auto. intros _. replace (b * s - a * s) with (S (b * s - a * s - 1)) by nia. cbn [seq foldM].
    rewrite idx_panic by nia. reflexivity.
  - split; [|lia]. intros X. exfalso. apply (returns_ne (foldM (fun bells i => x <- idx bells i;; y <- idx t x;; Ret (bells ++ [y])) (seq (a * s) (b * s - a * s)) (ssv_bells v))).
    + apply within_never.
      * destruct R as (_ & _ & F & ->). rewrite L. apply concat_lt; auto.
      * apply valid_row_Forall; auto.
      * nia.
    + destruct (foldM _ _ _); try discriminate X; auto.
Qed.
Lemma index_panic_iff v i rs : rep (ssv_stage v) rs v -> ssv_index v i = Panic <-> length rs <= i.
Proof.
  intros R. split; [|apply (ssv_index_panic _ _ _ _ R)]. intros E. destruct (le_lt_dec (length rs) i) as [L|L]; auto.
  destruct (nth_error rs i) as [r|] eqn:N; [|apply nth_error_None in N; lia].
  rewrite (ssv_index_ok _ _ _ _ _ R N) in E. discriminate.
Qed.
Lemma edit_panic_iff v i f rs : rep (ssv_stage v) rs v ->
  (forall r, vrow (ssv_stage v) r -> safe (vrow (length r)) (f r)) ->
  ssv_edit v i f = Panic <-> exists r, nth_error rs i = Some r /\ f r = Panic.
Proof.
  intros R S. destruct (nth_error rs i) as [r|] eqn:N.
  - pose proof (nth_valid _ _ _ _ (rep_Forall _ _ _ R) N) as V. specialize (S r V).
    destruct (f r) as [r'| | |] eqn:F.
    + cbn in S. rewrite (proj2 V) in S. destruct (ssv_edit_ok _ _ _ _ f r r' R N F S) as (v' & -> & _).
      split; [discriminate|]. intros (x & E & X). injection E as <-. congruence.
    + unfold ssv_edit. rewrite (ssv_get_ok _ _ _ i R), N. cbn. rewrite F. cbn. split; eauto.
    + contradiction.
    + unfold ssv_edit. rewrite (ssv_get_ok _ _ _ i R), N. cbn. rewrite F. cbn. split; [discriminate|]. intros (x & E & X). injection E as <-. congruence.
  - rewrite (ssv_edit_none _ _ _ _ f R N). split; [discriminate|]. intros (r & E & _). discriminate.
Qed.
Lemma lines_nil t : lines t = [] <-> t = [].
Proof.
  unfold lines. split; [|intros ->; reflexivity].
  assert (G : forall t cur, lines_from cur t = [] -> cur = [] /\ t = []).
  { clear. induction t as [|c t IH]; intros cur E; cbn in E.
    - destruct cur; [auto|discriminate].
    - destruct (c =? 10)%N; [discriminate|]. apply IH in E as [E _]. destruct cur; discriminate. }
  intros E. apply G in E. tauto.
Qed.
Lemma ssv_parse_panic_iff t : ssv_parse t = Panic <-> t = [].
Proof.
  split; [|intros ->; reflexivity]. intros E. apply lines_nil. destruct (lines t) eqn:L; auto. exfalso.
  destruct (ssv_parse_cases _ t L) as [(s & rs & v & _ & _ & _ & X & _)|H]; [discriminate|congruence|].
  decompose record H. congruence.
Qed.
Lemma returns_it_next it : oki it -> returns (it_next it).
Proof. intros (rs & P & F & E). destruct it as [l s]. cbn in *. subst l. rewrite it_next_ok by auto. exact I. Qed.
Lemma returns_it_next_back it : oki it -> returns (it_next_back it).
Proof. intros (rs & P & F & E). destruct it as [l s]. cbn in *. subst l. rewrite it_next_back_ok by auto. exact I. Qed.
