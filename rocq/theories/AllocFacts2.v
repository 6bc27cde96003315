(** Proofs about the requests made to the allocator: buffers of rows and repeated blocks. *)
From Verif Require Import Base Spec Bell Stage Row Utils SameStageVec Block Alloc SpecVec SpecAcc SpecAlloc
  ListFacts BellFacts RowFacts MulFacts GroupFacts SsvFacts BlockFacts AllocFacts.
Local Open Scope list_scope.

Lemma row_stage_inv r s : row_stage r = Ret s -> 0 < length r /\ s = length r.
Proof. unfold row_stage, stage_new. destruct (length r); [discriminate|]. injection 1 as <-. split; [lia|auto]. Qed.

Section AllocFacts2.
Context (grow : nat -> nat -> nat).

(** ** Buffers of rows, without their room *)

Lemma bare_with_capacity s n : bare ssv_of (a_ssv_with_capacity grow s n) = Ret (ssv_new s).
Proof.
  unfold a_ssv_with_capacity, vec_with_capacity. rewrite (bare_bind items _ _ _ (fun i => Ret (Ssv i s))) by reflexivity.
  rewrite bare_reserve. reflexivity.
Qed.
Lemma bare_from_row_buf r : bare ssv_of (a_ssv_from_row_buf r) = ssv_from_row_buf (items r).
Proof. unfold a_ssv_from_row_buf, ssv_from_row_buf. apply bare_bind_free. reflexivity. Qed.
Lemma bare_ssv_push v r : bare (on_fst ssv_of) (a_ssv_push grow v r) = ssv_push (ssv_of v) r.
Proof.
  unfold a_ssv_push, ssv_push. apply bare_bind_free. intros s. cbn [ssv_of ssv_stage ssv_bells].
  destruct (test_err _ _); [|reflexivity].
  rewrite (bare_bind items _ _ _ (fun i => Ret (Ssv i (as_stage v), Ok tt))) by reflexivity.
  rewrite bare_extend. reflexivity.
Qed.
Lemma bare_ssv_pop v :
  bare (fun p => (ssv_of (fst p), option_map items (snd p))) (a_ssv_pop grow v) = ssv_pop (ssv_of v).
Proof.
  unfold a_ssv_pop, ssv_pop. cbn [ssv_of ssv_stage ssv_bells]. destruct (_ <? _); [reflexivity|].
  destruct (as_stage v =? 0); [reflexivity|]. apply bare_bind_free. intros _.
  rewrite (bare_bind items _ _ _ (fun i => Ret (Ssv (firstn (length (items (as_bells v)) - as_stage v) (items (as_bells v))) (as_stage v), Some i))) by reflexivity.
  rewrite bare_collect. reflexivity.
Qed.
Lemma bare_extend_loop s before rows : forall bells,
  bare (on_fst items) (a_ssv_extend_loop grow s before bells rows) = ssv_extend_loop s before (items bells) rows.
Proof.
  induction rows as [|r t IH]; intros bells; [reflexivity|]. cbn [a_ssv_extend_loop ssv_extend_loop].
  apply bare_bind_free. intros rs. destruct (test_err s rs); [|reflexivity].
  rewrite (bare_bind items _ _ _ (fun i => ssv_extend_loop s before i t)) by (intros; apply IH).
  rewrite bare_extend. reflexivity.
Qed.
Lemma bare_ssv_extend v rows : bare (on_fst ssv_of) (a_ssv_extend grow v rows) = ssv_extend (ssv_of v) rows.
Proof.
  unfold a_ssv_extend, ssv_extend. cbn [ssv_of ssv_stage ssv_bells].
  rewrite (bare_bind (on_fst items) _ _ _ (fun '(bells, res) => Ret (Ssv bells (as_stage v), res))).
  - rewrite bare_extend_loop. reflexivity.
  - intros [b res]; reflexivity.
Qed.
Lemma bare_extend_from_buf v o : bare (on_fst ssv_of) (a_ssv_extend_from_buf grow v o) = Ret (ssv_extend_from_buf (ssv_of v) o).
Proof.
  unfold a_ssv_extend_from_buf, ssv_extend_from_buf. cbn [ssv_of ssv_stage ssv_bells].
  destruct (test_err _ _); [|reflexivity].
  rewrite (bare_bind items _ _ _ (fun i => Ret (Ssv i (as_stage v), Ok tt))) by reflexivity.
  rewrite bare_extend. reflexivity.
Qed.
Lemma bare_range_transposed v t o lo hi :
  bare (on_fst ssv_of) (a_ssv_extend_range_transposed grow v t o lo hi) = ssv_extend_range_transposed (ssv_of v) t o lo hi.
Proof.
  unfold a_ssv_extend_range_transposed, ssv_extend_range_transposed. cbn [ssv_of ssv_stage ssv_bells].
  apply bare_bind_free. intros ts. destruct (test_err _ _); [|reflexivity].
  apply bare_bind_free. intros [x y]. apply bare_bind_free. intros src. apply bare_bind_free. intros new.
  rewrite (bare_bind items _ _ _ (fun i => Ret (Ssv i (as_stage v), Ok tt))) by reflexivity.
  rewrite bare_extend. reflexivity.
Qed.
Lemma bare_from_within_loop t is_ : forall bells,
  bare items (a_from_within_loop grow t is_ bells) =
  foldM (fun bells i => x <- idx bells i;; y <- idx t x;; Ret (bells ++ [y])) is_ (items bells).
Proof.
  induction is_ as [|i l IH]; intros bells; [reflexivity|]. cbn [a_from_within_loop foldM].
  rewrite (bare_bind_free items _ _ (fun x => y <- idx t x;; foldM (fun bells i => x <- idx bells i;; y <- idx t x;; Ret (bells ++ [y])) l (items bells ++ [y]))).
  - destruct (idx (items bells) i) as [x| | |]; cbn [bind]; auto. destruct (idx t x); reflexivity.
  - intros x. apply bare_bind_free. intros y.
    rewrite (bare_bind items _ _ _ (fun i => foldM (fun bells i => x <- idx bells i;; y <- idx t x;; Ret (bells ++ [y])) l i)) by (intros; apply IH).
    rewrite bare_push. reflexivity.
Qed.
Lemma bare_from_within v lo hi t :
  bare (on_fst ssv_of) (a_ssv_extend_transposed_from_within grow v lo hi t) = ssv_extend_transposed_from_within (ssv_of v) lo hi t.
Proof.
  unfold a_ssv_extend_transposed_from_within, ssv_extend_transposed_from_within.
  apply bare_bind_free. intros ts. cbn [ssv_of ssv_stage ssv_bells]. destruct (test_err _ _); [|reflexivity].
  apply bare_bind_free. intros [x y].
  rewrite (bare_bind items _ _ _ (fun i => Ret (Ssv i (as_stage v), Ok tt))) by reflexivity.
  rewrite bare_from_within_loop. reflexivity.
Qed.
Lemma bare_pre_multiply v t : bare (on_fst ssv_of) (a_ssv_pre_multiply v t) = ssv_pre_multiply (ssv_of v) t.
Proof.
  unfold a_ssv_pre_multiply, ssv_pre_multiply. apply bare_bind_free. intros s. cbn [ssv_of ssv_stage ssv_bells].
  destruct (test_err _ _); [|reflexivity]. apply bare_bind_free. reflexivity.
Qed.
Lemma bare_pre_multiplied v t : bare (on_ok ssv_of) (a_ssv_pre_multiplied grow v t) = ssv_pre_multiplied (ssv_of v) t.
Proof.
  unfold a_ssv_pre_multiplied, ssv_pre_multiplied, a_ssv_extend_transposed, ssv_extend_transposed.
  rewrite (bare_bind (on_fst ssv_of) _ _ _ (fun '(new, res) => match res with Err e => Ret (Err e) | Ok _ => Ret (Ok new) end)).
  - rewrite bare_range_transposed. reflexivity.
  - intros [b [u|e]]; reflexivity.
Qed.
Lemma bare_split v i :
  bare (option_map (fun p => (ssv_of (fst p), ssv_of (snd p)))) (a_ssv_split grow v i) = Ret (ssv_split (ssv_of v) i).
Proof.
  unfold a_ssv_split, ssv_split, split_vec. cbn [ssv_of ssv_stage ssv_bells].
  rewrite Nat.ltb_antisym. destruct (_ <=? _); cbn [negb]; [|reflexivity].
  rewrite (bare_bind items _ _ _ (fun j => Ret (Some (Ssv (firstn (i * as_stage v) (items (as_bells v))) (as_stage v), Ssv j (as_stage v))))) by reflexivity.
  rewrite bare_collect. reflexivity.
Qed.
Lemma bare_edit v i f : bare (option_map ssv_of) (a_ssv_edit v i f) = ssv_edit (ssv_of v) i f.
Proof.
  unfold a_ssv_edit. rewrite (bare_bind_free _ _ _ (fun o => Ret (option_map (fun v' => Ssv (ssv_bells v') (as_stage v)) o))).
  - unfold ssv_edit. destruct (ssv_get _ _); [|reflexivity]. destruct (get_range_of_row _ _).
    destruct (f l); reflexivity.
  - intros [w|]; reflexivity.
Qed.

Lemma bare_step v op : bare (on_fst ssv_of) (a_ssv_step grow v op) = ssv_step (ssv_of v) op.
Proof.
  destruct op; cbn [a_ssv_step ssv_step].
  - rewrite (bare_bind (on_fst ssv_of) _ _ _ (fun '(v', res) => Ret (v', out_of res))) by (intros [? ?]; reflexivity).
    rewrite bare_ssv_push. reflexivity.
  - rewrite (bare_bind (fun p => (ssv_of (fst p), option_map items (snd p))) _ _ _ (fun '(v', res) => Ret (v', ORow res))) by (intros [? ?]; reflexivity).
    rewrite bare_ssv_pop. reflexivity.
  - rewrite (bare_bind (on_fst ssv_of) _ _ _ (fun '(v', res) => Ret (v', out_of res))) by (intros [? ?]; reflexivity).
    rewrite bare_ssv_extend. reflexivity.
  - apply bare_bind_free. intros o.
    rewrite (bare_bind (on_fst ssv_of) _ _ _ (fun '(v', res) => Ret (v', out_of res))) by (intros [? ?]; reflexivity).
    rewrite bare_extend_from_buf. cbn [bind]. destruct (ssv_extend_from_buf _ _). reflexivity.
  - apply bare_bind_free. intros o.
    rewrite (bare_bind (on_fst ssv_of) _ _ _ (fun '(v', res) => Ret (v', out_of res))) by (intros [? ?]; reflexivity).
    rewrite bare_range_transposed. reflexivity.
  - apply bare_bind_free. intros o.
    rewrite (bare_bind (on_fst ssv_of) _ _ _ (fun '(v', res) => Ret (v', out_of res))) by (intros [? ?]; reflexivity).
    unfold a_ssv_extend_transposed. rewrite bare_range_transposed. reflexivity.
  - rewrite (bare_bind (on_fst ssv_of) _ _ _ (fun '(v', res) => Ret (v', out_of res))) by (intros [? ?]; reflexivity).
    rewrite bare_from_within. reflexivity.
  - rewrite (bare_bind (on_fst ssv_of) _ _ _ (fun '(v', res) => Ret (v', out_of res))) by (intros [? ?]; reflexivity).
    rewrite bare_pre_multiply. reflexivity.
  - rewrite (bare_bind (on_ok ssv_of) _ _ _ (fun res => match res with Ok v' => Ret (v', ODone) | Err (IncompatibleStages a b) => Ret (ssv_of v, OErr a b) end)).
    + rewrite bare_pre_multiplied. reflexivity.
    + intros [w|[? ?]]; reflexivity.
  - rewrite (bare_bind (option_map (fun p => (ssv_of (fst p), ssv_of (snd p)))) _ _ _ (fun o => Ret (keep (ssv_of v) (option_map fst o)))).
    + rewrite bare_split. reflexivity.
    + intros [[l r]|]; reflexivity.
  - rewrite (bare_bind (option_map (fun p => (ssv_of (fst p), ssv_of (snd p)))) _ _ _ (fun o => Ret (keep (ssv_of v) (option_map snd o)))).
    + rewrite bare_split. reflexivity.
    + intros [[l r]|]; reflexivity.
  - rewrite (bare_bind (option_map ssv_of) _ _ _ (fun o => Ret (keep (ssv_of v) o))) by (intros [?|]; reflexivity).
    rewrite bare_edit. reflexivity.
  - rewrite (bare_bind (option_map ssv_of) _ _ _ (fun o => Ret (keep (ssv_of v) o))) by (intros [?|]; reflexivity).
    rewrite bare_edit. reflexivity.
  - unfold ssv_edit_last.
    rewrite (bare_bind_free _ _ _ (fun n => r <- (match n with O => Ret None | S i => ssv_edit (ssv_of v) i (fun r => row_swap r a b) end);; Ret (keep (ssv_of v) r))).
    + destruct (ssv_len (ssv_of v)) as [[|n]| | |]; reflexivity.
    + intros n. rewrite (bare_bind (option_map ssv_of) _ _ _ (fun o => Ret (keep (ssv_of v) o))) by (intros [?|]; reflexivity).
      destruct n as [|i]; [reflexivity|]. cbn [Nat.eqb]. rewrite bare_edit.
      replace (S i - 1) with i by lia. reflexivity.
  - rewrite (bare_bind_free _ _ _ (fun p => Ret (ssv_of v, snd p))) by (intros [? ?]; reflexivity).
    cbn [ssv_step]. destruct (ssv_len (ssv_of v)); reflexivity.
  - reflexivity.
  - reflexivity.
  - rewrite (bare_bind_free _ _ _ (fun p => Ret (ssv_of v, snd p))) by (intros [? ?]; reflexivity).
    cbn [ssv_step]. destruct (ssv_index (ssv_of v) i); reflexivity.
  - reflexivity.
  - rewrite (bare_bind_free _ _ _ (fun p => Ret (ssv_of v, snd p))) by (intros [? ?]; reflexivity).
    cbn [ssv_step]. destruct (ssv_last (ssv_of v)); reflexivity.
  - rewrite (bare_bind_free _ _ _ (fun p => Ret (ssv_of v, OPath p))).
    + reflexivity.
    + intros [l|]; [|reflexivity].
      rewrite (bare_bind items _ _ _ (fun i => Ret (ssv_of v, OPath (Some i)))) by reflexivity.
      rewrite bare_collect. reflexivity.
Qed.
Lemma bare_run ops : forall v, bare (on_fst ssv_of) (a_ssv_run grow v ops) = ssv_run (ssv_of v) ops.
Proof.
  induction ops as [|op t IH]; intros v; [reflexivity|]. cbn [a_ssv_run ssv_run].
  rewrite (bare_bind (on_fst ssv_of) _ _ _ (fun '(v', o) => '(v'', os) <- ssv_run v' t;; Ret (v'', o :: os))).
  - rewrite bare_step. reflexivity.
  - intros [v' o]. cbn [on_fst fst snd].
    rewrite (bare_bind (on_fst ssv_of) _ _ _ (fun '(v'', os) => Ret (v'', o :: os))) by (intros [? ?]; reflexivity).
    rewrite IH. reflexivity.
Qed.

(** ** The room of a buffer of rows *)

(** [v'] and [n] come from adding to [v]: nothing is asked for if it fits. *)
Definition fitting (b b' : vec bell) (n : nat) : Prop :=
  length (items b) <= length (items b') /\ (length (items b') <= room b -> room b' = room b /\ n = 0).

Lemma extend_fitting b l b' n : vec_extend grow b l = Ret (b', n) -> fitting b b' n.
Proof.
  rewrite extend_eq. injection 1 as <- <-. split; cbn [items room]; rewrite app_length; [lia|].
  intros H. rewrite room_fits, asks_fits by auto. auto.
Qed.
Lemma fitting_trans b1 b2 b3 n1 n2 : fitting b1 b2 n1 -> fitting b2 b3 n2 -> fitting b1 b3 (n1 + n2).
Proof.
  intros [L1 H1] [L2 H2]. split; [lia|]. intros H. destruct H1 as [R1 ->]; [lia|]. destruct H2 as [R2 ->]; [lia|].
  split; [congruence|auto].
Qed.
Lemma fitting_refl b : fitting b b 0.
Proof. split; auto. Qed.

Lemma within_fitting t is_ : forall b b' n, a_from_within_loop grow t is_ b = Ret (b', n) -> fitting b b' n.
Proof.
  induction is_ as [|i l IH]; intros b b' n E; cbn [a_from_within_loop] in E.
  - injection E as <- <-. apply fitting_refl.
  - aif E X1 x. aif E X2 y. ai E X3 w. cbn [Nat.add].
    apply IH in E. eapply fitting_trans; [|exact E].
    rewrite push_eq in X3. injection X3 as <- <-. split; cbn [items room]; rewrite app_length; cbn [length]; [lia|].
    intros H. rewrite room_fits, asks_fits by auto. auto.
Qed.

(** the loop of [extend]: it fits if all rows offered do *)
Lemma extend_loop_room s before rows : forall b b' res n,
  a_ssv_extend_loop grow s before b rows = Ret ((b', res), n) ->
  length (items b) + s * length rows <= room b -> room b' = room b /\ n = 0.
Proof.
  induction rows as [|r t IH]; intros b b' res n E H; cbn [a_ssv_extend_loop length] in *.
  - injection E as <- <- <-. auto.
  - aif E Er rs. apply row_stage_inv in Er as [_ ->].
    unfold test_err in E. destruct (Nat.eqb_spec s (length r)) as [->|N].
    + ai E X w. rewrite extend_eq in X. injection X as <- <-.
      assert (F : length (items b) + length r <= room b) by lia.
      rewrite room_fits in E by auto. rewrite asks_fits by auto.
      apply IH in E; cbn [items room] in *; [|rewrite app_length; lia]. lia.
    + injection E as <- <- <-. auto.
Qed.

Lemma concat_rows_length s rs : Forall (vrow s) rs -> length (concat rs) = s * length rs.
Proof.
  induction 1 as [|r rs V F IH]; cbn [concat length]; [lia|]. rewrite app_length, IH. rewrite (proj2 V). lia.
Qed.
Lemma rep_length s rs v : rep s rs v -> length (ssv_bells v) = s * length rs.
Proof. intros (_ & _ & F & ->). apply concat_rows_length; auto. Qed.

Lemma step_room N s rs v op rs' out v' n :
  rep s rs (ssv_of v) -> vec_op_args_valid op -> ~ leaves_the_buffer op ->
  vec_step s rs op = Some (rs', out) -> length rs' <= N ->
  match op with VExtend rows => length rs + length rows <= N | _ => True end ->
  N * s <= room (as_bells v) ->
  a_ssv_step grow v op = Ret ((v', out), n) -> rep s rs' (ssv_of v') ->
  room (as_bells v') = room (as_bells v) /\ n = handed_out s rs op.
Proof.
  intros R A NL V L X Rm E R'. pose proof (rep_length _ _ _ R) as Len. pose proof (rep_length _ _ _ R') as Len'.
  cbn [ssv_of ssv_bells] in Len, Len'. pose proof (rep_pos _ _ _ R) as Hs.
  assert (Fit : length (items (as_bells v')) <= room (as_bells v)) by (rewrite Len'; nia).
  destruct R as (R0 & S1 & R2 & R3). cbn [ssv_of ssv_stage] in S1. pose proof (conj R0 (conj S1 (conj R2 R3))) as R.
  change (rep s rs (ssv_of v)) in R.
  assert (Simple : forall (m : alloc (assv * result unit incompatible_stages)) k,
    (forall w r j, m = Ret ((w, r), j) -> fitting (as_bells v) (as_bells w) j) ->
    ('(w, r) <+ m;; Ret ((w, out_of r), 0)) = Ret ((v', out), k) ->
    room (as_bells v') = room (as_bells v) /\ k = 0).
  { intros m k H E0. ai E0 X1 p. destruct p as [w r]. injection E0 as <- <- <-. destruct (H _ _ _ X1) as [_ H2].
    destruct (H2 Fit) as [? ->]. auto. }
  assert (Ext : forall (b : vec bell) l w (r : result unit incompatible_stages) j,
    (bells <+ vec_extend grow b l;; Ret ((Assv bells (as_stage v), Ok tt), 0)) = Ret ((w, r), j) ->
    fitting b (as_bells w) j).
  { intros b l w r j E0. ai E0 X1 p. injection E0 as <- <- <-. cbn [as_bells]. rewrite Nat.add_0_r.
    eapply extend_fitting; eauto. }
  assert (Rt : forall t o lo hi w r j, a_ssv_extend_range_transposed grow v t o lo hi = Ret ((w, r), j) ->
    fitting (as_bells v) (as_bells w) j).
  { intros t o lo hi w r j E0. unfold a_ssv_extend_range_transposed in E0. aif E0 X1 ts.
    destruct (test_err _ _).
    - aif E0 X2 ab. destruct ab as [x y]. aif E0 X3 src. aif E0 X4 new. cbn [Nat.add]. eapply Ext; eauto.
    - injection E0 as <- <- <-. apply fitting_refl. }
  assert (Ed : forall i f o k, a_ssv_edit v i f = Ret (o, k) -> k = 0 /\
    forall w, o = Some w -> room (as_bells w) = room (as_bells v)).
  { intros i f o k E0. unfold a_ssv_edit in E0. aif E0 X1 o1. injection E0 as <- <-.
    split; auto. intros w. destruct o1; cbn; [|discriminate]. injection 1 as <-. reflexivity. }
  assert (Kp : forall (o : option assv) k, Ret (a_keep v o, 0) = Ret ((v', out), k) ->
    (forall w, o = Some w -> room (as_bells w) = room (as_bells v)) -> room (as_bells v') = room (as_bells v) /\ k = 0).
  { intros o k E0 H. destruct o as [w|]; injection E0 as <- <- <-; auto. }
  destruct op; cbn [a_ssv_step handed_out leaves_the_buffer] in *; try contradiction.
  - eapply Simple; [|exact E]. intros w q j E0. unfold a_ssv_push in E0. aif E0 X1 sr.
    destruct (test_err _ _); [eapply Ext; eauto|]. injection E0 as <- <- <-. apply fitting_refl.
  - ai E X1 p. destruct p as [w o]. injection E as -> <- <-. unfold a_ssv_pop in X1.
    destruct (Nat.ltb_spec (length (items (as_bells v))) (as_stage v)) as [Lt|Ge].
    + injection X1 as <- <- <-. split; auto. replace (length rs) with 0 by nia. reflexivity.
    + destruct (as_stage v =? 0); [discriminate|]. aif X1 Y1 u. ai X1 Y2 c. rewrite collect_eq in Y2.
      injection Y2 as <- <-. injection X1 as <- <- <-. cbn [as_bells vec_drain_from room]. split; auto.
      unfold asks. rewrite skipn_length.
      destruct (Nat.leb_spec (length (items (as_bells v)) - (length (items (as_bells v)) - as_stage v)) 0); [lia|].
      destruct (Nat.eqb_spec (length rs) 0); [nia|auto].
  - ai E X1 p. destruct p as [w r]. injection E as -> <- <-. unfold a_ssv_extend in X1. ai X1 Y1 q. destruct q as [b' r'].
    injection X1 as <- <- <-. cbn [as_bells]. apply extend_loop_room in Y1; [lia|]. rewrite S1, Len. nia.
  - aif E X1 o. eapply Simple; [|exact E]. intros w q j E0. unfold a_ssv_extend_from_buf in E0.
    destruct (test_err _ _); [eapply Ext; eauto|]. injection E0 as <- <- <-. apply fitting_refl.
  - aif E X1 o. eapply Simple; [|exact E]. intros w q j. apply Rt.
  - aif E X1 o. eapply Simple; [|exact E]. intros w q j. apply Rt.
  - eapply Simple; [|exact E]. intros w q j E0. unfold a_ssv_extend_transposed_from_within in E0. aif E0 X1 ts.
    destruct (test_err _ _).
    + aif E0 X2 ab. destruct ab as [x y]. ai E0 X3 bl. injection E0 as <- <- <-. cbn [as_bells Nat.add].
      rewrite Nat.add_0_r. eapply within_fitting; eauto.
    + injection E0 as <- <- <-. apply fitting_refl.
  - eapply Simple; [|exact E]. intros w q j E0. unfold a_ssv_pre_multiply in E0. aif E0 X1 sl.
    destruct (test_err _ _).
    + aif E0 M l. injection E0 as <- <- <-. split; cbn [as_bells items room]; auto.
      apply mapM_length in M. lia.
    + injection E0 as <- <- <-. apply fitting_refl.
  - ai E X1 o. unfold a_ssv_split in X1.
    destruct (Nat.leb_spec (i * as_stage v) (length (items (as_bells v)))) as [Le|Gt].
    + ai X1 Y1 c. rewrite collect_eq in Y1. injection Y1 as <- <-. injection X1 as <- <-. cbn [option_map fst a_keep] in E.
      injection E as <- <- <-. cbn [as_bells vec_drain_from room]. split; auto. unfold asks. rewrite skipn_length.
      destruct (Nat.ltb_spec i (length rs)); destruct (Nat.leb_spec (length (items (as_bells v)) - i * as_stage v) 0); nia.
    + injection X1 as <- <-. cbn [option_map a_keep] in E. injection E as <- <- <-. split; auto.
      destruct (Nat.ltb_spec i (length rs)); [nia|auto].
  - ai E X1 o. apply Ed in X1 as [-> H]. eapply Kp; eauto.
  - ai E X1 o. apply Ed in X1 as [-> H]. eapply Kp; eauto.
  - aif E X1 m. ai E X2 o. destruct (m =? 0).
    + injection X2 as <- <-. eapply Kp; [eauto|discriminate].
    + apply Ed in X2 as [-> H]. eapply Kp; eauto.
  - aif E X1 p. destruct p. injection E as <- _ <-. auto.
  - aif E X1 p. destruct p. injection E as <- _ <-. auto.
  - aif E X1 p. destruct p. injection E as <- _ <-. auto.
  - aif E X1 p. destruct p. injection E as <- _ <-. auto.
  - aif E X1 p. destruct p. injection E as <- _ <-. auto.
  - aif E X1 p. destruct p. injection E as <- _ <-. auto.
  - aif E P o. destruct (Nat.ltb_spec b s) as [Lb|Lb]; cbn [andb].
    + destruct (ssv_path_ok s rs (ssv_of v) b R Lb) as (p & Ep & F). rewrite Ep in P. injection P as <-.
      ai E X1 c. rewrite collect_eq in X1. injection X1 as <- <-. injection E as <- _ <-. split; auto.
      assert (LF : length rs = length p) by (clear - F; induction F; cbn; auto).
      rewrite LF. unfold asks. destruct (length p); cbn; auto.
    + erewrite ssv_path_none in P by eauto. injection P as <-. injection E as <- _ <-. auto.
Qed.
End AllocFacts2.
