(** Proofs about row/owned.rs and the non-looping part of row/borrowed.rs. *)
From Coq Require Import Sorting.Sorted.
From Verif Require Import Base Bell Stage Parity Row ListFacts BellFacts Spec.
Local Open Scope list_scope.

(** ** Validity *)

Lemma valid_row_iff r :
  valid_row r <-> r <> [] /\ NoDup r /\ Forall (fun b => b < length r) r.
Proof.
  unfold valid_row. rewrite Forall_forall. split.
  - intros (H1 & H2 & H3). repeat split; auto. intros x Hx; apply H3; auto.
  - intros (H1 & H2 & H3). repeat split; auto.
    intros Hb; apply NoDup_lt_all; auto. apply Forall_forall; auto.
Qed.

Lemma valid_row_pos r : valid_row r -> 0 < length r.
Proof. intros (H & _); destruct r; cbn; [congruence | lia]. Qed.

Lemma valid_row_NoDup r : valid_row r -> NoDup r.
Proof. intros (_ & H & _); exact H. Qed.

Lemma valid_row_Forall r : valid_row r -> Forall (fun b => b < length r) r.
Proof. intros H; apply valid_row_iff in H; tauto. Qed.

Lemma valid_row_nth_lt r i : valid_row r -> i < length r -> nth i r 0 < length r.
Proof.
  intros H Hi. apply valid_row_Forall in H. rewrite Forall_forall in H.
  apply H, nth_In, Hi.
Qed.

Lemma valid_row_nth_error_lt r i b : valid_row r -> nth_error r i = Some b -> b < length r.
Proof. intros (_ & _ & H) Hi. apply H. eapply nth_error_In; eauto. Qed.

Lemma valid_row_surj r b : valid_row r -> b < length r -> exists i, nth_error r i = Some b.
Proof. intros (_ & _ & H) Hb. apply In_nth_error, H, Hb. Qed.

Lemma valid_row_stage r : valid_row r -> row_stage r = Ret (length r).
Proof. intros H; apply stage_new_pos, valid_row_pos, H. Qed.

Lemma valid_row_perm r : valid_row r <-> r <> [] /\ Permutation r (seq 0 (length r)).
Proof.
  rewrite valid_row_iff. split; intros (H1 & H2).
  - destruct H2 as [H2 H3]. split; auto.
    apply NoDup_Permutation; [auto | apply seq_NoDup |].
    intros x. rewrite in_seq. rewrite Forall_forall in H3. split.
    + intros Hx; specialize (H3 x Hx); lia.
    + intros Hx. apply NoDup_lt_all; [auto | apply Forall_forall; auto | lia].
  - repeat split; auto.
    + eapply Permutation_NoDup; [symmetry; exact H2 | apply seq_NoDup].
    + apply Forall_forall. intros x Hx. eapply Permutation_in in Hx; [|exact H2].
      apply in_seq in Hx. lia.
Qed.

(** ** from_vec *)

Lemma check_bells_ok cl s bells cl' :
  check_bells cl s bells = Ok cl' ->
  NoDup bells /\ Forall (fun b => nth_error cl b = Some false) bells /\ length cl' = length cl /\
  forall b, nth_error cl' b = if in_dec Nat.eq_dec b bells then Some true else nth_error cl b.
Proof.
  revert cl; induction bells as [|b t IH]; intros cl; cbn [check_bells].
  - intros [= <-]. repeat split; constructor.
  - destruct (nth_error cl b) as [[|]|] eqn:E; try discriminate. intros H.
    specialize (IH _ H) as (H1 & H2 & H3 & H4).
    assert (Hb : b < length cl) by (apply nth_error_Some; congruence).
    assert (Hnot : ~ In b t).
    { intros Hin. rewrite Forall_forall in H2. specialize (H2 b Hin).
      rewrite nth_error_upd_same in H2 by auto. discriminate. }
    split; [constructor; auto|]. split; [constructor; auto|].
    + rewrite Forall_forall in *. intros x Hx. specialize (H2 x Hx).
      rewrite nth_error_upd_other in H2; auto. intros ->; auto.
    + split; [rewrite H3; apply length_upd|].
      intros c. rewrite H4.
      destruct (in_dec Nat.eq_dec c t) as [Hin|Hin], (in_dec Nat.eq_dec c (b :: t)) as [Hin'|Hin'];
        try reflexivity.
      * destruct Hin'; right; auto.
      * destruct Hin' as [<-|Hin']; [|contradiction]. apply nth_error_upd_same; auto.
      * apply nth_error_upd_other. intros ->. apply Hin'; left; auto.
Qed.

Lemma check_bells_complete cl s bells :
  NoDup bells -> Forall (fun b => nth_error cl b = Some false) bells ->
  exists cl', check_bells cl s bells = Ok cl'.
Proof.
  revert cl; induction bells as [|b t IH]; intros cl Hnd Hf; cbn [check_bells]; [eauto|].
  inversion Hnd; inversion Hf; subst. rewrite H5. apply IH; auto.
  rewrite Forall_forall in *. intros x Hx. rewrite nth_error_upd_other; auto.
  intros ->; contradiction.
Qed.

(** What a reported error says about the prefix before the offending bell. *)
Definition first_offence (n : nat) (l : list nat) (e : invalid_row_error) (s : nat) : Prop :=
  exists pre b post, l = pre ++ b :: post /\ NoDup pre /\ Forall (fun x => x < n) pre /\
    ((e = BellOutOfStage b s /\ n <= b) \/ (e = DuplicateBell b /\ In b pre)).

Lemma check_bells_err_gen cl s bells e :
  check_bells cl s bells = Err e ->
  exists pre b post, bells = pre ++ b :: post /\ NoDup pre /\
    Forall (fun x => nth_error cl x = Some false) pre /\
    ((e = BellOutOfStage b s /\ length cl <= b) \/
     (e = DuplicateBell b /\ (In b pre \/ nth_error cl b = Some true))).
Proof.
  revert cl; induction bells as [|b t IH]; intros cl; cbn [check_bells]; [discriminate|].
  destruct (nth_error cl b) as [[|]|] eqn:E.
  - intros [= <-]. exists [], b, t. splits; auto using NoDup_nil, Forall_nil.
  - intros H. specialize (IH _ H) as (pre & c & post & -> & H1 & H2 & H3).
    assert (Hb : b < length cl) by (apply nth_error_Some; congruence).
    assert (Hnot : ~ In b pre).
    { intros Hin. rewrite Forall_forall in H2. specialize (H2 b Hin).
      rewrite nth_error_upd_same in H2 by auto. discriminate. }
    exists (b :: pre), c, post. splits; [reflexivity | constructor; auto | constructor; auto |].
    + rewrite Forall_forall in *. intros x Hx. specialize (H2 x Hx).
      rewrite nth_error_upd_other in H2; auto. intros ->; auto.
    + rewrite length_upd in H3. destruct H3 as [H3 | (He & H3)]; [left; auto|].
      right; split; auto. destruct H3 as [H3 | H3]; [left; right; auto|].
      destruct (Nat.eq_dec c b) as [->|Hne]; [left; left; auto|].
      rewrite nth_error_upd_other in H3 by auto. right; auto.
  - intros [= <-]. exists [], b, t. splits; auto using NoDup_nil, Forall_nil.
    left. split; auto. apply nth_error_None; auto.
Qed.

Lemma nth_error_repeat_false n b : nth_error (repeat false n) b = Some false <-> b < n.
Proof. rewrite nth_error_repeat_iff. tauto. Qed.

Lemma check_bells_err n s bells e :
  check_bells (repeat false n) s bells = Err e -> first_offence n bells e s.
Proof.
  intros H. apply check_bells_err_gen in H as (pre & b & post & -> & H1 & H2 & H3).
  exists pre, b, post. repeat split; auto.
  - rewrite Forall_forall in *. intros x Hx. apply nth_error_repeat_false; auto.
  - rewrite repeat_length in H3. destruct H3 as [H3 | (-> & [H3 | H3])]; [left; auto | right; auto|].
    apply nth_error_repeat_iff in H3 as [_ H3]; discriminate.
Qed.

Lemma check_bells_ok_iff n s bells :
  (exists cl, check_bells (repeat false n) s bells = Ok cl) <->
  NoDup bells /\ Forall (fun b => b < n) bells.
Proof.
  split.
  - intros (cl & H). apply check_bells_ok in H as (H1 & H2 & _). split; auto.
    rewrite Forall_forall in *. intros x Hx. apply nth_error_repeat_false; auto.
  - intros [H1 H2]. apply check_bells_complete; auto.
    rewrite Forall_forall in *. intros x Hx. apply nth_error_repeat_false; auto.
Qed.

Lemma from_vec_ok l r : from_vec l = Ok r <-> valid_row l /\ r = l.
Proof.
  unfold from_vec. rewrite valid_row_iff. destruct l as [|x l].
  - split; [discriminate | intros [[H _] _]; exfalso; apply H; reflexivity].
  - remember (x :: l) as v eqn:Ev.
    assert (Hs : stage_try_from (length v) = Ok (length v)) by (subst; reflexivity).
    rewrite Hs. pose proof (check_bells_ok_iff (length v) (length v) v) as Hiff.
    destruct (check_bells _ _ _) as [cl|e].
    + split; [intros [= <-] | intros [_ ->]; auto].
      repeat split; [subst; discriminate | apply Hiff; eauto | apply Hiff; eauto].
    + split; [discriminate|]. intros [(_ & H) _]. apply Hiff in H as (cl & Hcl). discriminate.
Qed.

Lemma from_vec_err l e :
  from_vec l = Err e -> (l = [] /\ e = NoBells) \/ (l <> [] /\ first_offence (length l) l e (length l)).
Proof.
  unfold from_vec. destruct l as [|x l].
  - cbn. intros [= <-]; left; auto.
  - remember (x :: l) as v eqn:Ev.
    assert (Hs : stage_try_from (length v) = Ok (length v)) by (subst; reflexivity).
    rewrite Hs. destruct (check_bells _ _ _) as [cl|e'] eqn:E; [discriminate|].
    intros [= <-]. right. split; [subst; discriminate|]. apply check_bells_err in E. exact E.
Qed.

Lemma from_vec_total l : (exists r, from_vec l = Ok r) \/ (exists e, from_vec l = Err e).
Proof. destruct (from_vec l); eauto. Qed.

(** ** parse / display *)

Lemma row_parse_eq s : row_parse s = from_vec (filter_map bell_from_name s).
Proof. reflexivity. Qed.

Lemma filter_map_junk (junk : str) :
  (forall c, In c junk -> ~ is_bell_name_char c) -> filter_map bell_from_name junk = [].
Proof.
  induction junk as [|c t IH]; intros H; cbn [filter_map]; [reflexivity|].
  destruct (bell_from_name c) as [b|] eqn:E.
  - exfalso. apply (H c); [left; auto|]. apply from_name_defined; eauto.
  - apply IH; intros; apply H; right; auto.
Qed.

Lemma row_parse_junk a junk b :
  (forall c, In c junk -> ~ is_bell_name_char c) ->
  row_parse (a ++ junk ++ b) = row_parse (a ++ b).
Proof.
  intros H. rewrite !row_parse_eq, !filter_map_app, (filter_map_junk junk H). reflexivity.
Qed.

Lemma filter_map_display r :
  Forall (fun b => b < 33) r -> filter_map bell_from_name (row_display r) = r.
Proof.
  induction r as [|b r IH]; intros H; [reflexivity|].
  inversion H; subst. unfold row_display in *. cbn [map concat]. rewrite filter_map_app, IH by auto.
  destruct (bell_name_small b ltac:(auto)) as (c & E & Hc). rewrite E.
  apply from_name_to_char in Hc. cbn [filter_map]. rewrite Hc. reflexivity.
Qed.

Lemma parse_display r : valid_row r -> length r <= 33 -> row_parse (row_display r) = Ok r.
Proof.
  intros Hv Hlen. rewrite row_parse_eq, filter_map_display.
  - apply from_vec_ok; auto.
  - apply valid_row_Forall in Hv. eapply Forall_impl; [|exact Hv]. cbn; intros; lia.
Qed.

Lemma parse_display_large r :
  valid_row r -> 33 < length r -> row_parse (row_display r) <> Ok r.
Proof.
  intros Hv Hlen H. rewrite row_parse_eq in H. apply from_vec_ok in H as [_ H].
  assert (Hin : In 33 r) by (apply Hv; auto). rewrite H in Hin.
  apply In_filter_map in Hin as (c & _ & Hc). apply from_name_to_char in Hc.
  assert (33 < 33) by (apply to_char_defined; eauto). lia.
Qed.

(** ** from_vec_with_stage *)

Lemma check_bells_max_eq cl m s bells :
  check_bells_max cl m s bells =
  match check_bells cl s bells with
  | Err e => Err e
  | Ok cl' => Ok (cl', fold_left (fun m b => Nat.max b m) bells m)
  end.
Proof.
  revert cl m; induction bells as [|b t IH]; intros cl m; cbn [check_bells check_bells_max fold_left];
    [reflexivity|].
  destruct (nth_error cl b) as [[|]|]; auto.
Qed.

Lemma fold_max_spec l m :
  (forall b, In b l -> b <= fold_left (fun m b => Nat.max b m) l m) /\
  m <= fold_left (fun m b => Nat.max b m) l m /\
  (fold_left (fun m b => Nat.max b m) l m = m \/ In (fold_left (fun m b => Nat.max b m) l m) l).
Proof.
  revert m; induction l as [|x l IH]; intros m; cbn [fold_left In].
  - repeat split; auto. intros b [].
  - specialize (IH (Nat.max x m)) as (H1 & H2 & H3). repeat split.
    + intros b [<-|Hb]; [lia | auto].
    + lia.
    + destruct H3 as [H3|H3]; [|auto]. rewrite H3. destruct (Nat.max_dec x m) as [E|E]; rewrite E; auto.
Qed.

(** The first [length l] bells are exactly those occurring. *)
Definition initial_arrangement (l : list nat) : Prop :=
  NoDup l /\ (forall b, In b l <-> b < length l).

Lemma initial_arrangement_no_gap l :
  NoDup l -> (forall b c, In c l -> b < c -> In b l) -> initial_arrangement l.
Proof.
  intros Hnd Hgap. split; auto.
  assert (Hlt : Forall (fun b => b < length l) l).
  { apply Forall_forall. intros b Hb.
    destruct (Nat.lt_ge_cases b (length l)) as [|Hge]; auto.
    assert (Hincl : incl (seq 0 (S b)) l).
    { intros x Hx. apply in_seq in Hx. destruct (Nat.eq_dec x b) as [->|]; auto.
      apply (Hgap x b); auto; lia. }
    apply NoDup_incl_length in Hincl; [|apply seq_NoDup]. rewrite seq_length in Hincl. lia. }
  intros b; split.
  - intros Hb. rewrite Forall_forall in Hlt; auto.
  - apply NoDup_lt_all; auto.
Qed.

Lemma fvws_cases l s :
  (exists e, from_vec_with_stage l s = Ret (Err e) /\ first_offence s l e s) \/
  (NoDup l /\ Forall (fun b => b < s) l /\
   ((exists b, from_vec_with_stage l s = Ret (Err (MissingBell b)) /\
               ~ In b l /\ (forall c, c < b -> In c l) /\ (exists c, In c l /\ b < c)) \/
    (initial_arrangement l /\ length l <= s /\
     from_vec_with_stage l s = Ret (Ok (l ++ seq (length l) (s - length l)))))).
Proof.
  unfold from_vec_with_stage. rewrite check_bells_max_eq.
  destruct (check_bells (repeat false s) s l) as [cl|e] eqn:E; [|left; exists e; split; auto;
    apply check_bells_err in E; exact E].
  right. pose proof (proj1 (check_bells_ok_iff s s l) (ex_intro _ cl E)) as [Hnd Hlt].
  split; auto. split; auto.
  apply check_bells_ok in E as (_ & _ & Hlen & Hcl). rewrite repeat_length in Hlen.
  set (m := fold_left _ _ _).
  destruct (fold_max_spec l TREBLE) as (M1 & M2 & M3). fold m in M1, M2, M3.
  assert (Hm : m <= s).
  { destruct M3 as [-> | Hin]; [unfold TREBLE; lia|].
    rewrite Forall_forall in Hlt; specialize (Hlt _ Hin); lia. }
  rewrite slice_ret by lia. rewrite Nat.sub_0_r. cbn [skipn bind].
  assert (Hllen : length l <= s).
  { apply Forall_lt_incl_seq in Hlt. apply NoDup_incl_length in Hlt; auto.
    rewrite seq_length in Hlt. exact Hlt. }
  assert (Hget : forall b, b < m -> nth_error (firstn m cl) b =
             if in_dec Nat.eq_dec b l then Some true else Some false).
  { intros b Hb. rewrite nth_error_firstn. rewrite (proj2 (Nat.ltb_lt b m) Hb), Hcl.
    destruct (in_dec Nat.eq_dec b l); auto. apply nth_error_repeat_false; lia. }
  destruct (position negb (firstn m cl)) as [i|] eqn:P.
  - left. exists i. split; auto.
    apply position_Some in P as [(x & Hx & Hneg) P2].
    assert (Hi : i < m).
    { assert (i < length (firstn m cl)) by (apply nth_error_Some; congruence).
      rewrite firstn_length in H. lia. }
    split.
    { intros Hin. rewrite Hget in Hx by auto. destruct (in_dec Nat.eq_dec i l); [|contradiction].
      injection Hx as <-. discriminate. }
    split.
    { intros c Hc. destruct (in_dec Nat.eq_dec c l) as [|Hn]; auto.
      specialize (P2 c false Hc). rewrite Hget in P2 by lia.
      destruct (in_dec Nat.eq_dec c l); [contradiction|]. specialize (P2 eq_refl). discriminate. }
    { exists m. split; auto. destruct M3 as [M3|M3]; auto. unfold TREBLE in M3; lia. }
  - right. rewrite position_None in P.
    split.
    { apply initial_arrangement_no_gap; auto.
      intros b c Hc Hbc. specialize (M1 c Hc).
      destruct (in_dec Nat.eq_dec b l) as [|Hn]; auto.
      specialize (P false). assert (In false (firstn m cl)) as Hf.
      { apply nth_error_In with b. rewrite Hget by lia. destruct (in_dec Nat.eq_dec b l); tauto. }
      specialize (P Hf). discriminate. }
    split; auto. rewrite (proj2 (Nat.leb_le _ _) Hllen). reflexivity.
Qed.

Lemma initial_arrangement_extend l s :
  initial_arrangement l -> length l <= s -> 0 < s ->
  valid_row (l ++ seq (length l) (s - length l)).
Proof.
  intros [Hnd Hin] Hlen Hs. apply valid_row_iff.
  assert (HL : length (l ++ seq (length l) (s - length l)) = s)
    by (rewrite app_length, seq_length; lia).
  split; [intros H; rewrite H in HL; cbn in HL; lia|].
  split.
  - apply NoDup_app_intro; [auto | apply seq_NoDup|].
    intros x Hx Hx'. apply Hin in Hx. apply in_seq in Hx'. lia.
  - rewrite HL. apply Forall_forall. intros x Hx. apply in_app_iff in Hx as [Hx|Hx].
    + apply Hin in Hx; lia.
    + apply in_seq in Hx; lia.
Qed.
