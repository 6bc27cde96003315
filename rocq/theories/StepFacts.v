(** Facts about the number of elements which [run_match] asks for. *)
From Verif Require Import Base Bell Row Music Steps ListFacts.
Local Open Scope list_scope.

Lemma c_skip_ok b bells :
  match c_skip_to b bells with
  | (Some (i, t), n) => skip_to b bells = Some (i, t) /\ n + length t = length bells
  | (None, n) => skip_to b bells = None /\ n = length bells + 1
  end.
Proof.
  induction bells as [|[i x] t IH]; cbn; auto. destruct (x =? b); [auto|]. destruct (c_skip_to b t) as [[[j u]|] n]; cbn in *; split; try tauto; lia.
Qed.

(** No other outcome, and at most one call for each element and each bell, and one more. *)
Lemma c_run_ok : forall es bells ms,
  match c_run_match es bells ms with
  | Ret (x, a) => run_match es bells ms = Ret x /\ of_elems a <= length es + 1 /\ of_bells a <= length bells + 1 /\
      (fst x = true -> of_elems a = length es + 1 /\ (last es RAny <> RGlob -> of_bells a = length bells + 1))
  | Panic => run_match es bells ms = Panic
  | Ub => False
  | NoFuel => False
  end.
Proof.
  intros es. induction es as [es IH] using (induction_ltof1 _ (@length regex_elem)). unfold ltof in IH. intros bells ms.
  assert (L : forall (e : regex_elem) es, last (e :: es) RAny <> RGlob -> last es RAny <> RGlob) by (intros e [|e' es'] H; [discriminate|exact H]).
  destruct es as [|e es].
  - destruct bells; cbn; splits; auto; try lia; intros; discriminate.
  - destruct e as [b| |].
    + cbn [c_run_match run_match]. destruct bells as [|[i x] t]; [cbn; splits; auto; try lia; discriminate|].
      destruct (x =? b); [|cbn; splits; auto; try lia; discriminate].
      specialize (IH es ltac:(cbn; lia) t (ms ++ [i])). unfold after. destruct (c_run_match es t (ms ++ [i])) as [[y a]| | |]; cbn in *; auto.
      destruct IH as (E & B1 & B2 & B3). splits; auto; try lia. intros V. destruct (B3 V) as [B4 B5]. split; [lia|]. intros H. rewrite B5; [lia|]. apply (L (RBell b)); exact H.
    + cbn [c_run_match run_match]. destruct bells as [|[i x] t]; [cbn; splits; auto; try lia; discriminate|].
      specialize (IH es ltac:(cbn; lia) t ms). unfold after. destruct (c_run_match es t ms) as [[y a]| | |]; cbn in *; auto.
      destruct IH as (E & B1 & B2 & B3). splits; auto; try lia. intros V. destruct (B3 V) as [B4 B5]. split; [lia|]. intros H. rewrite B5; [lia|]. apply (L RAny); exact H.
    + cbn [c_run_match run_match]. destruct es as [|[b| |] es]; cbn -[last] in *; auto.
      * splits; auto; try lia. intros _. split; [reflexivity|]. intros Q. exfalso. apply Q. reflexivity.
      * pose proof (c_skip_ok b bells) as K. destruct (c_skip_to b bells) as [[[i t]|] n]; destruct K as [-> K].
        2:{ cbn. splits; auto; try lia; try discriminate. }
        specialize (IH es ltac:(cbn; lia) t (ms ++ [i])). unfold after. destruct (c_run_match es t (ms ++ [i])) as [[y a]| | |]; cbn -[last] in *; auto.
        destruct IH as (E & B1 & B2 & B3). splits; auto; try lia. intros V. destruct (B3 V) as [B4 B5]. split; [lia|]. intros H. rewrite B5; [lia|].
        apply (L (RBell b)), (L RGlob); exact H.
Qed.
From Verif Require Import MusicFacts.

Lemma norm_shorter es : forall k g, length (norm es k g) <= k + (if g then 1 else 0) + length es.
Proof.
  induction es as [|[b| |] es IH]; intros k g; cbn [norm].
  - rewrite app_length, repeat_length. destruct g; unfold glob_if; cbn [length]; lia.
  - rewrite !app_length, repeat_length. cbn [length]. specialize (IH 0 false). destruct g; unfold glob_if; cbn [length] in *; lia.
  - specialize (IH (S k) g). cbn [length]. lia.
  - specialize (IH k true). cbn [length]. destruct g; cbn iota in *; lia.
Qed.

(** ** The group test *)

Lemma c_inner_ok set b_inv todo : forall buf,
  match is_group_inner set b_inv buf todo with
  | Ret (buf', ok) => exists n, c_is_group_inner set b_inv buf todo = Ret (buf', ok, n) /\ n <= length todo /\
      (ok = true -> n = length todo) /\ (ok = false -> 0 < n)
  | Panic => c_is_group_inner set b_inv buf todo = Panic
  | Ub => c_is_group_inner set b_inv buf todo = Ub
  | NoFuel => c_is_group_inner set b_inv buf todo = NoFuel
  end.
Proof.
  induction todo as [|a t IH]; intros buf; cbn [is_group_inner c_is_group_inner].
  - exists 0. cbn. splits; auto; discriminate.
  - destruct (mul_into_unchecked a b_inv buf) as [buf'| | |]; cbn [bind]; auto.
    destruct (row_mem buf' set).
    + specialize (IH buf'). destruct (is_group_inner set b_inv buf' t) as [[buf'' ok]| | |]; try (rewrite IH; reflexivity).
      destruct IH as (n & E & L & T & F). rewrite E. cbn [bind]. exists (1 + n). cbn [length]. splits; auto; intros; try lia.
    + exists 1. cbn [length]. splits; auto; try lia.
Qed.

Lemma c_outer_ok set todo : forall b_inv buf,
  match is_group_outer set b_inv buf todo with
  | Ret ok => exists n k, c_is_group_outer set b_inv buf todo = Ret (ok, n, k) /\ k <= length todo /\
      (ok = true -> n = length todo * length set /\ k = length todo) /\
      (ok = false -> 0 < k /\ (k - 1) * length set < n <= k * length set)
  | Panic => c_is_group_outer set b_inv buf todo = Panic
  | Ub => c_is_group_outer set b_inv buf todo = Ub
  | NoFuel => c_is_group_outer set b_inv buf todo = NoFuel
  end.
Proof.
  induction todo as [|b t IH]; intros b_inv buf; cbn [is_group_outer c_is_group_outer].
  - exists 0, 0. cbn. splits; auto; discriminate.
  - destruct (inv_into_buf b b_inv) as [b_inv'| | |]; cbn [bind]; auto.
    pose proof (c_inner_ok set b_inv' set buf) as H. destruct (is_group_inner set b_inv' buf set) as [[buf' ok]| | |];
      cbn [bind]; try (rewrite H; reflexivity).
    destruct H as (n & E & L & T & F). rewrite E. cbn [bind]. destruct ok.
    + specialize (IH b_inv' buf'). destruct (is_group_outer set b_inv' buf' t) as [ok'| | |]; try (rewrite IH; reflexivity).
      destruct IH as (n' & k & E' & L' & T' & F'). rewrite E'. cbn [bind]. rewrite T by auto. exists (length set + n'), (1 + k).
      cbn [length]. splits; auto; try lia.
      * intros O. destruct (T' O). subst. split; lia.
      * intros O. destruct (F' O) as (P & Q & R). split; [lia|]. destruct k as [|k]; [lia|].
        cbn in *. rewrite Nat.sub_0_r in *. lia.
    + exists n, 1. cbn [length]. specialize (F eq_refl). splits; auto; try discriminate; try lia.
Qed.

Lemma c_is_group_ok set :
  match is_group_set set with
  | Ret (Ok ok) => exists n k, c_is_group_set set = Ret (Ok ok, n, k) /\ k <= length set /\
      (ok = true -> n = length set * length set /\ k = length set) /\
      (ok = false -> set <> [] -> 0 < k /\ (k - 1) * length set < n <= k * length set)
  | Ret (Err e) => c_is_group_set set = Ret (Err e, 0, 0)
  | Panic => c_is_group_set set = Panic
  | Ub => c_is_group_set set = Ub
  | NoFuel => c_is_group_set set = NoFuel
  end.
Proof.
  unfold is_group_set, c_is_group_set. destruct set as [|r t].
  - exists 0, 0. splits; auto; try discriminate. intros _ H. congruence.
  - destruct (is_group_stages None (r :: t)) as [[[]|e]| | |]; cbn [bind]; auto.
    pose proof (c_outer_ok (r :: t) (r :: t) (row_rounds 1) (row_rounds 1)) as H.
    destruct (is_group_outer (r :: t) (row_rounds 1) (row_rounds 1) (r :: t)) as [ok| | |]; cbn [bind]; try (rewrite H; reflexivity).
    destruct H as (n & k & E & L & T & F). rewrite E. cbn [bind]. exists n, k. splits; auto.
Qed.
