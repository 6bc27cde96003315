(** Proofs about powers, closures, products of sets and groups of rows. *)
From Verif Require Import Base Bell Stage Parity Row ListFacts BellFacts RowFacts MulFacts Spec.
Local Open Scope list_scope.

(** ** Powers *)

Fixpoint rpow (r : row) (n : nat) : row :=
  match n with
  | O => row_rounds (length r)
  | S n' => rmul (rpow r n') r
  end.

Lemma vrow_rpow n r k : vrow n r -> vrow n (rpow r k).
Proof.
  intros H. induction k as [|k IH]; cbn [rpow].
  - rewrite (proj2 H). apply valid_rounds. rewrite <- (proj2 H). apply valid_row_pos, H.
  - apply valid_rmul; auto.
Qed.

Lemma power_rpow n r k : vrow n r -> power r k (rpow r k).
Proof.
  intros H. induction k as [|k IH]; cbn [rpow].
  - apply power_0; [apply length_rounds | apply rounds_identity].
  - eapply power_S; [exact IH|]. eapply composition_vrow; eauto using vrow_rpow.
Qed.

Lemma power_fun r k p : power r k p -> p = rpow r k.
Proof.
  induction 1 as [p L H | k p q H IH C]; cbn [rpow].
  - apply identity_rounds in H. rewrite L in H. exact H.
  - apply composition_fun in C. subst; reflexivity.
Qed.

Lemma rpow_1 n r : vrow n r -> rpow r 1 = r.
Proof. intros H. cbn [rpow]. rewrite (proj2 H). apply rmul_rounds_l_vrow; auto. Qed.

Lemma rpow_add n r a b : vrow n r -> rpow r (a + b) = rmul (rpow r a) (rpow r b).
Proof.
  intros H. induction b as [|b IH].
  - rewrite Nat.add_0_r. cbn [rpow]. symmetry. rewrite (proj2 H).
    apply rmul_rounds_r. apply (vrow_rpow n r a H).
  - rewrite Nat.add_succ_r. cbn [rpow]. rewrite IH.
    apply (rmul_assoc_vrow n); auto. apply vrow_rpow; auto.
Qed.

Lemma rpow_comm n r a : vrow n r -> rmul r (rpow r a) = rmul (rpow r a) r.
Proof.
  intros H. change (rmul (rpow r a) r) with (rpow r (S a)).
  replace (S a) with (1 + a) by lia. rewrite (rpow_add n) by auto. rewrite (rpow_1 n) by auto.
  reflexivity.
Qed.

Lemma rpow_mul_rounds n r k q : vrow n r -> rpow r k = row_rounds n -> rpow r (k * q) = row_rounds n.
Proof.
  intros H Hk. induction q as [|q IH].
  - rewrite Nat.mul_0_r. cbn [rpow]. rewrite (proj2 H); auto.
  - rewrite Nat.mul_succ_r, (rpow_add n), IH, Hk by auto. apply rmul_rounds_r, length_rounds.
Qed.

Lemma rpow_rinv n r k : vrow n r -> rpow (rinv r) k = rinv (rpow r k).
Proof.
  intros H. pose proof (valid_rinv n r H) as Hi.
  assert (Hn : 0 < n) by (rewrite <- (proj2 H); apply valid_row_pos, H).
  induction k as [|k IH]; cbn [rpow].
  - rewrite length_rinv. symmetry. rewrite (proj2 H). apply rinv_rounds; auto.
  - rewrite IH. rewrite <- (rpow_comm n) by auto.
    rewrite (rinv_rmul n) by auto using vrow_rpow. reflexivity.
Qed.

(** ** Finite order *)

Fixpoint lists_upto (m : nat) (n : nat) : list (list nat) :=
  match n with
  | O => [[]]
  | S n' => flat_map (fun x => map (cons x) (lists_upto m n')) (seq 0 m)
  end.

Lemma in_lists_upto m n l : length l = n -> Forall (fun x => x < m) l -> In l (lists_upto m n).
Proof.
  revert l; induction n as [|n IH]; intros l L H.
  - destruct l; [left; auto | discriminate].
  - destruct l as [|x l]; [discriminate|]. inversion H; subst. cbn [lists_upto].
    apply in_flat_map. exists x. split; [apply in_seq; lia|].
    apply in_map. apply IH; auto.
Qed.

Definition universe (n : nat) : list row := lists_upto n n.

Lemma vrow_universe n r : vrow n r -> In r (universe n).
Proof.
  intros [H L]. apply in_lists_upto; auto. rewrite <- L. apply valid_row_Forall; auto.
Qed.

Lemma not_NoDup_dup {A} (dec_ : forall x y : A, {x = y} + {x <> y}) (f : nat -> A) N :
  ~ NoDup (map f (seq 0 N)) -> exists i j, i < j /\ f i = f j.
Proof.
  intros H. induction N as [|N IH]; [exfalso; apply H; constructor|].
  rewrite seq_S, map_app in H. cbn [map Nat.add] in H.
  destruct (in_dec dec_ (f N) (map f (seq 0 N))) as [Hin|Hnot].
  - apply in_map_iff in Hin as (i & Hi & Hs). apply in_seq in Hs. exists i, N. split; [lia|auto].
  - apply IH. intros Hnd. apply H. apply NoDup_app_intro; auto.
    + constructor; [intros []|constructor].
    + intros x Hx [<-|[]]. contradiction.
Qed.

Lemma finite_order n r : vrow n r -> exists k, 0 < k /\ rpow r k = row_rounds n.
Proof.
  intros H. set (N := S (length (universe n))).
  destruct (not_NoDup_dup (list_eq_dec Nat.eq_dec) (rpow r) N) as (i & j & Hij & E).
  - intros Hnd. assert (Hincl : incl (map (rpow r) (seq 0 N)) (universe n)).
    { intros x Hx. apply in_map_iff in Hx as (k & <- & _). apply vrow_universe, vrow_rpow; auto. }
    apply NoDup_incl_length in Hincl; auto. rewrite map_length, seq_length in Hincl. unfold N in Hincl. lia.
  - exists (j - i). split; [lia|].
    replace j with (i + (j - i)) in E by lia. rewrite (rpow_add n) in E by auto.
    symmetry. apply (rmul_cancel_l n (rpow r i)).
    + apply vrow_rpow; auto.
    + apply valid_rounds. rewrite <- (proj2 H). apply valid_row_pos, H.
    + apply vrow_rpow; auto.
    + rewrite <- E. apply rmul_rounds_r. apply (vrow_rpow n r i H).
Qed.

Lemma least_order n r : vrow n r ->
  exists k, 0 < k /\ rpow r k = row_rounds n /\ forall j, 0 < j < k -> rpow r j <> row_rounds n.
Proof.
  intros H. destruct (finite_order n r H) as (K & HK & EK).
  revert HK EK. induction K as [K IH] using lt_wf_ind. intros HK EK.
  assert (D : forall B, (exists j, 0 < j < B /\ rpow r j = row_rounds n) \/
                        (forall j, 0 < j < B -> rpow r j <> row_rounds n)).
  { induction B as [|B [ (j & Hj & E) | IHB ]].
    - right; intros; lia.
    - left; exists j; split; [lia|auto].
    - destruct (Nat.eq_dec B 0) as [->|HB]; [right; intros; lia|].
      destruct (list_eq_dec Nat.eq_dec (rpow r B) (row_rounds n)) as [E|E].
      + left; exists B; split; [lia|auto].
      + right. intros j Hj. destruct (Nat.eq_dec j B) as [->|]; auto. apply IHB; lia. }
  destruct (D K) as [(j & Hj & E) | Hnone].
  - apply (IH j); try lia; auto.
  - exists K; auto.
Qed.

(** ** Closure *)

Lemma closure_loop_ok n r m : vrow n r -> rpow r m = row_rounds n ->
  forall d k fuel, k + d = m -> (forall j, k <= j < m -> rpow r j <> row_rounds n) -> d < fuel ->
  closure_loop fuel r (rpow r k) = Ret (map (rpow r) (seq k (S d))).
Proof.
  intros H Hm. induction d as [|d IH]; intros k fuel Hk Hnone Hf; (destruct fuel as [|fuel]; [lia|]);
    cbn [closure_loop].
  - rewrite Nat.add_0_r in Hk. subst k. rewrite (proj2 (is_rounds_vrow n _ (proj2 (vrow_rpow n r m H)))) by auto.
    reflexivity.
  - destruct (is_rounds (rpow r k)) eqn:E.
    + apply (is_rounds_vrow n) in E; [|apply vrow_rpow; auto]. exfalso. apply (Hnone k); auto; lia.
    + rewrite (mul_unchecked_vrow n) by auto using vrow_rpow. cbn [bind].
      change (rmul (rpow r k) r) with (rpow r (S k)). rewrite IH; [|lia| |lia].
      * reflexivity.
      * intros j Hj; apply Hnone; lia.
Qed.

Lemma closure_from_rounds_loop_ok n r m : vrow n r -> rpow r m = row_rounds n ->
  forall d k fuel, k + S d = m -> (forall j, k < j < m -> rpow r j <> row_rounds n) -> d < fuel ->
  closure_from_rounds_loop fuel r (rpow r k) = Ret (map (rpow r) (seq k (S d))).
Proof.
  intros H Hm. induction d as [|d IH]; intros k fuel Hk Hnone Hf; (destruct fuel as [|fuel]; [lia|]);
    cbn [closure_from_rounds_loop]; rewrite (mul_unchecked_vrow n) by auto using vrow_rpow; cbn [bind];
    change (rmul (rpow r k) r) with (rpow r (S k)).
  - replace (S k) with m by lia.
    rewrite (proj2 (is_rounds_vrow n _ (proj2 (vrow_rpow n r m H)))) by auto. reflexivity.
  - destruct (is_rounds (rpow r (S k))) eqn:E.
    + apply (is_rounds_vrow n) in E; [|apply vrow_rpow; auto]. exfalso. apply (Hnone (S k)); auto; lia.
    + rewrite IH; [reflexivity|lia| |lia]. intros j Hj; apply Hnone; lia.
Qed.

Lemma rpow_mod n r k : vrow n r -> 0 < k -> rpow r k = row_rounds n -> forall j, rpow r j = rpow r (j mod k).
Proof.
  intros H Hk E j. rewrite (Nat.div_mod j k) at 1 by lia. rewrite (rpow_add n), (rpow_mul_rounds n) by auto.
  apply rmul_rounds_l_vrow, vrow_rpow; auto.
Qed.

Lemma rpow_NoDup n r k : vrow n r -> (forall j, 0 < j < k -> rpow r j <> row_rounds n) ->
  forall a, NoDup (map (rpow r) (seq a k)).
Proof.
  intros H Hleast a.
  assert (Hlt : forall x y, a <= x -> x < y -> y < a + k -> rpow r x <> rpow r y).
  { intros x y Hx Hxy Hy E. apply (Hleast (y - x)); [lia|].
    replace y with (x + (y - x)) in E by lia. rewrite (rpow_add n) in E by auto.
    symmetry. apply (rmul_cancel_l n (rpow r x)); auto using vrow_rpow.
    - apply valid_rounds. rewrite <- (proj2 H). apply valid_row_pos, H.
    - rewrite <- E. apply rmul_rounds_r. apply (vrow_rpow n r x H). }
  apply NoDup_map_inj; [|apply seq_NoDup]. intros x y Hx Hy E. apply in_seq in Hx, Hy.
  destruct (Nat.lt_trichotomy x y) as [L|[L|L]]; auto.
  - exfalso; apply (Hlt x y); auto; lia.
  - exfalso; apply (Hlt y x); auto; lia.
Qed.

Lemma closure_ok n r : vrow n r ->
  exists k, 0 < k /\ rpow r k = row_rounds n /\ (forall j, 0 < j < k -> rpow r j <> row_rounds n) /\
    (forall fuel, k < fuel -> closure fuel r = Ret (map (rpow r) (seq 1 k))) /\
    (forall fuel, k < fuel -> closure_from_rounds fuel r = Ret (map (rpow r) (seq 0 k))).
Proof.
  intros H. destruct (least_order n r H) as (k & Hk & E & Hl). exists k. splits; auto.
  - intros fuel Hf. unfold closure. pose proof (closure_loop_ok n r k H E (k - 1) 1 fuel) as C.
    rewrite (rpow_1 n) in C by auto. rewrite C; [|lia|intros; apply Hl; lia|lia].
    do 3 f_equal; lia.
  - intros fuel Hf. unfold closure_from_rounds. rewrite valid_row_stage by apply H. cbn [bind].
    change (row_rounds (length r)) with (rpow r 0).
    rewrite (closure_from_rounds_loop_ok n r k H E (k - 1)); [|lia|intros; apply Hl; lia|lia].
    do 3 f_equal; lia.
Qed.

(** ** Accumulator, pow_u, pow_i *)

Lemma acc_accumulate_ok n a r : vrow n (acc_total a) -> vrow n r ->
  acc_accumulate a r = Ret (Accumulator (rmul (acc_total a) r) (acc_total a), Ok tt).
Proof. intros Ha Hr. unfold acc_accumulate. erewrite mul_into_ok by eauto. reflexivity. Qed.

Lemma acc_accumulate_err a r : valid_row (acc_total a) -> valid_row r ->
  length (acc_total a) <> length r ->
  acc_accumulate a r = Ret (a, Err (IncompatibleStages (length (acc_total a)) (length r))).
Proof.
  intros Ha Hr H. unfold acc_accumulate. rewrite mul_into_err by auto. cbn [bind].
  destruct a; reflexivity.
Qed.

Lemma acc_pre_accumulate_ok n a r : vrow n (acc_total a) -> vrow n r ->
  acc_pre_accumulate a r = Ret (Accumulator (rmul r (acc_total a)) (acc_total a), Ok tt).
Proof. intros Ha Hr. unfold acc_pre_accumulate. erewrite mul_into_ok by eauto. reflexivity. Qed.

Lemma acc_pre_accumulate_err a r : valid_row (acc_total a) -> valid_row r ->
  length (acc_total a) <> length r ->
  acc_pre_accumulate a r = Ret (a, Err (IncompatibleStages (length r) (length (acc_total a)))).
Proof.
  intros Ha Hr H. unfold acc_pre_accumulate. rewrite mul_into_err by auto. cbn [bind].
  destruct a; reflexivity.
Qed.

Lemma pow_loop_ok n r k : vrow n r -> forall a, vrow n (acc_total a) ->
  exists t, pow_loop a r k = Ret (Accumulator (rmul (acc_total a) (rpow r k)) t).
Proof.
  intros H. induction k as [|k IH]; intros a Ha; cbn [pow_loop].
  - exists (acc_temp a). cbn [rpow]. rewrite (proj2 H), rmul_rounds_r by apply Ha. destruct a; reflexivity.
  - rewrite (acc_accumulate_ok n) by auto. cbn [bind unwrap_res].
    destruct (IH (Accumulator (rmul (acc_total a) r) (acc_total a))) as (t & E).
    + cbn. apply valid_rmul; auto.
    + exists t. rewrite E. cbn [acc_total]. f_equal. f_equal.
      rewrite (rmul_assoc_vrow n) by auto using vrow_rpow. rewrite (rpow_comm n) by auto. reflexivity.
Qed.

Lemma pow_u_ok n r k : vrow n r -> pow_u r k = Ret (rpow r k).
Proof.
  intros H. unfold pow_u. rewrite valid_row_stage by apply H. cbn [bind].
  assert (Hr : vrow n (row_rounds (length r))).
  { rewrite (proj2 H). apply valid_rounds. rewrite <- (proj2 H). apply valid_row_pos, H. }
  unfold acc_rounds, acc_new. rewrite valid_row_stage by apply Hr. cbn [bind].
  destruct (pow_loop_ok n r k H (Accumulator (row_rounds (length r)) (row_rounds (length (row_rounds (length r))))))
    as (t & E); [exact Hr|].
  rewrite E. cbn [bind acc_total]. f_equal. rewrite (proj2 H). apply rmul_rounds_l_vrow, vrow_rpow; auto.
Qed.

Lemma pow_i_ok n r e : vrow n r ->
  pow_i r e = Ret (if (e <? 0)%Z then rpow (rinv r) (Z.to_nat (- e)) else rpow r (Z.to_nat e)).
Proof.
  intros H. unfold pow_i. destruct (e <? 0)%Z.
  - rewrite row_inv_ok by apply H. cbn [bind]. eapply pow_u_ok, valid_rinv; eauto.
  - eapply pow_u_ok; eauto.
Qed.

Definition zpow (r : row) (e : Z) : row :=
  if (e <? 0)%Z then rpow (rinv r) (Z.to_nat (- e)) else rpow r (Z.to_nat e).

Lemma vrow_zpow n r e : vrow n r -> vrow n (zpow r e).
Proof. intros H. unfold zpow. destruct (e <? 0)%Z; apply vrow_rpow; auto using valid_rinv. Qed.

Lemma zpow_succ n r e : vrow n r -> zpow r (e + 1) = rmul (zpow r e) r.
Proof.
  intros H. unfold zpow. pose proof (valid_rinv n r H) as Hi.
  destruct (Z.ltb_spec e 0) as [L|L].
  - destruct (Z.ltb_spec (e + 1) 0) as [L'|L'].
    + replace (Z.to_nat (- e)) with (S (Z.to_nat (- (e + 1)))) by lia. cbn [rpow].
      rewrite (rmul_assoc_vrow n) by auto. rewrite (rmul_rinv_l n r H).
      symmetry. apply rmul_rounds_r. apply (vrow_rpow n (rinv r)); auto.
    + replace (Z.to_nat (e + 1)) with 0 by lia. replace (Z.to_nat (- e)) with 1 by lia.
      rewrite (rpow_1 n) by auto. rewrite (rmul_rinv_l n r H). cbn [rpow]. rewrite (proj2 H); auto.
  - rewrite (proj2 (Z.ltb_ge _ _)) by lia. replace (Z.to_nat (e + 1)) with (S (Z.to_nat e)) by lia.
    reflexivity.
Qed.

Lemma zpow_pred n r e : vrow n r -> zpow r (e - 1) = rmul (zpow r e) (rinv r).
Proof.
  intros H. pose proof (valid_rinv n r H) as Hi.
  replace (zpow r e) with (rmul (zpow r (e - 1)) r).
  - rewrite (rmul_assoc_vrow n) by auto. rewrite (rmul_rinv_r n r H).
    symmetry; apply rmul_rounds_r. apply (vrow_zpow n r (e - 1) H).
  - rewrite <- (zpow_succ n) by auto. f_equal; lia.
Qed.

Lemma zpow_add n r a b : vrow n r -> zpow r (a + b) = rmul (zpow r a) (zpow r b).
Proof.
  intros H. pose proof (valid_rinv n r H) as Hi. revert b. apply Z.bi_induction.
  - intros x y ->; tauto.
  - rewrite Z.add_0_r. change (zpow r 0) with (row_rounds (length r)). rewrite (proj2 H).
    symmetry; apply rmul_rounds_r. apply (vrow_zpow n r a H).
  - intros b. rewrite <- !Z.add_1_r, Z.add_assoc, !(zpow_succ n r) by auto.
    pose proof (vrow_zpow n r a H) as Va. pose proof (vrow_zpow n r b H) as Vb.
    split.
    + intros ->. apply (rmul_assoc_vrow n); auto.
    + intros E. apply (rmul_cancel_r n r); auto using vrow_zpow, valid_rmul.
      rewrite E. symmetry. apply (rmul_assoc_vrow n); auto.
Qed.

(** ** multi_cartesian_product *)

Lemma mcp_first_ok n set : Forall (vrow n) set ->
  forall st, st = None \/ st = Some n ->
  mcp_first st set = Ret (Ok (match set with [] => st | _ => Some n end, set)).
Proof.
  induction set as [|r t IH]; intros H st Hst; cbn [mcp_first]; [reflexivity|].
  inversion H as [|? ? Hr Ht]; subst. rewrite valid_row_stage by apply Hr. cbn [bind].
  rewrite (proj2 Hr).
  assert (E : test_err_opt st n = (Some n, Ok tt)).
  { destruct Hst as [-> | ->]; cbn; [reflexivity|]. unfold test_err; rewrite Nat.eqb_refl; reflexivity. }
  rewrite E. rewrite IH by auto. cbn [bind]. destruct t; reflexivity.
Qed.

Lemma mcp_step_ok n from set : Forall (vrow n) from -> Forall (vrow n) set ->
  mcp_step n from set = Ret (Ok (flat_map (fun r2 => map (fun r1 => rmul r1 r2) from) set)).
Proof.
  intros Hf. induction set as [|r t IH]; intros H; cbn [mcp_step flat_map]; [reflexivity|].
  inversion H as [|? ? Hr Ht]; subst. rewrite valid_row_stage by apply Hr. cbn [bind].
  rewrite (proj2 Hr). unfold test_err; rewrite Nat.eqb_refl.
  rewrite (mapM_ret _ (fun r1 => rmul r1 r)).
  - cbn [bind]. rewrite IH by auto. reflexivity.
  - intros r1 Hr1. rewrite Forall_forall in Hf. apply (mul_unchecked_vrow n); auto.
Qed.

Definition mstep (from set : list row) : list row :=
  flat_map (fun r2 => map (fun r1 => rmul r1 r2) from) set.

Lemma mstep_vrow n from set : Forall (vrow n) from -> Forall (vrow n) set -> Forall (vrow n) (mstep from set).
Proof.
  rewrite !Forall_forall. intros Hf Hs x Hx. unfold mstep in Hx. apply in_flat_map in Hx as (r2 & H2 & Hx).
  apply in_map_iff in Hx as (r1 & <- & H1). apply valid_rmul; auto.
Qed.

Lemma mstep_nil set : mstep [] set = [].
Proof. induction set; auto. Qed.

Lemma mcp_loop_ok n sets : Forall (Forall (vrow n)) sets -> forall from, Forall (vrow n) from ->
  mcp_loop (Some n) from sets = Ret (Ok (fold_left mstep sets from)).
Proof.
  induction sets as [|set t IH]; intros H from Hf; cbn [mcp_loop fold_left]; [reflexivity|].
  inversion H as [|? ? Hs Ht]; subst. destruct from as [|f from].
  - rewrite mstep_nil. clear. induction t as [|s t IH]; cbn [fold_left]; auto. rewrite mstep_nil; auto.
  - cbn [unwrap bind]. rewrite mcp_step_ok by auto. cbn [bind]. fold (mstep (f :: from) set).
    apply IH; auto. apply mstep_vrow; auto.
Qed.

Lemma mcp_loop_nil st sets : mcp_loop st [] sets = Ret (Ok []).
Proof. destruct sets; reflexivity. Qed.

Lemma fold_mstep_nil t : fold_left mstep t [] = [].
Proof. induction t as [|s t IH]; cbn [fold_left]; auto. rewrite mstep_nil; auto. Qed.

Lemma mcp_ok n set sets : Forall (Forall (vrow n)) (set :: sets) ->
  multi_cartesian_product (set :: sets) = Ret (Ok (fold_left mstep sets set)).
Proof.
  intros H. inversion H as [|? ? Hs Ht]; subst. unfold multi_cartesian_product.
  rewrite (mcp_first_ok n) by auto. cbn [bind]. destruct set as [|r set].
  - rewrite mcp_loop_nil, fold_mstep_nil. reflexivity.
  - apply mcp_loop_ok; auto.
Qed.

(** the products, as the products of all picks *)
Lemma Permutation_flat_map_swap {A B C} (f : A -> B -> C) (la : list A) (lb : list B) :
  Permutation (flat_map (fun b => map (fun a => f a b) la) lb)
              (flat_map (fun a => map (fun b => f a b) lb) la).
Proof.
  revert la; induction lb as [|b lb IH]; intros la.
  - cbn. induction la; cbn; auto.
  - cbn [flat_map]. rewrite IH. clear IH. induction la as [|a la IHa]; cbn; auto.
    constructor. rewrite <- IHa. rewrite !app_assoc. apply Permutation_app_tail.
    apply Permutation_app_comm.
Qed.

Lemma Permutation_flat_map {A B} (f g : A -> list B) l :
  (forall x, In x l -> Permutation (f x) (g x)) -> Permutation (flat_map f l) (flat_map g l).
Proof.
  induction l as [|x l IH]; intros H; cbn; auto.
  apply Permutation_app; [apply H; left; auto | apply IH; intros; apply H; right; auto].
Qed.

(* product of [p] with the rows of a pick *)
Definition times (p : row) (xs : list row) : row := fold_left rmul xs p.

Lemma fold_mstep_picks sets : forall from,
  Permutation (fold_left mstep sets from)
              (flat_map (fun p => map (times p) (picks sets)) from).
Proof.
  induction sets as [|set t IH]; intros from; cbn [fold_left picks].
  - induction from as [|x from IHf]; cbn; auto.
  - rewrite IH. unfold mstep.
    rewrite (Permutation_flat_map (fun p => map (times p) (flat_map (fun x => map (cons x) (picks t)) set))
                                  (fun p => flat_map (fun x => map (times (rmul p x)) (picks t)) set) from).
    2: { intros p _. rewrite flat_map_concat_map, concat_map, map_map, <- flat_map_concat_map.
         apply Permutation_flat_map. intros x _. rewrite map_map. cbn. reflexivity. }
    rewrite (Permutation_flat_map_swap rmul from set).
    induction from as [|p from IHf]; cbn [flat_map]; auto.
    rewrite flat_map_app. apply Permutation_app; [|exact IHf].
    rewrite !flat_map_concat_map, map_map. reflexivity.
Qed.

(** ** [is_product] *)

Lemma is_product_cons n x xs p : Forall (vrow n) xs -> vrow n x -> vrow n p ->
  is_product xs p -> is_product (x :: xs) (rmul x p).
Proof.
  intros Hf Hx Hp H. revert Hf Hp. induction H as [y | xs p y q H IH C]; intros Hf Hp.
  - change [x; y] with ([x] ++ [y]). econstructor; [constructor|]. inversion Hf; subst.
    apply (composition_vrow n); auto.
  - apply Forall_app in Hf as [Hf Hy]. inversion Hy; subst.
    apply composition_fun in C as E. subst q.
    assert (Vp : vrow n p).
    { clear - Hf H. induction H as [z|zs p z q H IH C]; [inversion Hf; auto|].
      apply Forall_app in Hf as [Hf Hz]. inversion Hz; subst. apply composition_fun in C. subst q.
      apply valid_rmul; auto. }
    change (x :: xs ++ [y]) with ((x :: xs) ++ [y]). econstructor; [apply IH; auto|].
    rewrite <- (rmul_assoc_vrow n) by auto. apply (composition_vrow n); auto. apply valid_rmul; auto.
Qed.
