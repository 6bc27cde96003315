(** Property theorems C118: renaming the bells does not change what rows do. *)

(* Generated from tools/props/Conj.src: the proofs behind PropsConj.v. *)
From Verif Require Import Base Spec ListFacts Bell Stage Parity Row RowFacts MulFacts ParityFacts GroupFacts CoverFacts SpecConj ConjFacts RowThms GroupThms.
Local Open Scope list_scope.

Lemma pf_C118_renaming :
  forall x r, valid_row x -> valid_row r -> length x = length r ->
    exists xi xr r', row_inv x = Ret xi /\ row_mul x r = Ret xr /\ row_mul xr xi = Ret r' /\ valid_row r' /\
      forall c, renamed x r c <-> c = r'.
Proof.
  intros x r Vx Vr L. set (n := length r) in *. assert (X : vrow n x) by (split; auto). assert (R : vrow n r) by (split; auto).
  exists (rinv x), (rmul x r), (cj x r). rewrite row_inv_ok by auto. rewrite (row_mul_ok n x r X R).
  rewrite (row_mul_ok n) by (auto using valid_rmul, valid_rinv). splits; auto.
  - apply (cj_vrow n); auto.
  - intros c. apply (renamed_cj n); auto.
Qed.

Lemma pf_C118_products :
  forall x a b a' b', valid_row x -> valid_row a -> valid_row b -> renamed x a a' -> renamed x b b' ->
    (exists c c', row_mul a b = Ret c /\ row_mul a' b' = Ret c' /\ renamed x c c') /\
    (exists c c', row_inv a = Ret c /\ row_inv a' = Ret c' /\ renamed x c c') /\
    (forall e, exists c c', pow_i a e = Ret c /\ pow_i a' e = Ret c' /\ renamed x c c') /\
    (exists c c', solve_ax_equals_b a b = Ret (Ok c) /\ solve_ax_equals_b a' b' = Ret (Ok c') /\ renamed x c c') /\
    (exists c c', solve_xa_equals_b a b = Ret (Ok c) /\ solve_xa_equals_b a' b' = Ret (Ok c') /\ renamed x c c') /\
    (a' = b' <-> a = b).
Proof.
  intros x a b a' b' Vx Va Vb Ca Cb. pose proof (proj1 Ca) as La. pose proof (proj1 Cb) as Lb. set (n := length x) in *.
  assert (X : vrow n x) by (split; auto). assert (A : vrow n a) by (split; auto). assert (B : vrow n b) by (split; auto).
  apply (renamed_cj n) in Ca; auto. apply (renamed_cj n) in Cb; auto. subst a' b'.
  pose proof (cj_vrow n x X a A) as A'. pose proof (cj_vrow n x X b B) as B'.
  assert (C : forall c, vrow n c -> renamed x c (cj x c)) by (intros c V; apply (renamed_cj n); auto).
  pose proof (valid_rinv n a A) as I. pose proof (cj_vrow n x X _ I) as I'.
  split; [|split; [|split; [|split; [|split]]]].
  - exists (rmul a b), (cj x (rmul a b)). rewrite (row_mul_ok n a b), (row_mul_ok n _ _ A' B'), (cj_rmul n) by auto. auto using valid_rmul.
  - exists (rinv a), (cj x (rinv a)). rewrite !row_inv_ok by (auto; apply A'). rewrite (cj_rinv n) by auto. auto.
  - intros e. unfold pow_i. destruct (e <? 0)%Z.
    + rewrite !row_inv_ok by (auto; apply A'). rewrite (cj_rinv n) by auto. cbn [bind].
      rewrite (pow_u_ok n _ _ I), (pow_u_ok n _ _ I'), (cj_rpow n) by auto. do 2 eexists. split; [reflexivity|]. split; [reflexivity|].
      apply C. apply vrow_rpow; auto.
    + rewrite (pow_u_ok n _ _ A), (pow_u_ok n _ _ A'), (cj_rpow n) by auto. do 2 eexists. split; [reflexivity|]. split; [reflexivity|].
      apply C. apply vrow_rpow; auto.
  - unfold solve_ax_equals_b. rewrite !row_inv_ok by (auto; apply A'). rewrite (cj_rinv n) by auto. cbn [bind].
    rewrite (mul_result_ok n _ _ I B), (mul_result_ok n _ _ I' B'), (cj_rmul n) by auto. do 2 eexists. split; [reflexivity|]. split; [reflexivity|]. auto using valid_rmul.
  - unfold solve_xa_equals_b. rewrite !row_inv_ok by (auto; apply A'). rewrite (cj_rinv n) by auto. cbn [bind].
    rewrite (mul_result_ok n _ _ B I), (mul_result_ok n _ _ B' I'), (cj_rmul n) by auto. do 2 eexists. split; [reflexivity|]. split; [reflexivity|]. auto using valid_rmul.
  - split; [apply (cj_inj n); auto|intros ->; reflexivity].
Qed.

Lemma pf_C118_queries :
  forall x a a', valid_row x -> valid_row a -> renamed x a a' ->
    is_rounds a' = is_rounds a /\
    (exists p, (forall fuel, 2 * length a < fuel -> exists r, row_parity fuel a = Ret (r, p)) /\
               (forall fuel, 2 * length a < fuel -> exists r, row_parity fuel a' = Ret (r, p))) /\
    (forall b c, nth_error x b = Some c -> (In c (fixed_bells a') <-> In b (fixed_bells a))).
Proof.
  intros x a a' Vx Va Ca. pose proof Ca as Ca'. pose proof (proj1 Ca) as La. set (n := length x) in *.
  assert (X : vrow n x) by (split; auto). assert (A : vrow n a) by (split; auto).
  apply (renamed_cj n) in Ca; auto. subst a'. pose proof (cj_vrow n x X a A) as A'.
  split; [apply (cj_is_rounds n); auto|]. split.
  - assert (S1 : sgn (cj x a) = sgn a).
    { unfold cj. pose proof (valid_rinv n x X) as I. rewrite (sgn_rmul n), (sgn_rmul n) by (auto using valid_rmul).
      pose proof (f_equal sgn (rmul_rinv_r n x X)) as Q. rewrite (sgn_rmul n), rounds_seq, sgn_rounds in Q by auto.
      destruct (sgn x), (sgn a), (sgn (rinv x)); cbn in *; congruence. }
    exists (if sgn a then Odd else Even). split; intros fuel Hf.
    + eexists. apply (row_parity_ok a fuel); auto.
    + eexists. rewrite (proj1 (row_parity_ok (cj x a) fuel (proj1 A') ltac:(rewrite (proj2 A'); lia))), S1. reflexivity.
  - intros b c N. destruct Ca' as (L1 & L2 & H). rewrite !(proj1 (fixed_bells_spec _)).
    assert (P : b < length a) by (rewrite <- L1; apply nth_error_Some; congruence).
    destruct (nth_error a b) as [d|] eqn:D; [|apply nth_error_None in D; lia].
    assert (Hd : d < length x) by (rewrite L1; apply Va; eapply nth_error_In; eauto).
    destruct (nth_error x d) as [e|] eqn:E; [|apply nth_error_None in E; lia].
    rewrite (H b d c e D N E). split; intros Q; [|congruence]. injection Q as ->. f_equal.
    apply (proj1 (NoDup_nth_error x)); [apply Vx|auto|congruence].
Qed.

Lemma pf_C118_closures :
  forall x a a' fuel, valid_row x -> valid_row a -> renamed x a a' ->
    (forall l, closure fuel a = Ret l -> exists l', closure fuel a' = Ret l' /\ Forall2 (renamed x) l l') /\
    (forall l', closure fuel a' = Ret l' -> exists l, closure fuel a = Ret l) /\
    (forall l, closure_from_rounds fuel a = Ret l -> exists l', closure_from_rounds fuel a' = Ret l' /\ Forall2 (renamed x) l l') /\
    (forall l', closure_from_rounds fuel a' = Ret l' -> exists l, closure_from_rounds fuel a = Ret l).
Proof.
  intros x a a' fuel Vx V C. pose proof (proj1 C) as La. set (n := length x) in *.
  assert (X : vrow n x) by (split; auto). assert (A : vrow n a) by (split; auto).
  apply (renamed_cj n) in C; auto. subst a'. pose proof (cj_vrow n x X a A) as A'.
  pose proof (vrow_rounds_of n x X) as R.
  assert (G : forall fuel last l, vrow n last -> closure_loop fuel a last = Ret l -> Forall (vrow n) l).
  { clear fuel. induction fuel as [|fuel IH]; intros last l Vl H; [discriminate|]. cbn [closure_loop] in H.
    destruct (is_rounds last); [injection H as <-; auto|]. rewrite (mul_unchecked_vrow n) in H by auto. cbn [bind] in H.
    destruct (closure_loop fuel a (rmul last a)) as [m| | |] eqn:E; try discriminate. injection H as <-. constructor; auto.
    eapply IH; [|exact E]. apply valid_rmul; auto. }
  assert (G' : forall fuel last l, vrow n last -> closure_from_rounds_loop fuel a last = Ret l -> Forall (vrow n) l).
  { clear fuel. induction fuel as [|fuel IH]; intros last l Vl H; [discriminate|]. cbn [closure_from_rounds_loop] in H.
    rewrite (mul_unchecked_vrow n) in H by auto. cbn [bind] in H. destruct (is_rounds (rmul last a)); [injection H as <-; auto|].
    destruct (closure_from_rounds_loop fuel a (rmul last a)) as [m| | |] eqn:E; try discriminate. injection H as <-. constructor; auto.
    eapply IH; [|exact E]. apply valid_rmul; auto. }
  assert (E1 : closure fuel (cj x a) = (l <- closure fuel a;; Ret (map (cj x) l))).
  { unfold closure. apply (cj_closure_loop n); auto. }
  assert (E2 : closure_from_rounds fuel (cj x a) = (l <- closure_from_rounds fuel a;; Ret (map (cj x) l))).
  { unfold closure_from_rounds. rewrite (row_stage_vrow n a), (row_stage_vrow n (cj x a)) by auto. cbn [bind].
    rewrite <- (cj_rounds n x X) at 1. rewrite (cj_closure_from_rounds_loop n) by auto. reflexivity. }
  rewrite E1, E2. split; [|split; [|split]].
  - intros l H. rewrite H. cbn [bind]. eexists. split; [reflexivity|]. apply (renamed_Forall2 n); auto. unfold closure in H. exact (G _ _ _ A H).
  - intros l' H. destruct (closure fuel a) as [l| | |] eqn:E; try discriminate. exists l. reflexivity.
  - intros l H. rewrite H. cbn [bind]. eexists. split; [reflexivity|]. apply (renamed_Forall2 n); auto.
    unfold closure_from_rounds in H. rewrite (row_stage_vrow n) in H by auto. exact (G' _ _ _ R H).
  - intros l' H. destruct (closure_from_rounds fuel a) as [l| | |] eqn:E; try discriminate. exists l. reflexivity.
Qed.

Lemma pf_C118_groups :
  forall x rows rows', valid_row x -> Forall (fun r => valid_row r /\ length r = length x) rows -> Forall2 (renamed x) rows rows' ->
    (forall fuel l, least_group_containing fuel rows = Ret (Ok l) ->
       exists l', least_group_containing fuel rows' = Ret (Ok l') /\ Forall2 (renamed x) l l') /\
    (forall fuel l', least_group_containing fuel rows' = Ret (Ok l') -> exists l, least_group_containing fuel rows = Ret (Ok l)) /\
    is_group_set rows' = is_group_set rows.
Proof.
  intros x rows rows' Vx F C. set (n := length x) in *. change (Forall (vrow n) rows) in F. assert (X : vrow n x) by (split; auto).
  apply (renamed_Forall2 n) in C; auto. subst rows'.
  split; [|split; [|apply (cj_is_group n); auto]]; intros fuel.
  - intros l H. rewrite (cj_lgc n) by auto. unfold cj_lift. rewrite H. cbn [bind]. eexists. split; [reflexivity|].
    apply (renamed_Forall2 n); auto.
    unfold least_group_containing in H. destruct (cj_lgc_seed n x X rows F None [] []) as (p & q & X1 & X2 & X3 & _); auto.
    rewrite X1 in H. cbn [bind] in H. destruct (lgc_loop fuel rows p q) as [m| | |] eqn:E; try discriminate. injection H as <-.
    clear X1. revert p q X2 X3 E. induction fuel as [|fuel IH]; intros p q X2 X3 E; [discriminate|]. cbn [lgc_loop] in E.
    destruct X3 as [|r t V X3]; [injection E as <-; auto|].
    destruct (cj_lgc_expand n x X r rows V F p t X2 X3) as (p' & q' & Y1 & Y2 & Y3 & _). rewrite Y1 in E. cbn [bind] in E.
    eapply IH; [| |exact E]; auto.
  - intros l' H. rewrite (cj_lgc n) in H by auto. unfold cj_lift in H.
    destruct (least_group_containing fuel rows) as [[l|e]| | |]; try discriminate. eauto.
Qed.

Lemma pf_C118_products_of_sets :
  forall x sets sets', valid_row x -> Forall (Forall (fun r => valid_row r /\ length r = length x)) sets -> Forall2 (Forall2 (renamed x)) sets sets' ->
    exists l l', multi_cartesian_product sets = Ret (Ok l) /\ multi_cartesian_product sets' = Ret (Ok l') /\ Forall2 (renamed x) l l'.
Proof.
  intros x sets sets' Vx F C. set (n := length x) in *. change (Forall (Forall (vrow n)) sets) in F. assert (X : vrow n x) by (split; auto).
  assert (E : sets' = map (map (cj x)) sets).
  { induction C as [|y y' t t' H C IH]; [reflexivity|]. inversion F as [|? ? V F']; subst. cbn [map]. f_equal; auto.
    apply (renamed_Forall2 n); auto. }
  subst sets'. destruct (cj_mcp n x X sets F) as (l & E1 & E2 & E3). exists l, (map (cj x) l). splits; auto.
  apply (renamed_Forall2 n); auto.
Qed.
