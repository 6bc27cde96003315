(** Property theorems C111: cover bells do not change what rows do. *)

(* Generated from tools/props/Cover.src: the proofs behind PropsCover.v. *)
From Verif Require Import Base Spec ListFacts Bell Stage Parity Row RowFacts MulFacts GroupFacts SpecCover CoverFacts RowThms GroupThms.
Local Open Scope list_scope.

Lemma pf_C111_covers :
  forall a s, valid_row a -> length a <= s ->
    (forall a', extend_to_stage a s = Ret a' <-> covered s a a') /\
    (forall a' u, extend_to_stage a s = Ret a' -> s <= u -> extend_to_stage a' u = extend_to_stage a u).
Proof.
  intros a s V L. split; [intros a'; apply extend_covered; auto|]. intros a' u E Hu.
  apply extend_covered in E; auto. apply (ext_covered (length a) s L) in E; auto.
  assert (V' : vrow s a') by (rewrite E; apply ext_vrow; auto; split; auto). destruct V' as (V' & L').
  rewrite (proj1 (extend_to_stage_ok a' u V' ltac:(lia))), (proj1 (extend_to_stage_ok a u V ltac:(lia))). f_equal. rewrite L', E. unfold ext. rewrite <- app_assoc. f_equal.
  replace (u - length a) with ((s - length a) + (u - s)) by lia. rewrite seq_app. f_equal. f_equal. lia.
Qed.

Lemma pf_C111_products :
  forall s a b a' b', valid_row a -> valid_row b -> length a = length b -> covered s a a' -> covered s b b' ->
    (exists c c', row_mul a b = Ret c /\ row_mul a' b' = Ret c' /\ covered s c c') /\
    (exists c c', row_inv a = Ret c /\ row_inv a' = Ret c' /\ covered s c c') /\
    (forall e, exists c c', pow_i a e = Ret c /\ pow_i a' e = Ret c' /\ covered s c c') /\
    (exists c c', solve_ax_equals_b a b = Ret (Ok c) /\ solve_ax_equals_b a' b' = Ret (Ok c') /\ covered s c c') /\
    (exists c c', solve_xa_equals_b a b = Ret (Ok c) /\ solve_xa_equals_b a' b' = Ret (Ok c') /\ covered s c c') /\
    (a' = b' <-> a = b).
Proof.
  intros s a b a' b' Va Vb L Ca Cb. pose proof (covered_le _ _ _ Ca) as Hs. remember (length a) as n eqn:Hn. symmetry in Hn, L.
  apply (ext_covered n s Hs) in Ca; auto. apply (ext_covered n s Hs) in Cb; auto. subst a' b'.
  assert (A : vrow n a) by (split; auto). assert (B : vrow n b) by (split; auto).
  pose proof (ext_vrow n s Hs a A) as A'. pose proof (ext_vrow n s Hs b B) as B'.
  assert (C : forall c, vrow n c -> covered s c (ext n s c)) by (intros c V; apply (ext_covered n s Hs); auto; apply V).
  pose proof (valid_rinv n a A) as I.
  assert (P : forall r k, vrow n r -> rpow (ext n s r) k = ext n s (rpow r k) /\ vrow n (rpow r k)).
  { intros r k V. induction k as [|k (IH & IH')]; cbn [rpow].
    - rewrite (proj2 V), length_ext by (auto; apply V). split; [symmetry; apply ext_rounds; auto|].
      apply valid_rounds. destruct V as ((N & _) & <-). destruct r; [congruence|cbn; lia].
    - rewrite IH, ext_rmul by auto. auto using valid_rmul. }
  split; [|split; [|split; [|split; [|split]]]].
  - exists (rmul a b), (ext n s (rmul a b)). rewrite (row_mul_ok n), (row_mul_ok s), ext_rmul by auto. auto using valid_rmul.
  - exists (rinv a), (ext n s (rinv a)). rewrite !row_inv_ok by (auto; apply A'). rewrite ext_rinv by auto. auto.
  - intros e. unfold pow_i. destruct (e <? 0)%Z.
    + rewrite !row_inv_ok by (auto; apply A'). rewrite ext_rinv by auto. cbn [bind].
      rewrite (pow_u_ok n), (pow_u_ok s) by (auto using ext_vrow). destruct (P (rinv a) (Z.to_nat (- e)) I) as (E & V). rewrite E. do 2 eexists. split; [reflexivity|]. split; [reflexivity|]. auto.
    + rewrite (pow_u_ok n), (pow_u_ok s) by auto. destruct (P a (Z.to_nat e) A) as (E & V). rewrite E. do 2 eexists. split; [reflexivity|]. split; [reflexivity|]. auto.
  - unfold solve_ax_equals_b. rewrite !row_inv_ok by (auto; apply A'). rewrite ext_rinv by auto. cbn [bind].
    rewrite (mul_result_ok n), (mul_result_ok s), ext_rmul by (auto using ext_vrow). do 2 eexists. split; [reflexivity|]. split; [reflexivity|]. auto using valid_rmul.
  - unfold solve_xa_equals_b. rewrite !row_inv_ok by (auto; apply A'). rewrite ext_rinv by auto. cbn [bind].
    rewrite (mul_result_ok n), (mul_result_ok s), ext_rmul by (auto using ext_vrow). do 2 eexists. split; [reflexivity|]. split; [reflexivity|]. auto using valid_rmul.
  - split; [apply ext_inj; auto|intros ->; reflexivity].
Qed.

Lemma pf_C111_queries :
  forall s a a', valid_row a -> covered s a a' ->
    is_rounds a' = is_rounds a /\ effective_stage a' = effective_stage a /\
    (exists p, (forall fuel, 2 * length a < fuel -> exists r, row_parity fuel a = Ret (r, p)) /\
               (forall fuel, 2 * s < fuel -> exists r, row_parity fuel a' = Ret (r, p))) /\
    (forall b, b < length a -> place_of a' b = place_of a b) /\
    fixed_bells a' = fixed_bells a ++ seq (length a) (s - length a).
Proof.
  intros s a a' V C. pose proof (covered_le _ _ _ C) as Hs. remember (length a) as n eqn:Hn. symmetry in Hn.
  apply (ext_covered n s Hs) in C; auto. subst a'. assert (A : vrow n a) by (split; auto). pose proof (ext_vrow n s Hs a A) as (V' & L').
  split; [apply ext_is_rounds; auto|]. split; [apply ext_effective_stage; auto|]. split; [|split].
  - destruct (pf_C15_parity_counts_swaps a V) as (p & E & (k & K) & Q). rewrite Hn in *.
    destruct (pf_C15_parity_counts_swaps _ V') as (p' & E' & _ & Q'). rewrite L' in *.
    exists p. split; [intros fuel H; eexists; apply E; auto|]. intros fuel H. exists (row_rounds s). rewrite E' by auto. repeat f_equal.
    assert (K' : swaps_to (ext n s a) k (row_rounds s)) by (rewrite <- (ext_rounds n s Hs); apply (ext_swaps n s); auto).
    destruct (Q k K) as (Q1 & Q2). destruct (Q' k K') as (Q1' & Q2'). destruct p, p'; auto.
    + apply Q1'. apply Q1. reflexivity.
    + apply Q2'. apply Q2. reflexivity.
  - intros b Hb. destruct (place_of a b) as [i|] eqn:E.
    + apply place_of_Some in E; auto. apply place_of_Some; auto. unfold ext. rewrite nth_error_app1; auto.
      apply nth_error_Some. congruence.
    + apply place_of_None in E; auto. lia.
  - unfold ext. apply fixed_gen. auto.
Qed.

Lemma pf_C111_closures :
  forall s a a' fuel, valid_row a -> covered s a a' ->
    (forall l, closure fuel a = Ret l -> exists l', closure fuel a' = Ret l' /\ Forall2 (covered s) l l') /\
    (forall l', closure fuel a' = Ret l' -> exists l, closure fuel a = Ret l) /\
    (forall l, closure_from_rounds fuel a = Ret l -> exists l', closure_from_rounds fuel a' = Ret l' /\ Forall2 (covered s) l l') /\
    (forall l', closure_from_rounds fuel a' = Ret l' -> exists l, closure_from_rounds fuel a = Ret l).
Proof.
  intros s a a' fuel V C. pose proof (covered_le _ _ _ C) as Hs. remember (length a) as n eqn:Hn. symmetry in Hn.
  apply (ext_covered n s Hs) in C; auto. subst a'. assert (A : vrow n a) by (split; auto). pose proof (ext_vrow n s Hs a A) as A'.
  assert (R : vrow n (row_rounds n)) by (apply valid_rounds; destruct V as (N & _); destruct a; [congruence|cbn in Hn; lia]).
  assert (G : forall fuel last l, vrow n last -> closure_loop fuel a last = Ret l -> Forall (vrow n) l).
  { clear fuel. induction fuel as [|fuel IH]; intros last l Vl H; [discriminate|]. cbn [closure_loop] in H.
    destruct (is_rounds last); [injection H as <-; auto|]. rewrite (mul_unchecked_vrow n) in H by auto. cbn [bind] in H.
    destruct (closure_loop fuel a (rmul last a)) as [m| | |] eqn:E; try discriminate. injection H as <-. constructor; auto.
    eapply IH; [|exact E]. apply valid_rmul; auto. }
  assert (G' : forall fuel last l, vrow n last -> closure_from_rounds_loop fuel a last = Ret l -> Forall (vrow n) l).
  { clear fuel. induction fuel as [|fuel IH]; intros last l Vl H; [discriminate|]. cbn [closure_from_rounds_loop] in H.
    rewrite (mul_unchecked_vrow n) in H by auto. cbn [bind] in H. destruct (is_rounds (rmul last a)); [injection H as <-; auto|].
    destruct (closure_from_rounds_loop fuel a (rmul last a)) as [m| | |] eqn:E; try discriminate. injection H as <-. constructor; auto.
    eapply IH; [|exact E]. apply valid_rmul; auto. }
  unfold closure, closure_from_rounds. rewrite (row_stage_vrow n), (row_stage_vrow s) by auto. cbn [bind].
  rewrite <- (ext_rounds n s Hs). rewrite ext_closure_loop, ext_closure_from_rounds_loop by auto.
  split; [|split; [|split]].
  - intros l H. rewrite H. cbn [bind]. eexists. split; [reflexivity|]. apply (covered_Forall2 n s); auto. exact (G _ _ _ A H).
  - intros l' H. destruct (closure_loop fuel a a) as [l| | |] eqn:E; try discriminate. exists l. reflexivity.
  - intros l H. rewrite H. cbn [bind]. eexists. split; [reflexivity|]. apply (covered_Forall2 n s); auto. exact (G' _ _ _ R H).
  - intros l' H. destruct (closure_from_rounds_loop fuel a (row_rounds n)) as [l| | |] eqn:E; try discriminate. exists l. reflexivity.
Qed.

Lemma pf_C111_groups :
  forall n s rows rows', Forall (fun r => valid_row r /\ length r = n) rows -> n <= s -> Forall2 (covered s) rows rows' ->
    (forall fuel l, least_group_containing fuel rows = Ret (Ok l) ->
       exists l', least_group_containing fuel rows' = Ret (Ok l') /\ Forall2 (covered s) l l') /\
    (forall fuel l', least_group_containing fuel rows' = Ret (Ok l') -> exists l, least_group_containing fuel rows = Ret (Ok l)) /\
    is_group_set rows' = is_group_set rows.
Proof.
  intros n s rows rows' F Hs C. change (Forall (vrow n) rows) in F. apply (covered_Forall2 n s) in C; auto. subst rows'.
  split; [|split; [|apply ext_is_group; auto]]; intros fuel.
  - intros l H. rewrite ext_lgc by auto. unfold lift_ok. rewrite H. cbn [bind]. eexists. split; [reflexivity|].
    apply (covered_Forall2 n s); auto. clear Hs.
    unfold least_group_containing in H. destruct (ext_lgc_seed n n (le_n n) rows F None [] []) as (x & y & X1 & X2 & X3 & _); auto.
    rewrite X1 in H. cbn [bind] in H. destruct (lgc_loop fuel rows x y) as [m| | |] eqn:E; try discriminate. injection H as <-.
    clear X1. revert x y X2 X3 E. induction fuel as [|fuel IH]; intros x y X2 X3 E; [discriminate|]. cbn [lgc_loop] in E.
    destruct X3 as [|r t V X3]; [injection E as <-; auto|].
    destruct (ext_lgc_expand n n (le_n n) r rows V F x t X2 X3) as (x' & y' & Y1 & Y2 & Y3 & _). rewrite Y1 in E. cbn [bind] in E.
    eapply IH; [| |exact E]; auto.
  - intros l' H. rewrite ext_lgc in H by auto. unfold lift_ok in H.
    destruct (least_group_containing fuel rows) as [[l|e]| | |]; try discriminate. eauto.
Qed.

Lemma pf_C111_products_of_sets :
  forall n s sets sets', Forall (Forall (fun r => valid_row r /\ length r = n)) sets -> n <= s -> Forall2 (Forall2 (covered s)) sets sets' ->
    exists l l', multi_cartesian_product sets = Ret (Ok l) /\ multi_cartesian_product sets' = Ret (Ok l') /\ Forall2 (covered s) l l'.
Proof.
  intros n s sets sets' F Hs C. change (Forall (Forall (vrow n)) sets) in F.
  assert (E : sets' = map (map (ext n s)) sets).
  { induction C as [|x x' t t' H C IH]; [reflexivity|]. inversion F as [|? ? V F']; subst. cbn [map]. f_equal; auto.
    apply (covered_Forall2 n s); auto. }
  subst sets'. destruct (ext_mcp n s Hs sets F) as (l & E1 & E2 & E3). exists l, (map (ext n s) l). splits; auto.
  apply (covered_Forall2 n s); auto.
Qed.
