(** Property theorems C82 to C85: laws of blocks, groups, parities and plain courses. *)
(*IMPORTS*)
From Verif Require Import Base Bell Stage Parity Row Utils SameStageVec Block PlaceNot Spec SpecVec SpecBlock SpecPn ListFacts
  BellFacts RowFacts MulFacts ParityFacts GroupFacts GroupFacts2 SsvFacts BlockFacts PnFacts PnFacts2 PnFacts3 SpecLaws LawFacts LawFacts2 LawFacts3
  Class SpecClass Method SpecMethod.
From Verif Require Import GroupThms PnThms MethodThms CtorThms.
Local Open Scope list_scope.
(*BODY*)
(** C82: it does not matter how three blocks of the same stage are put together: extending the first by
    the second and then the third gives the same block as extending it by the second extended by the
    third. *)
Theorem C82_extending_is_associative :
  forall A (a b c : block A) s ars lo ars' lo' ars'' lo'',
    block_holds a s ars lo -> block_holds b s ars' lo' -> block_holds c s ars'' lo'' ->
    exists ab bc abc, block_extend a b = Ret (ab, Ok tt) /\ block_extend b c = Ret (bc, Ok tt) /\
      block_extend ab c = Ret (abc, Ok tt) /\ block_extend a bc = Ret (abc, Ok tt).
Proof.
  intros A a b c s ars lo ars' lo' ars'' lo'' H1 H2 H3.
  eapply extend_assoc; apply holds_brep; eauto.
Qed.

(** C82: extending by the empty block changes nothing; extending the empty block by another gives this
    other, moved to start from rounds (so unchanged if it starts there). *)
Theorem C82_empty_blocks :
  forall A (b e : block A) s ars lo first, block_holds b s ars lo -> block_empty s = Ret e ->
    block_first_row b = Ret first ->
    block_extend b e = Ret (b, Ok tt) /\
    (exists b' t, block_extend e b = Ret (b', Ok tt) /\ row_inv first = Ret t /\ block_pre_multiply b t = Ret (b', Ok tt)) /\
    (is_identity first -> block_extend e b = Ret (b, Ok tt)).
Proof.
  intros A b e s ars lo first H E F. apply holds_brep in H. split; [eapply extend_empty; eauto|].
  destruct (empty_extend s ars lo b e H E) as (b' & t & X & I & P).
  assert (first = nth 0 (all_rows_of ars lo) []) as Ef.
  { destruct (brep_first_row _ _ _ _ H) as (r & E1 & E2). rewrite E1 in F. injection F as <-. symmetry. apply nth_error_nth. exact E2. }
  rewrite <- Ef in I. split; [eauto|]. intros Id. rewrite X. do 2 f_equal. symmetry.
  pose proof (brep_vrows _ _ _ _ H) as [Fr V].
  assert (Vf : vrow s first) by (subst first; destruct ars as [|[r a] ars]; cbn; auto; inversion Fr; auto).
  apply identity_rounds in Id. rewrite (proj2 Vf) in Id.
  assert (Hs : 0 < s) by (rewrite <- (proj2 V); apply valid_row_pos, V).
  assert (t = row_rounds s) as ->.
  { rewrite Id in I. rewrite row_inv_ok in I by (apply valid_rounds; auto). injection I as <-.
    rewrite <- (rmul_rounds_l_vrow s (rinv (row_rounds s))) by (apply valid_rinv, valid_rounds; auto).
    apply (rmul_rinv_r s). apply valid_rounds; auto. }
  destruct (brep_pre_multiply s ars lo b (row_rounds s) H (valid_rounds s Hs)) as (b2 & E2 & R). rewrite P in E2. injection E2 as <-.
  assert (Q : forall r, vrow s r -> row_product (row_rounds s) r = r) by (intros r Vr; apply (rmul_rounds_l_vrow s); auto).
  rewrite Q in R by auto. rewrite (map_ext_in _ (fun x => x)), map_id in R; [eapply brep_eq; eauto|].
  intros [r a] Hra. cbn [fst snd]. rewrite Q; auto. apply (vrow_fst s ars (r, a)); auto.
Qed.

(** C82: multiplying by a row before extending is the same as after, and multiplying the block which
    is added makes no difference. *)
Theorem C82_multiplying_and_extending :
  forall A (a b : block A) s ars lo ars' lo' t, block_holds a s ars lo -> block_holds b s ars' lo' ->
    valid_row t -> length t = s ->
    exists ab ta tb tab, block_extend a b = Ret (ab, Ok tt) /\
      block_pre_multiply a t = Ret (ta, Ok tt) /\ block_pre_multiply b t = Ret (tb, Ok tt) /\
      block_pre_multiply ab t = Ret (tab, Ok tt) /\
      block_extend ta b = Ret (tab, Ok tt) /\ block_extend a tb = Ret (ab, Ok tt).
Proof.
  intros A a b s ars lo ars' lo' t H1 H2 V L. apply holds_brep in H1, H2.
  destruct (extend_pre_multiply s _ _ _ _ _ _ t H1 H2 (conj V L)) as (ab & ta & tb & tab & H). exists ab, ta, tb, tab. exact H.
Qed.

(** C82: extending and then splitting at the length of the first block gives the first block back, and
    the second moved to start where the first ends. *)
Theorem C82_splitting_undoes_extending :
  forall A (a b : block A) s ars lo ars' lo', block_holds a s ars lo -> block_holds b s ars' lo' ->
    exists ab b' t, block_extend a b = Ret (ab, Ok tt) /\ block_split ab (block_len a) = Ret (Some (a, b')) /\
      block_pre_multiply b t = Ret (b', Ok tt) /\ block_first_row b' = Ret lo.
Proof.
  intros A a b s ars lo ars' lo' H1 H2. apply holds_brep in H1, H2.
  destruct (brep_extend _ _ _ _ _ _ _ H1 H2) as (ab & E & R). set (f := nth 0 (all_rows_of ars' lo') []) in *.
  pose proof (brep_vrows _ _ _ _ H1) as [F1 V1]. pose proof (brep_vrows _ _ _ _ H2) as [F2 V2].
  assert (Vf : vrow s f) by (unfold f; destruct ars' as [|[r x] ars0]; cbn; auto; inversion F2; auto).
  set (t := rmul lo (rinv f)). assert (Vt : vrow s t) by (apply valid_rmul; auto; apply valid_rinv; auto).
  destruct (brep_pre_multiply _ _ _ _ t H2 Vt) as (b' & Eb & Rb).
  exists ab, b', t. split; [exact E|].
  assert (M : forall r, vrow s r -> row_product t r = moved f lo r).
  { intros r Vr. rewrite (moved_rmul s) by auto. reflexivity. }
  rewrite M in Rb by auto. rewrite (map_ext_in _ (fun ra => (moved f lo (fst ra), snd ra))) in Rb
    by (intros ra Hra; rewrite M; auto; eapply (vrow_fst s); eauto).
  assert (Ff : nth 0 (all_rows_of (map (fun ra : row * A => (moved f lo (fst ra), snd ra)) ars') (moved f lo lo')) [] = lo).
  { transitivity (moved f lo f); [|apply (moved_first s); auto]. unfold f at 4. destruct ars' as [|[r x] ars0]; reflexivity. }
  split.
  - rewrite (brep_len _ _ _ _ H1). destruct (brep_split s _ _ ab (length ars) R) as (l & r & Es & Rl & Rr); [rewrite app_length; apply Nat.le_add_r|].
    rewrite Es. do 3 f_equal.
    + eapply brep_eq; [exact Rl|]. rewrite firstn_app, Nat.sub_diag, firstn_all, firstn_O, app_nil_r.
      match goal with |- brep _ _ ?x _ => replace x with lo; [exact H1|] end.
      transitivity (nth 0 (all_rows_of (map (fun ra : row * A => (moved f lo (fst ra), snd ra)) ars') (moved f lo lo')) []); [symmetry; exact Ff|].
      unfold all_rows_of. rewrite map_app, <- app_assoc. symmetry. rewrite app_nth2; rewrite map_length; [|apply Nat.le_refl].
      rewrite Nat.sub_diag. reflexivity.
    + eapply brep_eq; [exact Rr|]. rewrite skipn_app, Nat.sub_diag, skipn_all, skipn_O. exact Rb.
  - split; [exact Eb|]. destruct (brep_first_row _ _ _ _ Rb) as (r & E1 & E2). rewrite E1. f_equal.
    apply (nth_error_nth _ _ []) in E2. rewrite <- E2. exact Ff.
Qed.

Example C82_example :
  exists a b c ab bc abc e,
    block_build (BlockArg 4 [[0; 1; 2; 3]; [1; 0; 3; 2]; [1; 3; 0; 2]] (fun i => i)) = Ret (Some a) /\
    block_build (BlockArg 4 [[3; 2; 1; 0]; [3; 1; 2; 0]] (fun i => 10 + i)) = Ret (Some b) /\
    block_build (BlockArg 4 [[0; 1; 3; 2]; [1; 0; 2; 3]] (fun i => 20 + i)) = Ret (Some c) /\
    block_extend a b = Ret (ab, Ok tt) /\ block_extend b c = Ret (bc, Ok tt) /\ block_extend ab c = Ret (abc, Ok tt) /\
    block_extend a bc = Ret (abc, Ok tt) /\
    block_annot_rows abc = Ret [([0; 1; 2; 3], 0); ([1; 0; 3; 2], 1); ([1; 3; 0; 2], 10); ([1; 0; 3; 2], 20)] /\
    block_leftover_row abc = Ret [0; 1; 2; 3] /\
    block_empty 4 = Ret e /\ block_extend e a = Ret (a, Ok tt) /\ block_extend e b <> Ret (b, Ok tt).
Proof. do 7 eexists. splits; try (vm_compute; reflexivity). vm_compute. discriminate. Qed.

(** C83: the closure of a row has exactly the elements of the least group containing it. *)
Theorem C83_closure_is_the_least_group :
  forall r fuel fuel' l set, valid_row r -> closure fuel r = Ret l -> least_group_containing fuel' [r] = Ret (Ok set) ->
    (forall x, In x l <-> In x set) /\ length l = length set.
Proof.
  intros r fuel fuel' l set V C G. assert (Vr : vrow (length r) r) by (split; auto).
  destruct (closure_result _ _ _ _ Vr C) as (k & P & E & M & ->).
  destruct (lgc_result (length r) [r] fuel' set ltac:(repeat constructor; apply Vr) G) as [N W].
  assert (I : forall x, In x (map (rpow r) (seq 1 k)) <-> In x set).
  { intros x. rewrite W. rewrite (in_closure (length r)) by auto. symmetry. apply (word_one (length r)); auto. }
  split; auto. apply Permutation_length. apply NoDup_Permutation; auto. apply (rpow_NoDup (length r)); auto.
Qed.

(** C83: closures and least groups are groups, in the eyes of [is_group] (whatever the order in which
    it sees them). *)
Theorem C83_closures_and_least_groups_are_groups :
  (forall r fuel l set, valid_row r -> closure fuel r = Ret l -> collected_set l set -> is_group_set set = Ret (Ok true)) /\
  (forall n rows fuel l set, rows <> [] -> Forall (fun r => valid_row r /\ length r = n) rows ->
     least_group_containing fuel rows = Ret (Ok l) -> collected_set l set -> is_group_set set = Ret (Ok true)).
Proof.
  assert (B : forall n rows fuel l set, rows <> [] -> Forall (fun r => valid_row r /\ length r = n) rows ->
     least_group_containing fuel rows = Ret (Ok l) -> collected_set l set -> is_group_set set = Ret (Ok true)).
  { intros n rows fuel l set Ne V G S. destruct (lgc_result n rows fuel l V G) as [N W].
    assert (Vl : Forall (vrow n) l).
    { apply Forall_forall. intros x Hx. apply W in Hx. eapply word_vrow; eauto. }
    destruct (pf_C20_group_test l set) as [_ H]; auto.
    { eapply Forall_impl; [|exact Vl]. intros x Hx. apply Hx. }
    destruct (H n) as (ok & E & K). { eapply Forall_impl; [|exact Vl]. intros x Hx. apply Hx. }
    rewrite E. do 2 f_equal. apply K. split.
    - intros ->. destruct rows as [|r rows]; [congruence|]. destruct (proj2 (W r)). constructor. left; auto.
    - destruct (word_subgroup n rows Ne V) as [S1 S2 S3]. split.
      + intros e L I. apply W. auto.
      + intros a b c Ha Hb C. apply W. apply W in Ha, Hb. eauto.
      + intros a b e Ha L Le Vb I C. apply W. apply W in Ha. eauto. }
  split; [|exact B]. intros r fuel l set V C S. assert (Vr : vrow (length r) r) by (split; auto).
  assert (F : Forall (vrow (length r)) [r]) by (repeat constructor; apply Vr).
  destruct (lgc_ok (length r) [r] F) as (f0 & H). destruct (H f0 (Nat.le_refl _)) as (g & G & N & W).
  destruct (pf_C83_closure_is_the_least_group r fuel f0 l g V C G) as [I _].
  apply (B (length r) [r] f0 g set); auto; [discriminate|]. destruct S as [S1 S2]. split; auto. intros x. rewrite S2. auto.
Qed.

(** C83: rows are a group, in the eyes of [is_group], exactly when the least group containing them has
    no others; so taking the least group twice adds nothing. *)
Theorem C83_groups_are_their_own_least_groups :
  forall n rows set fuel l, rows <> [] -> Forall (fun r => valid_row r /\ length r = n) rows -> collected_set rows set ->
    least_group_containing fuel rows = Ret (Ok l) ->
    (is_group_set set = Ret (Ok true) <-> (forall x, In x l <-> In x rows)) /\
    (forall fuel' l', least_group_containing fuel' l = Ret (Ok l') -> forall x, In x l' <-> In x l).
Proof.
  assert (B : forall n rows set fuel l, rows <> [] -> Forall (fun r => valid_row r /\ length r = n) rows -> collected_set rows set ->
    least_group_containing fuel rows = Ret (Ok l) ->
    (is_group_set set = Ret (Ok true) <-> (forall x, In x l <-> In x rows))).
  { intros n rows set fuel l Ne V S G. split.
    - intros E. destruct (lgc_result n rows fuel l V G) as [N W].
      destruct (pf_C20_group_test rows set) as [_ H]; auto.
      { eapply Forall_impl; [|exact V]. intros x Hx. apply Hx. }
      destruct (H n) as (ok & E' & K). { eapply Forall_impl; [|exact V]. intros x Hx. apply Hx. }
      rewrite E in E'. injection E' as <-. destruct (proj1 K eq_refl) as [_ Sg].
      intros x. rewrite W. split; [|constructor; auto]. intros Hx. apply (word_least n rows (fun x => In x rows)); auto.
    - intros I. apply (proj2 pf_C83_closures_and_least_groups_are_groups n rows fuel l set Ne V G).
      destruct S as [S1 S2]. split; auto. intros x. rewrite S2, I. reflexivity. }
  intros n rows set fuel l Ne V S G. split; [eapply B; eauto|]. intros fuel' l' G'.
  destruct (lgc_result n rows fuel l V G) as [N W].
  assert (Vl : Forall (vrow n) l). { apply Forall_forall. intros x Hx. apply W in Hx. eapply word_vrow; eauto. }
  assert (Nl : l <> []). { intros ->. destruct rows as [|r rows]; [congruence|]. destruct (proj2 (W r)). constructor. left; auto. }
  assert (Sl : collected_set l l) by (split; [auto|intros; reflexivity]).
  apply (B n l l fuel' l' Nl Vl Sl G'). apply (proj2 pf_C83_closures_and_least_groups_are_groups n rows fuel l l Ne V G Sl).
Qed.

(** C83: the length of the closure is the order of the row: a power is rounds exactly when the exponent
    is a multiple of it, powers are equal exactly when the exponents leave the same remainder, the power
    before is the inverse, and the inverse has the same closure in another order. *)
Theorem C83_orders :
  forall r fuel l, valid_row r -> closure fuel r = Ret l ->
    (forall n p, pow_u r n = Ret p -> (is_identity p <-> Nat.divide (length l) n)) /\
    (forall a b, pow_u r a = pow_u r b <-> a mod length l = b mod length l) /\
    pow_u r (length l - 1) = row_inv r /\
    (forall ri fuel' l', row_inv r = Ret ri -> closure fuel' ri = Ret l' -> Permutation l l').
Proof.
  intros r fuel l V C. set (n := length r). assert (Vr : vrow n r) by (split; auto).
  destruct (closure_result _ _ _ _ Vr C) as (k & P & E & M & ->). rewrite map_length, seq_length.
  pose proof (rpow_rounds_divide n r k Vr P E M) as D.
  assert (Inv : rpow r (k - 1) = rinv r).
  { rewrite <- (rmul_rounds_r n (rpow r (k - 1))) by (apply (vrow_rpow n r _ Vr)).
    rewrite <- (rmul_rinv_r n r Vr), <- (rmul_assoc_vrow n) by (auto; apply valid_rinv; auto).
    change (rmul (rpow r (k - 1)) r) with (rpow r (S (k - 1))). replace (S (k - 1)) with k by lia. rewrite E.
    apply rmul_rounds_l_vrow, valid_rinv; auto. }
  split; [|split; [|split]].
  - intros j p Hp. rewrite (pow_u_ok n) in Hp by auto. injection Hp as <-. rewrite <- D. split.
    + intros I. apply identity_rounds in I. rewrite I. f_equal. apply (vrow_rpow n r j Vr).
    + intros ->. apply rounds_identity.
  - intros a b. rewrite !(pow_u_ok n) by auto. split.
    + intros H. assert (X : forall a b, a <= b -> rpow r a = rpow r b -> a mod k = b mod k).
      { clear a b H. intros a b L H. assert (Q : rpow r (b - a) = row_rounds n).
        { pose proof (vrow_rpow n r a Vr) as Va. pose proof (vrow_rpow n r (b - a) Vr) as Vd.
          rewrite <- (rmul_rounds_l_vrow n (rpow r (b - a))) by auto. rewrite <- (rmul_rinv_l n _ Va).
          rewrite (rmul_assoc_vrow n), <- (rpow_add n) by auto. replace (a + (b - a)) with b by lia. rewrite <- H. reflexivity. }
        apply D in Q as (q & Q). replace b with (a + q * k) by lia. rewrite Nat.mod_add by lia. reflexivity. }
      injection H as H. destruct (Nat.le_ge_cases a b) as [L|L]; [apply X; auto|symmetry; apply X; auto].
    + intros H. rewrite (rpow_mod n r k Vr P E a), (rpow_mod n r k Vr P E b), H. reflexivity.
  - rewrite (pow_u_ok n) by auto. rewrite row_inv_ok by auto. congruence.
  - intros ri fuel' l' Hi C'. rewrite row_inv_ok in Hi by auto. injection Hi as <-.
    pose proof (valid_rinv n r Vr) as Vi. destruct (closure_result _ _ _ _ Vi C') as (k' & P' & E' & M' & ->).
    assert (Sub : forall x, In x (map (rpow r) (seq 1 k)) <-> In x (map (rpow (rinv r)) (seq 1 k'))).
    { intros x. rewrite (in_closure n r k) by auto. rewrite (in_closure n (rinv r) k') by auto. apply (powers_of_inverse n); auto. }
    apply NoDup_Permutation; auto; apply (rpow_NoDup n); auto.
Qed.

(** C83 (Lagrange): if two lists of rows are groups and the first is part of the second, the number of
    rows of the first divides that of the second; in particular the order of a row divides the size of
    every group it is in. *)
Theorem C83_sizes_divide :
  (forall n a b, Forall (fun r => valid_row r /\ length r = n) b -> NoDup a -> NoDup b -> (forall x, In x a -> In x b) ->
     is_group_set a = Ret (Ok true) -> is_group_set b = Ret (Ok true) -> Nat.divide (length a) (length b)) /\
  (forall n b r fuel l, Forall (fun r => valid_row r /\ length r = n) b -> NoDup b -> is_group_set b = Ret (Ok true) -> In r b ->
     closure fuel r = Ret l -> Nat.divide (length l) (length b)).
Proof.
  assert (B : forall n a, Forall (fun r => valid_row r /\ length r = n) a -> is_group_set a = Ret (Ok true) -> a <> [] /\ subgroup n (fun x => In x a)).
  { intros n a V E. assert (Ne : a <> []) by (intros ->; discriminate E). split; auto.
    destruct (is_group_set_ok n a Ne V) as (ok & E' & K). rewrite E in E'. injection E' as <-. apply subgroup_test; auto. apply K. reflexivity. }
  assert (L : forall n a b, Forall (fun r => valid_row r /\ length r = n) b -> NoDup a -> NoDup b -> (forall x, In x a -> In x b) ->
     is_group_set a = Ret (Ok true) -> is_group_set b = Ret (Ok true) -> Nat.divide (length a) (length b)).
  { intros n a b Vb Na Nb I Ga Gb.
    assert (Va : Forall (vrow n) a). { apply Forall_forall. intros x Hx. rewrite Forall_forall in Vb. apply Vb; auto. }
    destruct (B n a Va Ga) as [Ne Sa]. destruct (B n b Vb Gb) as [_ Sb].
    apply (cosets_divide n a Na Ne Va Sa (length b) b); auto. intros x h Hx Hh.
    apply (subgroup_mul n (fun x => In x b)); auto; rewrite Forall_forall in Vb; apply Vb; auto. }
  split; [exact L|]. intros n b r fuel l Vb Nb Gb Hr C.
  assert (Vr : vrow n r) by (rewrite Forall_forall in Vb; apply Vb; auto).
  destruct (closure_result n r fuel l Vr C) as (k & P & E & M & El).
  assert (Nl : NoDup l) by (subst l; apply (rpow_NoDup n); auto).
  apply (L n l b); auto.
  - intros x Hx. subst l. apply (in_closure n) in Hx as (j & ->); auto. destruct (B n b Vb Gb) as [_ Sb].
    induction j as [|j IH]; [rewrite (rpow_1 n); auto|]. apply (subgroup_mul n (fun x => In x b) (rpow r (S j)) r); auto. apply vrow_rpow; auto.
  - apply (proj1 pf_C83_closures_and_least_groups_are_groups r fuel l l (proj1 Vr) C). split; [auto|intros; reflexivity].
Qed.

Example C83_example :
  exists l set, closure 10 [1; 2; 0; 4; 3] = Ret l /\ length l = 6 /\
    least_group_containing 50 [[1; 2; 0; 4; 3]; [1; 0; 2; 3; 4]] = Ret (Ok set) /\ length set = 12 /\
    is_group_set set = Ret (Ok true) /\ is_group_set l = Ret (Ok true) /\ is_group_set (removelast set) = Ret (Ok false) /\
    pow_u [1; 2; 0; 4; 3] 5 = Ret [2; 0; 1; 4; 3] /\ row_inv [1; 2; 0; 4; 3] = Ret [2; 0; 1; 4; 3].
Proof. do 2 eexists. splits; vm_compute; reflexivity. Qed.

(** C84: rounds is even; the inverse of a row has its parity; a power of a row has its parity if the
    exponent is odd and is even otherwise; rows of odd parity have even order. *)
Theorem C84_parities_of_rounds_inverses_and_powers :
  (forall n fuel, 0 < n -> 2 * n < fuel -> exists x, row_parity fuel (row_rounds n) = Ret (x, Even)) /\
  (forall r ri fuel, valid_row r -> 2 * length r < fuel -> row_inv r = Ret ri ->
     exists x p, row_parity fuel r = Ret (x, p) /\ row_parity fuel ri = Ret (x, p)) /\
  (forall r e q fuel, valid_row r -> 2 * length r < fuel -> pow_u r e = Ret q ->
     exists x p, row_parity fuel r = Ret (x, p) /\ row_parity fuel q = Ret (x, if Nat.even e then Even else p)) /\
  (forall r x l fuel fuel', valid_row r -> row_parity fuel r = Ret (x, Odd) -> 2 * length r < fuel ->
     closure fuel' r = Ret l -> Nat.even (length l) = true).
Proof.
  split; [|split; [|split]].
  - intros n fuel P F. destruct (row_parity_ok (row_rounds n) fuel) as [E _]; [apply valid_rounds; auto|rewrite length_rounds; auto|].
    unfold row_rounds, range in *. rewrite sgn_rounds in E. eauto.
  - intros r ri fuel V F I. rewrite row_inv_ok in I by auto. injection I as <-.
    assert (Vi : vrow (length r) (rinv r)) by (apply valid_rinv; split; auto).
    destruct (row_parity_ok r fuel V F) as [E _]. destruct (row_parity_ok (rinv r) fuel) as [E' _]; [apply Vi|rewrite (proj2 Vi); auto|].
    rewrite (sgn_rinv (length r)), (proj2 Vi) in E' by (split; auto). eauto.
  - intros r e q fuel V F Q. assert (Vr : vrow (length r) r) by (split; auto). rewrite (pow_u_ok (length r)) in Q by auto. injection Q as <-.
    pose proof (vrow_rpow _ _ e Vr) as Vq.
    destruct (row_parity_ok r fuel V F) as [E _]. destruct (row_parity_ok (rpow r e) fuel) as [E' _]; [apply Vq|rewrite (proj2 Vq); auto|].
    rewrite (sgn_rpow (length r)), (proj2 Vq) in E' by auto. do 2 eexists. split; [exact E|]. rewrite E'. do 2 f_equal.
    rewrite <- Nat.negb_odd. destruct (sgn r), (Nat.odd e); reflexivity.
  - intros r x l fuel fuel' V E F C. assert (Vr : vrow (length r) r) by (split; auto).
    destruct (row_parity_ok r fuel V F) as [E' _]. rewrite E in E'. injection E' as _ S. destruct (sgn r) eqn:Sg; [|discriminate].
    destruct (closure_result _ _ _ _ Vr C) as (k & P & R & M & ->). rewrite map_length, seq_length.
    pose proof (sgn_rpow (length r) r k Vr) as Q. rewrite R in Q. unfold row_rounds, range in Q. rewrite sgn_rounds, Sg in Q.
    rewrite <- Nat.negb_odd. destruct (Nat.odd k); [discriminate|reflexivity].
Qed.

(** C84: a legal change swaps half as many pairs as it has bells which make no place; its
    transposition is odd exactly if this number is, and ringing it from any row changes the parity of the
    row exactly then. *)
Theorem C84_parities_of_changes :
  forall pn fuel, legal pn -> 2 * pn_stage pn < fuel ->
    let p := parity_from_number ((pn_stage pn - length (pn_places pn)) / 2) in
    (exists t x, pn_transposition pn = Ret t /\ row_parity fuel t = Ret (x, p)) /\
    (forall r r', valid_row r -> length r = pn_stage pn -> rings (pn_places pn) 0 r r' ->
       exists x q, row_parity fuel r = Ret (x, q) /\ row_parity fuel r' = Ret (x, parity_mul q p)).
Proof.
  intros pn fuel L F p.
  assert (B : forall r r', vrow (pn_stage pn) r -> rings (pn_places pn) 0 r r' ->
       exists x q, row_parity fuel r = Ret (x, q) /\ row_parity fuel r' = Ret (x, parity_mul q p)).
  { intros r r' V R. pose proof (rings_vrow _ _ _ _ _ V R) as V'.
    pose proof (sgn_change pn r r' _ L eq_refl V R) as S.
    destruct (row_parity_ok r fuel) as [E _]; [apply V|rewrite (proj2 V); auto|].
    destruct (row_parity_ok r' fuel) as [E' _]; [apply V'|rewrite (proj2 V'); auto|].
    rewrite (proj2 V) in E. rewrite (proj2 V') in E'. do 2 eexists. split; [exact E|]. rewrite E', S. do 2 f_equal.
    unfold p. rewrite parity_from_number_odd. destruct (sgn r), (Nat.odd _); reflexivity. }
  split; [|intros r r' V Le R; apply B; auto; split; auto].
  destruct (pn_transposition_ok pn L) as (t & E & _ & R).
  destruct (B (row_rounds (pn_stage pn)) t) as (x & q & E1 & E2); [apply valid_rounds, L|exact R|].
  exists t, x. split; auto. rewrite E2. do 2 f_equal.
  destruct (proj1 pf_C84_parities_of_rounds_inverses_and_powers (pn_stage pn) fuel (proj1 L) F) as (y & E3).
  rewrite E1 in E3. injection E3 as _ ->. destruct p; reflexivity.
Qed.

(** C84: the parity of each row rung by a block is that of the start row, changed as often as pairs of
    bells were swapped. *)
Theorem C84_parities_along_a_block :
  forall pns start s v rows i r fuel, pns <> [] -> Forall (fun pn => legal pn /\ pn_stage pn = s) pns ->
    valid_row start -> length start = s -> pn_block_to_rows pns start = Ret (Ok v) -> ssv_rows v = Ret rows ->
    nth_error rows i = Some r -> 2 * s < fuel ->
    exists x p, row_parity fuel start = Ret (x, p) /\
      row_parity fuel r =
        Ret (x, parity_mul p (parity_from_number (list_sum (map (fun pn => (s - length (pn_places pn)) / 2) (firstn i pns))))).
Proof.
  intros pns start s v rows i r fuel N F V L E R Hr Hf.
  destruct (to_rows_ok pns start s N F (conj V L)) as (w & rs & y & E1 & Rv & Ru). rewrite E in E1. injection E1 as <-.
  rewrite (rep_rows _ _ _ Rv) in R. injection R as <-.
  pose proof (sgn_rung s _ _ _ _ Ru (conj V L) F i r Hr) as S.
  destruct (rung_vrow s _ _ _ _ (conj V L) Ru) as [Fr _].
  assert (Vr : vrow s r).
  { destruct i as [|i]; [injection Hr as <-; split; auto|]. rewrite Forall_forall in Fr. eapply Fr, nth_error_In. exact Hr. }
  destruct (row_parity_ok start fuel V ltac:(lia)) as [P _].
  destruct (row_parity_ok r fuel) as [P' _]; [apply Vr|rewrite (proj2 Vr); auto|]. rewrite (proj2 Vr) in P'. rewrite L in P.
  do 2 eexists. split; [exact P|]. rewrite P', S. do 2 f_equal. rewrite parity_from_number_odd.
  replace (map (fun pn => (s - length (pn_places pn)) / 2) (firstn i pns)) with (map pairs (firstn i pns)).
  - destruct (sgn start), (Nat.odd _); reflexivity.
  - apply map_ext_in. intros pn Hp. unfold pairs. rewrite Forall_forall in F.
    destruct (F pn) as [_ ->]; auto. rewrite <- (firstn_skipn i pns). apply in_or_app. auto.
Qed.

Example C84_example :
  row_parity 20 [1; 2; 0; 4; 3] = Ret ([0; 1; 2; 3; 4], Odd) /\ row_inv [1; 2; 0; 4; 3] = Ret [2; 0; 1; 4; 3] /\
  row_parity 20 [2; 0; 1; 4; 3] = Ret ([0; 1; 2; 3; 4], Odd) /\
  legal (PlaceNot [0; 5] 6) /\ pn_transposition (PlaceNot [0; 5] 6) = Ret [0; 2; 1; 4; 3; 5] /\
  row_parity 20 [0; 2; 1; 4; 3; 5] = Ret ([0; 1; 2; 3; 4; 5], Even) /\
  pn_transposition (PlaceNot [] 6) = Ret [1; 0; 3; 2; 5; 4] /\
  row_parity 20 [1; 0; 3; 2; 5; 4] = Ret ([0; 1; 2; 3; 4; 5], Odd).
Proof.
  splits; try (vm_compute; reflexivity). split; [cbn; lia|]. cbn.
  apply lf_place; [lia|]. apply lf_swap; [lia|]. apply lf_swap; [lia|]. apply (lf_place 6 5); [lia|]. apply lf_end.
Qed.

(** C85: the plain course of the method made from a text rings, from rounds, the changes the text
    describes, over and over in their order; it ends with rounds, at the end of the first lead which
    comes to rounds there. *)
Theorem C85_plain_course_of_a_text :
  forall hash_order name s text m fuel pc, (forall l, collected_set l (hash_order l)) -> 0 < s ->
    from_place_not_string hash_order name s text = Ret (Ok m) -> plain_course fuel m = Ret pc ->
    exists pns leads rows, pn_block_parse text s = Ret (Ok pns) /\ block_all_rows pc = Ret rows /\
      0 < leads /\ length rows = leads * length pns + 1 /\
      nth_error rows 0 = Some (seq 0 s) /\ nth_error rows (leads * length pns) = Some (seq 0 s) /\
      (forall j, 0 < j < leads -> nth_error rows (j * length pns) <> Some (seq 0 s)) /\
      (forall i r r', nth_error rows i = Some r -> nth_error rows (i + 1) = Some r' ->
         exists pn, nth_error pns (i mod length pns) = Some pn /\ pn_between r r' = Ret (Some pn) /\ rings (pn_places pn) 0 r r').
Proof.
  intros ho name s text m fuel pc Ho Hs Em Epc.
  assert (exists pns, pn_block_parse text s = Ret (Ok pns)) as (pns & Ep).
  { unfold from_place_not_string in Em. destruct (pn_block_parse text s) as [[pns|e]| | |]; cbn [bind] in Em; try discriminate. eauto. }
  destruct (pf_C43_parsed_changes_are_legal text s pns Hs Ep) as [N F].
  assert (exists n, stage_name s = Some n) as (n & Sn).
  { destruct (stage_name s) as [n|] eqn:Sn; [eauto|]. exfalso. destruct (pf_C71_errors ho name s text Hs) as (_ & _ & Pa).
    destruct (block_parse_inv text s pns Hs Ep) as [_ Bc]. rewrite (Pa pns Ho N Bc Sn) in Em. discriminate. }
  destruct (block_parse_inv text s pns Hs Ep) as [_ Bc].
  destruct (pf_C71_from_place_not_string ho name s text pns n Ho Sn Bc N) as (m' & rs & lo & Em' & Ru & B & _).
  rewrite Em in Em'. injection Em' as <-.
  assert (Rs : row_rounds s = seq 0 s) by (unfold row_rounds, range; rewrite Nat.sub_0_r; reflexivity).
  destruct (course_of_changes m s pns (map (fun r => (r, None)) (removelast (seq 0 s :: rs))) rs lo N F B) as (k & pc' & rows & Hk & Ec & Er & Lr & _ & R0 & Rl & Rm & St).
  { rewrite map_map, map_id, Rs. reflexivity. }
  { rewrite Rs. exact Ru. }
  assert (pc' = pc) as ->.
  { unfold plain_course in *. pose proof (plain_course_mono _ _ (k + fuel) _ _ Epc ltac:(lia)) as X. rewrite Ec in X by lia. congruence. }
  rewrite Rs in *. exists pns, k, rows. splits; auto. intros i r r' A A'.
  destruct (St i r r' A A') as (pn & P & [Vr Lr1] & [Vr' Lr2] & R). exists pn. splits; auto.
  destruct (pn_between_ok r r' Vr Vr') as (o & Eo & Hpb). rewrite Eo. f_equal. apply Hpb.
  rewrite Forall_forall in F. destruct (F pn (nth_error_In _ _ P)) as [G S]. rewrite Lr1. auto.
Qed.

(** C85: it always exists; and [row_in_plain_course] goes on ringing the changes over and over for
    ever. *)
Theorem C85_ringing_for_ever :
  forall hash_order name s text m, (forall l, collected_set l (hash_order l)) -> 0 < s ->
    from_place_not_string hash_order name s text = Ret (Ok m) ->
    (exists fuel0 pc, forall fuel, fuel0 <= fuel -> plain_course fuel m = Ret pc) /\
    row_in_plain_course m 0 = Ret (seq 0 s) /\
    exists pns, pn_block_parse text s = Ret (Ok pns) /\
      forall i, exists r r' pn, row_in_plain_course m i = Ret r /\ row_in_plain_course m (i + 1) = Ret r' /\
        nth_error pns (i mod length pns) = Some pn /\ pn_between r r' = Ret (Some pn) /\ rings (pn_places pn) 0 r r'.
Proof.
  intros ho name s text m Ho Hs Em.
  assert (exists pns, pn_block_parse text s = Ret (Ok pns)) as (pns & Ep).
  { unfold from_place_not_string in Em. destruct (pn_block_parse text s) as [[pns|e]| | |]; cbn [bind] in Em; try discriminate. eauto. }
  destruct (pf_C43_parsed_changes_are_legal text s pns Hs Ep) as [N F].
  destruct (block_parse_inv text s pns Hs Ep) as [_ Bc].
  assert (exists n, stage_name s = Some n) as (n & Sn).
  { destruct (stage_name s) as [n|] eqn:Sn; [eauto|]. exfalso. destruct (pf_C71_errors ho name s text Hs) as (_ & _ & Pa).
    rewrite (Pa pns Ho N Bc Sn) in Em. discriminate. }
  destruct (pf_C71_from_place_not_string ho name s text pns n Ho Sn Bc N) as (m' & rs & lo & Em' & Ru & B & _).
  rewrite Em in Em'. injection Em' as <-.
  assert (Rs : row_rounds s = seq 0 s) by (unfold row_rounds, range; rewrite Nat.sub_0_r; reflexivity).
  destruct (course_of_changes m s pns (map (fun r => (r, None)) (removelast (seq 0 s :: rs))) rs lo N F B) as (k & pc & rows & Hk & Ec & Er & Lr & Rw & R0 & Rl & Rm & St).
  { rewrite map_map, map_id, Rs. reflexivity. }
  { rewrite Rs. exact Ru. }
  set (L := length pns) in *. assert (HL : 0 < L) by (unfold L; destruct pns; [congruence|cbn; lia]).
  assert (KL : 0 < k * L) by nia.
  split; [eauto|]. split.
  { rewrite Rw, Nat.mod_0_l by lia. f_equal. rewrite <- Rs. apply nth_error_nth. exact R0. }
  exists pns. split; auto. intros i. pose proof (Nat.mod_upper_bound i (k * L) ltac:(lia)) as Hi.
  destruct (nth_error rows (i mod (k * L))) as [r|] eqn:A; [|apply nth_error_None in A; lia].
  destruct (nth_error rows (i mod (k * L) + 1)) as [r'|] eqn:A'; [|apply nth_error_None in A'; lia].
  destruct (St _ r r' A A') as (pn & P & [Vr Lr1] & [Vr' Lr2] & R). exists r, r', pn.
  assert (Mm : (i mod (k * L)) mod L = i mod L).
  { rewrite (Nat.mul_comm k), Nat.mod_mul_r by lia. rewrite Nat.mul_comm, Nat.mod_add by lia. apply Nat.mod_mod; lia. }
  rewrite Mm in P. split; [rewrite Rw; f_equal; apply nth_error_nth; exact A|]. split.
  { rewrite Rw. f_equal. apply nth_error_nth. rewrite <- (Nat.add_mod_idemp_l i 1) by lia.
    destruct (Nat.eq_dec (i mod (k * L) + 1) (k * L)) as [Q|Q].
    - rewrite Q, Nat.mod_same by lia. rewrite R0, <- Rl, <- Q. exact A'.
    - rewrite (Nat.mod_small (i mod (k * L) + 1)) by lia. exact A'. }
  split; auto. split; auto.
  destruct (pn_between_ok r r' Vr Vr') as (o & Eo & Hpb). rewrite Eo. f_equal. apply Hpb.
  rewrite Forall_forall in F. destruct (F pn (nth_error_In _ _ P)) as [G S]. rewrite Lr1. auto.
Qed.

Example C85_example :
  exists m pc rows, from_place_not_string (nodup Nat.eq_dec) (s2l "Plain") 4 (s2l "-14-14,12") = Ret (Ok m) /\
    plain_course 3 m = Ret pc /\ block_all_rows pc = Ret rows /\ length rows = 25 /\
    nth_error rows 7 = Some [0; 2; 1; 3] /\ nth_error rows 8 = Some [0; 2; 3; 1] /\
    row_in_plain_course m 32 = Ret [0; 2; 3; 1] /\
    pn_between [0; 2; 1; 3] [0; 2; 3; 1] = Ret (Some (PlaceNot [0; 1] 4)).
Proof.
  do 3 eexists. do 3 (split; [vm_compute; reflexivity|]). splits; vm_compute; reflexivity.
Qed.
