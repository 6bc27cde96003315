(** Property theorems C99: the cycles of a row. *)
(*IMPORTS*)
From Coq Require Import Factorial.
From Verif Require Import Base Bell Stage Parity Row Utils SameStageVec Block PlaceNot Spec SpecVec SpecBlock SpecPn ListFacts
  BellFacts RowFacts MulFacts ParityFacts GroupFacts GroupFacts2 SsvFacts BlockFacts LawFacts LawFacts2 LawFacts3
  Class SpecClass Method SpecMethod SpecCycle CycleFacts.
From Verif Require Import MethodThms.
Local Open Scope list_scope.
(*BODY*)
(** C99: every bell is on a cycle, whose length is at most the number of bells; the [k]-th power of a row
    takes each bell [k] steps along its cycle, so it brings the bell home exactly when the length of the
    bell's cycle divides [k]. *)
Theorem C99_every_bell_comes_home :
  forall r b, valid_row r -> b < length r ->
    exists c, cycle_length r b c /\ c <= length r /\
      forall k p, pow_u r k = Ret p -> nth_error p b = Some (follow r k b) /\ (nth_error p b = Some b <-> Nat.divide c k).
Proof.
  intros r b V B. destruct (cycle_exists r b V B) as (c & C). exists c. splits; auto; [eapply cycle_le; eauto|].
  intros k p E. assert (Vr : vrow (length r) r) by (split; auto). rewrite (pow_u_ok _ _ _ Vr) in E. injection E as <-.
  assert (Q : nth_error (rpow r k) b = Some (follow r k b)).
  { rewrite (nth_error_nth' _ 0) by (rewrite (proj2 (vrow_rpow _ r k Vr)); auto). rewrite follow_rpow; auto. }
  split; auto. rewrite Q, <- (cycle_divide r b c k C). split; [congruence|intros ->; auto].
Qed.

(** C99: the number of rows in the closure of a row is the least common multiple of the lengths of the
    cycles of its bells, so it divides the factorial of the number of bells. *)
Theorem C99_the_order_is_the_lcm_of_the_cycles :
  forall r, valid_row r ->
    (forall fuel l, closure fuel r = Ret l -> lcm_of_cycles r (length l) /\ Nat.divide (length l) (fact (length r))) /\
    (forall fuel l, closure_from_rounds fuel r = Ret l -> lcm_of_cycles r (length l)) /\
    (forall fuel, fact (length r) < fuel -> exists l, closure fuel r = Ret l) /\
    (forall n m, lcm_of_cycles r n -> lcm_of_cycles r m -> n = m).
Proof.
  intros r V. assert (Vr : vrow (length r) r) by (split; auto).
  assert (F : forall k, lcm_of_cycles r k -> Nat.divide k (fact (length r))).
  { intros k [_ H]. apply H. intros b c B C. apply divide_fact; [apply C|]. eapply cycle_le; eauto. }
  destruct (closure_ok _ _ Vr) as (k & P & E & M & C1 & C2). pose proof (order_lcm r k V P E M) as O. split; [|split; [|split]].
  - intros fuel l C. destruct (closure_result _ _ _ _ Vr C) as (k' & P' & E' & M' & ->). rewrite map_length, seq_length.
    pose proof (order_lcm r k' V P' E' M') as O'. split; auto.
  - intros fuel l C. destruct (closure_from_rounds_result _ _ _ _ Vr C) as (k' & P' & E' & M' & ->). rewrite map_length, seq_length.
    apply order_lcm; auto.
  - intros fuel L. exists (map (rpow r) (seq 1 k)). apply C1. apply F in O. apply Nat.divide_pos_le in O; [lia|]. apply lt_O_fact.
  - apply lcm_unique.
Qed.

(** C99: the parity of a row is odd exactly when the number of bells less the number of cycles is odd,
    however one bell of each cycle is picked; and one can always be picked. *)
Theorem C99_parity_by_cycles :
  forall r, valid_row r ->
    (exists reps, one_of_each_cycle r reps) /\
    (forall reps fuel, one_of_each_cycle r reps -> 2 * length r < fuel ->
       row_parity fuel r = Ret (row_rounds (length r), if Nat.odd (length r - length reps) then Odd else Even)).
Proof.
  intros r V. split; [apply reps_exist; auto|]. intros reps fuel O L.
  rewrite (proj1 (row_parity_ok r fuel V L)), (sgn_cycles r reps); auto.
Qed.

(** C99: a row carried over by another row (first undo [a], then do [r], then do [a]) has the cycles of the
    first with the bells renamed, hence the same order. *)
Theorem C99_conjugates :
  forall a r ar ai c, valid_row a -> valid_row r ->
    row_mul a r = Ret ar -> row_inv a = Ret ai -> row_mul ar ai = Ret c ->
    (forall b k, b < length r -> (cycle_length c (nth b a 0) k <-> cycle_length r b k)) /\
    (forall n, lcm_of_cycles c n <-> lcm_of_cycles r n) /\
    (forall fuel fuel' l l', closure fuel r = Ret l -> closure fuel' c = Ret l' -> length l = length l').
Proof.
  intros a r ar ai c Va Vr E1 E2 E3.
  assert (L : length a = length r).
  { destruct (Nat.eq_dec (length a) (length r)) as [|D]; auto. rewrite (row_mul_panic a r Va Vr D) in E1. discriminate. }
  set (n := length r) in *. assert (A : vrow n a) by (split; auto). assert (R : vrow n r) by (split; auto).
  rewrite (row_mul_ok n a r A R) in E1. injection E1 as <-. rewrite row_inv_ok in E2 by auto. injection E2 as <-.
  rewrite (row_mul_ok n) in E3 by (auto using valid_rmul; apply valid_rinv; auto). injection E3 as <-.
  set (c := rmul (rmul a r) (rinv a)).
  assert (C : vrow n c) by (apply valid_rmul; [apply valid_rmul; auto|apply valid_rinv; auto]).
  assert (Lt : forall b k, b < n -> follow r k b < n) by (intros b k B; apply (follow_lt r k b Vr B)).
  assert (S1 : forall x, x < n -> nth (nth x a 0) c 0 = nth (nth x r 0) a 0).
  { intros x X. change (nth (nth x a 0) c 0) with (nth (nth x a 0) c 0).
    assert (Q : rmul c a = rmul a r).
    { unfold c. rewrite (rmul_assoc_vrow n) by (auto using valid_rmul; apply valid_rinv; auto).
      rewrite (rmul_rinv_l n a A). apply (rmul_rounds_r n). apply valid_rmul; auto. }
    apply (f_equal (fun l => nth x l 0)) in Q. rewrite !nth_rmul in Q; [auto|fold n; lia|rewrite L; auto]. }
  assert (Fo : forall k b, b < n -> follow c k (nth b a 0) = nth (follow r k b) a 0).
  { induction k as [|k IH]; intros b B; cbn; auto. rewrite IH by auto. apply S1. auto. }
  assert (Inj : forall x y, x < n -> y < n -> nth x a 0 = nth y a 0 -> x = y).
  { intros x y X Y. apply (vinj a); auto; rewrite L; auto. }
  assert (Cy : forall b k, b < n -> (cycle_length c (nth b a 0) k <-> cycle_length r b k)).
  { intros b k B. unfold cycle_length. split; intros (P & E & M); splits; auto.
    - rewrite Fo in E by auto. apply Inj; auto.
    - intros j J F. apply (M j J). rewrite Fo, F; auto.
    - rewrite Fo, E; auto.
    - intros j J F. apply (M j J). rewrite Fo in F by auto. apply Inj; auto. }
  assert (On : forall x, x < n -> exists b, b < n /\ nth b a 0 = x).
  { intros x X. destruct A as [A1 A2]. destruct A1 as (_ & _ & O). pose proof (proj2 (O x) ltac:(lia)) as I. apply (In_nth _ _ 0) in I as (b & B & E). exists b. split; auto. lia. }
  assert (Lc : forall m, (forall b k, b < length c -> cycle_length c b k -> Nat.divide k m) <->
                         (forall b k, b < n -> cycle_length r b k -> Nat.divide k m)).
  { intros m. rewrite (proj2 C). split; intros H b k B K.
    - apply (H (nth b a 0) k); [rewrite <- L; apply vnth; auto; lia|]. apply Cy; auto.
    - destruct (On b B) as (b' & B' & <-). apply (H b' k); auto. apply Cy; auto. }
  assert (Lm : forall m, lcm_of_cycles c m <-> lcm_of_cycles r m).
  { intros m. unfold lcm_of_cycles. rewrite (Lc m). fold n. split; intros [H1 H2]; split; auto; intros q Q; apply H2; apply Lc; auto. }
  split; [auto|]. split; [auto|]. intros fuel fuel' l l' H1 H2.
  destruct (closure_result _ _ _ _ R H1) as (k & P & E & M & ->). destruct (closure_result _ _ _ _ C H2) as (k' & P' & E' & M' & ->).
  rewrite !map_length, !seq_length. rewrite <- (proj2 C) in E', M'.
  apply (lcm_unique r); [apply order_lcm; auto|]. apply Lm. apply order_lcm; auto. apply C.
Qed.

(** C99: the plain course of a method whose lead starts at rounds has as many leads as the least common
    multiple of the cycles of its lead head. *)
Theorem C99_plain_course :
  forall m s ars lo, block_holds (first_lead m) s ars lo -> is_identity (hd [] (all_rows_of ars lo)) ->
    (forall fuel, fact s <= fuel -> exists pc, plain_course fuel m = Ret pc) /\
    forall fuel pc, plain_course fuel m = Ret pc ->
      exists n, lcm_of_cycles lo n /\ block_len pc = n * lead_len m.
Proof.
  intros m s ars lo H I. destruct (pf_C59_plain_course m s ars lo H I) as (k & pc & pars & pe & P & (e & Pe & Ie) & M & F & Hp & _ & L & _).
  assert (Vl : vrow s lo). { pose proof (holds_brep _ _ _ _ H) as B. apply (brep_vrows _ _ _ _ B). }
  assert (O : lcm_of_cycles lo k).
  { apply order_lcm; auto; [apply Vl| |].
    - rewrite (proj2 Vl). apply power_fun in Pe. subst e. apply identity_rounds in Ie. rewrite Ie. f_equal. apply (vrow_rpow s lo k Vl).
    - intros j J E. apply (M j (rpow lo j) J); [eapply power_rpow; eauto|]. rewrite E. apply rounds_identity. }
  split.
  - intros fuel Hf. exists pc. apply F. assert (D : Nat.divide k (fact s)).
    { apply O. intros b c B C. apply divide_fact; [apply C|]. rewrite <- (proj2 Vl). eapply cycle_le; eauto. apply Vl. }
    apply Nat.divide_pos_le in D; [lia|]. apply lt_O_fact.
  - intros fuel pc' E. exists k. split; auto.
    assert (pc' = pc) as -> by (unfold plain_course in *; pose proof (plain_course_mono _ _ (k + fuel) _ _ E ltac:(lia)) as X; rewrite F in X by lia; congruence).
    unfold lead_len. rewrite (brep_len _ _ _ _ (holds_brep _ _ _ _ Hp)), (brep_len _ _ _ _ (holds_brep _ _ _ _ H)). auto.
Qed.

(** The row "23154" has a cycle of three bells and one of two; its order is six and it is odd. *)
Example C99_witness :
  valid_row [1; 2; 0; 4; 3] /\ cycle_length [1; 2; 0; 4; 3] 0 3 /\ cycle_length [1; 2; 0; 4; 3] 4 2 /\
  one_of_each_cycle [1; 2; 0; 4; 3] [0; 3] /\ (exists l, closure 7 [1; 2; 0; 4; 3] = Ret l /\ length l = 6) /\
  row_parity 11 [1; 2; 0; 4; 3] = Ret ([0; 1; 2; 3; 4], Odd).
Proof.
  assert (W : forall k, follow [1; 2; 0; 4; 3] k 0 = k mod 3).
  { induction k as [|k IH]; auto. cbn [follow]. rewrite IH. pose proof (Nat.mod_upper_bound k 3 ltac:(lia)) as B.
    replace (S k) with (k + 1) by lia. rewrite (Nat.add_mod k 1 3) by lia. destruct (k mod 3) as [|[|[|q]]]; cbn; auto; lia. }
  assert (W' : forall k, follow [1; 2; 0; 4; 3] k 3 = 3 + k mod 2).
  { induction k as [|k IH]; auto. cbn [follow]. rewrite IH. pose proof (Nat.mod_upper_bound k 2 ltac:(lia)) as B.
    replace (S k) with (k + 1) by lia. rewrite (Nat.add_mod k 1 2) by lia. destruct (k mod 2) as [|[|q]]; cbn; auto; lia. }
  split; [vr|]. split; [|split; [|split; [|split; [|vm_compute; reflexivity]]]].
  - split; [lia|]. split; [reflexivity|]. intros j J. rewrite W. rewrite Nat.mod_small; lia.
  - split; [lia|]. split; [reflexivity|]. intros j J. replace j with 1 by lia. cbn. lia.
  - split; [|split; [|split]].
    + repeat constructor; cbn; lia.
    + cbn. lia.
    + cbn [length]. intros b B. destruct (Nat.ltb_spec b 3).
      * exists 0. split; [cbn; auto|]. exists b. rewrite W. apply Nat.mod_small. auto.
      * exists 3. split; [cbn; auto|]. exists (b - 3). rewrite W'. rewrite Nat.mod_small; lia.
    + intros x y [<-|[<-|[]]] [<-|[<-|[]]] (k & E); auto; exfalso.
      * rewrite W in E. pose proof (Nat.mod_upper_bound k 3 ltac:(lia)). lia.
      * rewrite W' in E. lia.
  - eexists. split; vm_compute; reflexivity.
Qed.
