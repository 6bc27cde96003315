(** Lemmas about courses without repeated rows. *)
From Verif Require Import Base Spec ListFacts Bell Stage Row RowFacts MulFacts GroupFacts
  Utils SameStageVec SpecVec SsvFacts Block SpecBlock BlockFacts PlaceNot Class Method MethodFacts.
Local Open Scope list_scope.

Lemma plain_course_loop_mono d : forall f n b c, plain_course_loop f n b = Ret c -> plain_course_loop (d + f) n b = Ret c.
Proof.
  induction f as [|f IH]; intros n b c E; [discriminate|]. rewrite <- plus_n_Sm. cbn [plain_course_loop] in *.
  destruct (block_leftover_row b) as [r| | |]; cbn [bind] in *; auto; try discriminate.
  destruct (is_rounds r); auto. destruct (block_extend_from_within _ _ _) as [b'| | |]; cbn [bind] in *; auto; discriminate.
Qed.

Lemma plain_course_det m k pc' fuel pc :
  (forall f, k <= f -> plain_course f m = Ret pc') -> plain_course fuel m = Ret pc -> pc' = pc.
Proof.
  intros Ec E. assert (E' : plain_course (k + fuel) m = Ret pc') by (apply Ec; lia).
  unfold plain_course in *. rewrite (plain_course_loop_mono k _ _ _ _ E) in E'. congruence.
Qed.

Lemma closure_loop_mono r d : forall f last l, closure_loop f r last = Ret l -> closure_loop (d + f) r last = Ret l.
Proof.
  induction f as [|f IH]; intros last l E; [discriminate|]. rewrite <- plus_n_Sm. cbn [closure_loop] in *.
  destruct (is_rounds last); auto. destruct (mul_unchecked last r) as [next| | |]; cbn [bind] in *; try discriminate.
  destruct (closure_loop f r next) as [rest| | |] eqn:Ec; cbn [bind] in *; try discriminate. rewrite (IH _ _ Ec). auto.
Qed.

Lemma closure_lists s r k fuel l : vrow s r -> 0 < k -> rpow r k = row_rounds s -> (forall j, 0 < j < k -> rpow r j <> row_rounds s) ->
  closure fuel r = Ret l -> forall x, In x l <-> exists j, j < k /\ x = rpow r j.
Proof.
  intros V Hk E Mn Ec. destruct (closure_ok s r V) as (k' & Hk' & E' & Mn' & C & _).
  assert (k' = k) as ->.
  { destruct (Nat.lt_trichotomy k' k) as [L|[L|L]]; auto; exfalso; [apply (Mn k'); auto|apply (Mn' k); auto]. }
  unfold closure in *. apply (closure_loop_mono r (S k)) in Ec. rewrite C in Ec by lia. injection Ec as <-.
  intros x. rewrite in_map_iff. split.
  - intros (j & <- & Hj). apply in_seq in Hj. exists (j mod k). split; [apply Nat.mod_upper_bound; lia|].
    apply (rpow_mod s r k V Hk E).
  - intros (j & Hj & ->). destruct j as [|j].
    + exists k. split; [rewrite E; cbn; rewrite (proj2 V); reflexivity|apply in_seq; lia].
    + exists (S j). split; auto. apply in_seq. lia.
Qed.
