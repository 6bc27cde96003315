(** Facts about courses whose changes read the same backwards in two sections. *)
From Verif Require Import Base Spec ListFacts Stage Row RowFacts MulFacts GroupFacts PlaceNot SpecPn SymFacts3 ShapeFacts.
Local Open Scope list_scope.

Lemma nth_error_palin {A} (l : list A) i : rev l = l -> i < length l -> nth_error l (length l - 1 - i) = nth_error l i.
Proof.
  intros P H. transitivity (nth_error (rev l) i); [|rewrite P; reflexivity].
  destruct (nth_error l (length l - 1 - i)) as [x|] eqn:E; [|apply nth_error_None in E; lia].
  symmetry. destruct (nth_error (rev l) i) as [y|] eqn:E'; [|apply nth_error_None in E'; rewrite rev_length in E'; lia].
  apply nth_error_nth with (d := x) in E'. rewrite rev_nth in E' by auto. apply nth_error_nth with (d := x) in E.
  replace (length l - S i) with (length l - 1 - i) in E' by lia. congruence.
Qed.

Lemma two_sections s q1 q2 k i : rev q1 = q1 -> rev q2 = q2 -> q1 ++ q2 <> [] -> i < k * length (q1 ++ q2) ->
  trof s (q1 ++ q2) (length q1 + k * length (q1 ++ q2) - 1 - i) = trof s (q1 ++ q2) i.
Proof.
  intros P1 P2 N Hi. set (n := length (q1 ++ q2)) in *. assert (Hn : 0 < n) by (unfold n; destruct (q1 ++ q2); [congruence|cbn; lia]).
  assert (En : n = length q1 + length q2) by (unfold n; apply app_length).
  pose proof (Nat.mod_upper_bound i n ltac:(lia)) as B. pose proof (Nat.div_mod i n ltac:(lia)) as D.
  set (a := i mod n) in *. set (j := i / n) in *.
  assert (J : j < k) by nia.
  unfold trof. fold n. replace (nth_error (q1 ++ q2) ((length q1 + k * n - 1 - i) mod n)) with (nth_error (q1 ++ q2) a); [reflexivity|].
  destruct (Nat.lt_ge_cases a (length q1)) as [H|H].
  - replace (length q1 + k * n - 1 - i) with (length q1 - 1 - a + (k - j) * n) by nia. rewrite Nat.mod_add, Nat.mod_small by lia.
    rewrite !nth_error_app1 by lia. symmetry. apply nth_error_palin; auto.
  - replace (length q1 + k * n - 1 - i) with (length q1 + n - 1 - a + (k - j - 1) * n) by nia. rewrite Nat.mod_add, Nat.mod_small by lia.
    rewrite !nth_error_app2 by lia. replace (length q1 + n - 1 - a - length q1) with (length q2 - 1 - (a - length q1)) by lia.
    symmetry. apply nth_error_palin; auto. lia.
Qed.

Lemma mirror_course s q1 q2 K : 0 < s -> rev q1 = q1 -> rev q2 = q2 -> q1 ++ q2 <> [] ->
  Forall (fun pn => legal pn /\ pn_stage pn = s) (q1 ++ q2) -> ends_after s (length (q1 ++ q2)) (trof s (q1 ++ q2)) K ->
  forall i, i <= K * length (q1 ++ q2) ->
  crs s (trof s (q1 ++ q2)) (length q1 + K * length (q1 ++ q2) - i) =
  rmul (crs s (trof s (q1 ++ q2)) (length q1)) (crs s (trof s (q1 ++ q2)) i).
Proof.
  intros Hs P1 P2 N F E. set (pns := q1 ++ q2) in *. set (n := length pns) in *.
  pose proof (trof_v s pns Hs N F) as V. pose proof (trof_inv s pns Hs N F) as I. pose proof (trof_period s pns Hs N F) as P. fold n in P.
  assert (Hn : 0 < n) by (unfold n; destruct pns; [congruence|cbn; lia]).
  pose proof (crs_v s (trof s pns) Hs V) as W.
  induction i as [|i IH]; intros Hi.
  - rewrite Nat.sub_0_r. cbn [crs]. rewrite rmul_rounds_r by apply W.
    rewrite <- (crs_round s n (trof s pns) Hs Hn V P K (length q1 + K * n) E).
    rewrite <- (crs_round s n (trof s pns) Hs Hn V P K (length q1) E). f_equal.
    replace (length q1 + K * n) with (length q1 + 1 * (K * n)) by lia. apply Nat.mod_add. destruct E as (A & _). nia.
  - specialize (IH ltac:(lia)). pose proof (two_sections s q1 q2 K i P1 P2 N ltac:(fold pns n; lia)) as T. fold pns n in T.
    replace (length q1 + K * n - i) with (S (length q1 + K * n - 1 - i)) in IH by lia. cbn [crs] in IH. rewrite T in IH.
    replace (length q1 + K * n - S i) with (length q1 + K * n - 1 - i) by lia. cbn [crs].
    rewrite <- (rmul_assoc_vrow s) by auto. rewrite <- IH. rewrite (rmul_assoc_vrow s) by auto. rewrite I. symmetry. apply rmul_rounds_r. apply W.
Qed.

Definition at_place (b : nat) (r : list nat) (i : nat) : Prop := forall j, nth_error r j = Some b <-> j = i.

Lemma at_place_fun b r i i' : at_place b r i -> at_place b r i' -> i = i'.
Proof. intros H K. apply K. apply H. reflexivity. Qed.

Lemma at_place_renamed s w r b c i : vrow s w -> vrow s r -> nth_error w b = Some c -> at_place b r i -> at_place c (rmul w r) i.
Proof.
  intros [(_ & Nd & _) Lw] [(_ & _ & Q) Lr] Ec J j. rewrite <- (J j). unfold rmul. rewrite nth_error_map. split.
  - destruct (nth_error r j) as [y|] eqn:Ey; cbn; [|discriminate]. intros [= Ec2]. f_equal. apply (proj1 (NoDup_nth w 0) Nd).
    + rewrite Lw, <- Lr. apply Q. eapply nth_error_In; eauto.
    + apply nth_error_Some. congruence.
    + rewrite Ec2. symmetry. apply nth_error_nth. auto.
  - intros ->. cbn. f_equal. apply nth_error_nth. auto.
Qed.

Lemma Forall2_back {A B} (P : A -> B -> Prop) l m : Forall2 P l m -> Forall2 P (rev l) (rev m).
Proof. induction 1; cbn; [constructor|]. apply Forall2_app; auto. Qed.

Lemma paths_back b l p q : Forall2 (at_place b) (rev l) p -> Forall2 (at_place b) l q -> q = rev p.
Proof.
  intros H K. apply Forall2_back in H. rewrite rev_involutive in H. revert K. generalize (rev p) as t, H. clear H p. intros t H. revert q.
  induction H as [|r i l t H1 H IH]; intros q K; inversion K; subst; auto. f_equal; auto. eapply at_place_fun; eauto.
Qed.
