(** Plain courses of leads of changes which go round the same circle, or are each other upside down. *)
From Coq Require Import Permutation.
From Verif Require Import Base Spec SpecBlock Class SpecClass SpecVec SpecPn SpecSym SpecUpside ListFacts Row RowFacts MulFacts GroupFacts SameStageVec Block SsvFacts BlockFacts
  PlaceNot PnFacts PnFacts2 PnFacts3 LawFacts ClassFacts ClassFacts2 ClassFacts3 ClassThms CtorFacts TouchFacts SymFacts SymFacts2 SymFacts3 UpsideFacts UpsideFacts2.
From Verif Require Import Method SpecMethod MethodFacts MethodThms.
Local Open Scope list_scope.

Definition ends_after (s n : nat) (tr : nat -> row) (K : nat) : Prop :=
  0 < K /\ crs s tr (K * n) = row_rounds s /\ forall j, 0 < j < K -> crs s tr (j * n) <> row_rounds s.

Definition course_rows (s n : nat) (tr : nat -> row) (K : nat) : list row := map (crs s tr) (seq 0 (K * n)).

Section Ends.
Context (s n : nat) (tr : nat -> row).
Hypothesis Hs : 0 < s.
Hypothesis Hn : 0 < n.
Hypothesis Vtr : forall t, vrow s (tr t).
Hypothesis Ptr : forall t, tr (t + n) = tr t.

Lemma crs_pow k : crs s tr (k * n) = rpow (crs s tr n) k.
Proof.
  pose proof (crs_add s n tr Hs Hn Vtr Ptr 0 k) as E. cbn [Nat.add crs] in E. rewrite E. apply rmul_rounds_r. apply vrow_rpow, crs_v; auto.
Qed.

Lemma ends_ex : exists K, ends_after s n tr K.
Proof.
  destruct (finite_order s (crs s tr n)) as (K & HK & EK); [apply crs_v; auto|]. rewrite <- crs_pow in EK.
  assert (M : forall k, k <= K -> (exists K', ends_after s n tr K') \/ forall j, 0 < j <= k -> crs s tr (j * n) <> row_rounds s).
  { induction k as [|k IH]; intros Hk; [right; intros; lia|]. destruct (IH ltac:(lia)) as [?|N]; auto.
    destruct (list_eq_dec Nat.eq_dec (crs s tr (S k * n)) (row_rounds s)) as [E|E].
    - left. exists (S k). split; [lia|]. split; auto. intros j Hj. apply N. lia.
    - right. intros j Hj. destruct (Nat.eq_dec j (S k)) as [->|]; auto. apply N. lia. }
  destruct (M K (le_n _)) as [?|N]; auto. exfalso. apply (N K); auto.
Qed.

Lemma ends_fun K K' : ends_after s n tr K -> ends_after s n tr K' -> K = K'.
Proof.
  intros (A & B & C) (A' & B' & C'). destruct (Nat.lt_trichotomy K K') as [H|[H|H]]; auto; exfalso; [apply (C' K)|apply (C K')]; auto.
Qed.

Lemma crs_round K t : ends_after s n tr K -> crs s tr (t mod (K * n)) = crs s tr t.
Proof.
  intros (A & B & _). rewrite (Nat.div_mod t (K * n)) at 2 by nia. rewrite crs_pow in B.
  replace (K * n * (t / (K * n)) + t mod (K * n)) with (t mod (K * n) + (K * (t / (K * n))) * n) by nia. rewrite crs_add by auto.
  assert (R : rpow (crs s tr n) (K * (t / (K * n))) = row_rounds s) by (apply rpow_mul_rounds; auto; apply crs_v; auto).
  rewrite R. symmetry. apply (rmul_rounds_l_vrow s), crs_v; auto.
Qed.

Lemma course_rows_v K : Forall (vrow s) (course_rows s n tr K).
Proof. apply Forall_forall. intros r R. apply in_map_iff in R as (t & <- & _). apply crs_v; auto. Qed.

(** Reading the course from another row on, or backwards. *)
Lemma course_read K g : ends_after s n tr K -> dihedral (K * n) g -> Permutation (map (fun t => crs s tr (g t)) (seq 0 (K * n))) (course_rows s n tr K).
Proof. intros E D. rewrite <- (map_map g (crs s tr)). apply Permutation_map. apply dihedral_perm; auto. Qed.
End Ends.

(** ** From another change on *)

Section Turned_course.
Context (s n c K : nat) (tr : nat -> row).
Hypothesis Hs : 0 < s.
Hypothesis Hc : c < n.
Hypothesis Vtr : forall t, vrow s (tr t).
Hypothesis Ptr : forall t, tr (t + n) = tr t.
Hypothesis EK : ends_after s n tr K.
Let Hn : 0 < n.
Proof. lia. Qed.
Let tr' (t : nat) : row := tr (t + c).
Let Vtr' t : vrow s (tr' t).
Proof. apply Vtr. Qed.

Lemma turned_ends : ends_after s n tr' K.
Proof.
  pose proof (crs_v s tr Hs Vtr) as V. pose proof (crs_v s tr' Hs Vtr') as V'. pose proof (valid_rounds s Hs) as VR.
  assert (Q : forall j, rmul (crs s tr c) (crs s tr' (j * n)) = rmul (crs s tr (j * n)) (crs s tr c)).
  { intros j. rewrite (crs_pow s n tr) by auto. rewrite <- (turned_crs s c tr) by auto. rewrite Nat.add_comm. apply crs_add; auto. }
  destruct EK as (A & B & C). split; auto. split.
  - apply (rmul_cancel_l s (crs s tr c)); auto. rewrite Q, B. rewrite (rmul_rounds_l_vrow s (crs s tr c)) by auto. symmetry. apply (rmul_rounds_r s), V.
  - intros j Hj E. apply (C j Hj). apply (rmul_cancel_r s (crs s tr c)); auto. rewrite <- Q, E. rewrite (rmul_rounds_l_vrow s (crs s tr c)) by auto. apply (rmul_rounds_r s), V.
Qed.

Lemma turned_course : Permutation (map (rmul (crs s tr c)) (course_rows s n tr' K)) (course_rows s n tr K).
Proof.
  unfold course_rows at 1. rewrite map_map.
  rewrite (map_ext_in _ (fun t => crs s tr (turned (K * n) c t))).
  - apply course_read; auto. destruct EK as (A & _). exists c. split; [nia|]. left. auto.
  - intros t Ht. rewrite <- (turned_crs s c tr) by auto. unfold turned. rewrite (crs_round s n tr) by auto. auto.
Qed.
End Turned_course.

(** ** Backwards *)

Section Mirrored_course.
Context (s n K : nat) (tr : nat -> row).
Hypothesis Hs : 0 < s.
Hypothesis Hn : 0 < n.
Hypothesis Vtr : forall t, vrow s (tr t).
Hypothesis Itr : forall t, rmul (tr t) (tr t) = row_rounds s.
Hypothesis Ptr : forall t, tr (t + n) = tr t.
Hypothesis EK : ends_after s n tr K.
Let tr' (t : nat) : row := tr (n - 1 - t mod n).

Lemma back_crs t : t <= K * n -> crs s tr' t = crs s tr (K * n - t).
Proof. apply mirrored_crs; auto. rewrite <- crs_pow by auto. apply EK. Qed.

Lemma mirrored_ends : ends_after s n tr' K.
Proof.
  destruct EK as (A & B & C). split; auto. split.
  - rewrite back_crs, Nat.sub_diag by auto. auto.
  - intros j Hj. rewrite back_crs by nia. replace (K * n - j * n) with ((K - j) * n) by nia. apply C. lia.
Qed.

Lemma mirrored_course : Permutation (course_rows s n tr' K) (course_rows s n tr K).
Proof.
  unfold course_rows at 1. rewrite (map_ext_in _ (fun t => crs s tr (mirrored (K * n) 0 t))).
  - apply course_read; auto. destruct EK as (A & _). exists 0. split; [nia|]. right. auto.
  - intros t Ht. apply in_seq in Ht. rewrite back_crs by lia. unfold mirrored. rewrite (crs_round s n tr) by auto. auto.
Qed.
End Mirrored_course.

(** ** Upside down *)

Section Over_course.
Context (s n K : nat) (tr : nat -> row).
Hypothesis Hs : 0 < s.
Hypothesis Hn : 0 < n.
Hypothesis Vtr : forall t, vrow s (tr t).
Hypothesis EK : ends_after s n tr K.
Let tr' (t : nat) : row := conj_row s (tr t).

Lemma conj_conj r : vrow s r -> conj_row s (conj_row s r) = r.
Proof.
  intros V. pose proof (conj_v s Hs r V) as V'. pose proof (conj_v s Hs _ V') as V2. apply (nth_ext _ _ 0 0); [rewrite (proj2 V2), (proj2 V); auto|].
  intros i Hi. rewrite (proj2 V2) in Hi. rewrite (conj_nth s Hs (conj_row s r)) by auto. rewrite (conj_nth s Hs r (flip s i) V (flip_lt s i Hi)). rewrite (flip_flip s i Hi). apply flip_flip.
  pose proof (valid_row_nth_lt r i (proj1 V)) as X. rewrite (proj2 V) in X. auto.
Qed.

Lemma over_ends : ends_after s n tr' K.
Proof.
  destruct EK as (A & B & C). split; auto. split.
  - unfold tr'. rewrite over_crs, B by auto. apply conj_rounds; auto.
  - intros j Hj E. apply (C j Hj). unfold tr' in E. rewrite over_crs in E by auto. rewrite <- (conj_conj (crs s tr (j * n))) by (apply crs_v; auto).
    rewrite E. apply conj_rounds; auto.
Qed.

Lemma over_course : course_rows s n tr' K = map (conj_row s) (course_rows s n tr K).
Proof. unfold course_rows. rewrite map_map. apply map_ext. intros t. apply over_crs; auto. Qed.
End Over_course.

(** ** Plain courses *)

Lemma lead_course s pns m : 0 < s -> pns <> [] -> Forall (fun pn => legal pn /\ pn_stage pn = s) pns ->
  pn_block_to_block_from_rounds None pns = Ret (first_lead m) ->
  exists K pc pars pe, ends_after s (length pns) (trof s pns) K /\ (forall fuel, K <= fuel -> plain_course fuel m = Ret pc) /\
    block_holds pc s pars pe /\ map fst pars = course_rows s (length pns) (trof s pns) K.
Proof.
  intros Hs N F E. destruct (lead_crs s pns Hs N F (@None str)) as (b & ars & E' & H & M & _). rewrite E in E'. injection E' as <-.
  set (n := length pns) in *. set (tr := trof s pns) in *. assert (Hn : 0 < n) by (unfold n; destruct pns; [congruence|cbn; lia]).
  assert (Vtr : forall t, vrow s (tr t)) by (intros; apply trof_v; auto). assert (Ptr : forall t, tr (t + n) = tr t) by (intros; apply trof_period; auto).
  assert (La : length ars = n) by (rewrite <- (map_length fst), M; apply crows_len).
  assert (I : is_identity (hd [] (all_rows_of ars (crs s tr n)))).
  { unfold all_rows_of. rewrite M. unfold crows. destruct n as [|k]; [lia|]. cbn [seq map app hd crs]. apply rounds_identity. }
  destruct (pf_C59_plain_course m s ars _ H I) as (K & pc & pars & pe & HK & (e & Pe & Ie) & Mi & Fu & Hp & _ & Lp & Rows).
  assert (Vn := crs_v s tr Hs Vtr n).
  exists K, pc, pars, pe. splits; auto.
  - split; auto. split.
    + rewrite crs_pow by auto. apply power_fun in Pe. subst e.
      pose proof (vrow_rpow s _ K Vn) as VK. apply identity_rounds in Ie. rewrite (proj2 VK) in Ie. auto.
    + intros j Hj Q. rewrite crs_pow in Q by auto. apply (Mi j (rpow (crs s tr n) j) Hj); [eapply power_rpow; eauto|]. rewrite Q. apply rounds_identity.
  - apply (nth_ext _ _ [] []); [unfold course_rows; rewrite !map_length, seq_length; lia|]. rewrite map_length, Lp, La. intros t Ht.
    unfold course_rows. rewrite (nth_indep (map (crs s tr) _) [] (crs s tr 0)) by (rewrite map_length, seq_length; auto). rewrite map_nth, seq_nth by auto. cbn [Nat.add].
    assert (Dm : t = t / n * n + t mod n) by (rewrite Nat.mul_comm; apply Nat.div_mod; lia). assert (Hm : t mod n < n) by (apply modlt; auto).
    assert (Hj : t / n < K) by (apply Nat.div_lt_upper_bound; nia).
    destruct (nth_error ars (t mod n)) as [[r l]|] eqn:Er; [|apply nth_error_None in Er; lia].
    destruct (Rows (t / n) (t mod n) r l Hj Er) as (h & r' & Ph & Co & En & _). rewrite La, <- Dm in En.
    apply nth_error_nth. rewrite nth_error_map, En. cbn. f_equal. apply power_fun in Ph. apply composition_fun in Co. subst h r'.
    assert (Er' : nth_error (map fst ars) (t mod n) = Some r) by (rewrite nth_error_map, Er; auto).
    rewrite M, crows_nth in Er' by auto. injection Er' as <-. rewrite <- crs_add by auto. f_equal. lia.
Qed.
