(** Lemmas for C149: plain courses as products. *)
From Coq Require Import Permutation.
From Verif Require Import Base Spec ListFacts Row RowFacts MulFacts GroupFacts GroupFacts2 Utils LawFacts2 CosetFacts.
Local Open Scope list_scope.

Lemma flat_map_cons_perm {A B} (f : A -> B) (g : A -> list B) : forall l, Permutation (flat_map (fun x => f x :: g x) l) (map f l ++ flat_map g l).
Proof.
  induction l as [|x l IH]; cbn [flat_map map app]; auto. constructor. rewrite IH. rewrite !app_assoc. apply Permutation_app_tail. apply Permutation_app_comm.
Qed.

Lemma heads_first (R : list row) : forall P, Permutation (flat_map (fun p => map (rmul p) R) P) (mstep P R).
Proof.
  unfold mstep. induction P as [|p P IH]; cbn [flat_map map].
  - induction R as [|r R IH]; cbn; auto.
  - etransitivity; [|symmetry; apply (flat_map_cons_perm (rmul p) (fun r2 => map (fun r1 => rmul r1 r2) P))]. apply Permutation_app_head. auto.
Qed.

Lemma mstep_perm_l (P Q R : list row) : Permutation P Q -> Permutation (mstep P R) (mstep Q R).
Proof.
  intros H. rewrite <- (heads_first R P), <- (heads_first R Q). rewrite H. auto.
Qed.

Lemma mstep_perm_r (P Q R : list row) : Permutation P Q -> Permutation (mstep R P) (mstep R Q).
Proof. intros H. unfold mstep. rewrite H. auto. Qed.

Lemma blocks_of_list {A} n (f : nat -> list A) : forall k L, length L = k * n -> (forall j, j < k -> length (f j) = n) ->
  (forall j i r, j < k -> nth_error (f j) i = Some r -> nth_error L (j * n + i) = Some r) -> L = flat_map f (seq 0 k).
Proof.
  induction k as [|k IH]; intros L Hl Hf H.
  - destruct L; [auto|discriminate].
  - rewrite seq_S, flat_map_app. cbn [flat_map Nat.add]. rewrite app_nil_r, <- (firstn_skipn (k * n) L). cbn [Nat.mul] in Hl. f_equal.
    + apply IH.
      * rewrite firstn_length. lia.
      * intros j Hj. apply Hf. lia.
      * intros j i r Hj E. assert (i < n) by (rewrite <- (Hf j) by lia; apply nth_error_Some; congruence).
        rewrite nth_error_firstn. destruct (j * n + i <? k * n) eqn:Q; [apply H; auto; lia|]. apply Nat.ltb_ge in Q. assert (S j * n <= k * n) by (apply Nat.mul_le_mono_r; lia). cbn [Nat.mul] in *. lia.
    + apply nth_error_ext. intros i. rewrite nth_error_skipn. destruct (nth_error (f k) i) as [r|] eqn:E.
      * apply H; auto.
      * apply nth_error_None in E. rewrite Hf in E by lia. apply nth_error_None. lia.
Qed.

Lemma mstep_assoc n (P Q R : list row) : Forall (vrow n) P -> Forall (vrow n) Q -> Forall (vrow n) R -> mstep (mstep P Q) R = mstep P (mstep Q R).
Proof.
  intros Vp Vq Vr. unfold mstep. induction R as [|r R IH]; cbn [flat_map]; auto. inversion Vr as [|? ? V Vr']; subst. rewrite flat_map_app. f_equal; auto.
  clear IH Vr Vr'. induction Q as [|q Q IH]; cbn [flat_map map]; auto. inversion Vq as [|? ? W Vq']; subst. rewrite map_app. f_equal; auto.
  rewrite map_map. apply map_ext_in. intros p Ip. rewrite Forall_forall in Vp. apply (rmul_assoc_vrow n); auto.
Qed.

Lemma inverse_parts n (P Q : list row) : Forall (vrow n) P -> Forall (vrow n) Q ->
  Permutation (map rinv (mstep P Q)) (mstep (map rinv Q) (map rinv P)).
Proof.
  intros Vp Vq. rewrite <- (heads_first (map rinv P) (map rinv Q)). unfold mstep. rewrite Forall_forall in Vp, Vq.
  induction Q as [|q Q IH]; cbn [flat_map map]; auto. rewrite map_app, !map_map. apply Permutation_app.
  - erewrite map_ext_in; [reflexivity|]. intros p Ip. cbn beta. apply (rinv_rmul n); auto. apply Vq. left; auto.
  - apply IH. intros x I. apply Vq. right; auto.
Qed.

Lemma inverse_group n G : NoDup G -> (forall g, In g G -> vrow n g) -> subgroup n (fun x => In x G) -> Permutation (map rinv G) G.
Proof.
  intros N V Sg. apply NoDup_Permutation_bis.
  - apply NoDup_map_inj; auto. intros x y Ix Iy E. rewrite <- (rinv_rinv n x), <- (rinv_rinv n y) by auto. congruence.
  - rewrite map_length. auto.
  - intros x I. apply in_map_iff in I as (y & <- & I). apply (subgroup_inv n (fun x => In x G)); auto.
Qed.

(** A group within a greater one, on the right. *)
Lemma parts_right n C G : NoDup C -> C <> [] -> (forall g, In g C -> vrow n g) -> subgroup n (fun x => In x C) ->
  NoDup G -> (forall g, In g G -> vrow n g) -> subgroup n (fun x => In x G) -> (forall x, In x C -> In x G) ->
  exists hs, (forall x, In x hs -> In x G) /\ Permutation (mstep hs C) G.
Proof.
  intros NC NeC VC SC NG VG SG I. destruct (parts_of_rows n C NC NeC VC SC (length G) G) as (rs & R1 & R2); auto.
  { intros g x Ig Ix. apply (subgroup_mul n (fun x => In x G)); auto. }
  assert (Vr : Forall (vrow n) rs) by (apply Forall_forall; intros x Ix; auto). assert (VC' : Forall (vrow n) C) by (apply Forall_forall; auto).
  exists (map rinv rs). split.
  - intros x Ix. apply in_map_iff in Ix as (y & <- & Iy). apply (subgroup_inv n (fun x => In x G)); auto.
  - rewrite <- (inverse_group n G) by auto. rewrite <- R2. rewrite (inverse_parts n) by auto. apply mstep_perm_r. symmetry. apply (inverse_group n); auto.
Qed.
