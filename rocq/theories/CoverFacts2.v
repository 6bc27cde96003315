(** Facts about changes and courses with cover bells. *)
From Coq Require Import Sorted.
From Verif Require Import Base Spec SpecVec SpecBlock SpecPn SpecCover SpecCoverPn ListFacts Bell Stage Row RowFacts MulFacts GroupFacts SameStageVec Block
  PlaceNot PnFacts PnFacts2 PnFacts3 SsvFacts BlockFacts SymFacts SymFacts2 SymFacts3 UpsideFacts2 ShapeFacts CoverFacts.
Local Open Scope list_scope.

Lemma rings_places made k : forall i, (forall p, i <= p < i + k -> In p made) -> rings made i (seq i k) (seq i k).
Proof.
  induction k as [|k IH]; intros i H; cbn [seq]; constructor; [apply H; lia|]. rewrite Nat.add_1_r. apply IH. intros p P. apply H. lia.
Qed.

Lemma rings_ext made made' n s i r r' : n <= s -> rings made i r r' -> i + length r = n ->
  (forall p, p < n -> (In p made' <-> In p made)) -> (forall p, n <= p < s -> In p made') ->
  rings made' i (ext n s r) (ext n s r').
Proof.
  intros Hns R. induction R as [i|i b r r' I R IH|i a b r r' I J R IH]; intros L E F; unfold ext in *; cbn [app length] in *.
  - replace i with n by lia. apply rings_places. intros p P. apply F. lia.
  - constructor; [apply E; auto; lia|]. apply IH; auto. lia.
  - constructor; [rewrite E by lia; auto|rewrite E by lia; auto|]. apply IH; auto. lia.
Qed.

Lemma covered_legal_from n s l : n <= s -> forall i, legal_from n i l -> legal_from s i (l ++ seq n (s - n)).
Proof.
  intros Hns i H. induction H as [|i l Hi H IH|i l Hi H IH].
  - cbn [app]. assert (G : forall k i, i + k = s -> legal_from s i (seq i k)).
    { induction k as [|k IH]; intros i E; cbn [seq]; [replace i with s by lia; constructor|]. constructor; [lia|].
      rewrite Nat.add_1_r. apply IH. lia. }
    apply G. lia.
  - cbn [app]. constructor; [lia|auto].
  - apply lf_swap; [lia|auto].
Qed.

Lemma covered_change_eq s pn pn' : legal pn -> legal pn' ->
  covered_change s pn pn' <-> pn_stage pn <= s /\ pn' = {| pn_places := pn_places pn ++ seq (pn_stage pn) (s - pn_stage pn); pn_stage := s |}.
Proof.
  intros [Hn L] [Hs L']. split.
  - intros (E & Le & H). split; auto. destruct pn' as [l' s']. cbn [pn_stage pn_places] in *. subst s'. f_equal.
    apply sorted_same; [eapply legal_sorted; eauto|eapply legal_sorted; apply (covered_legal_from _ _ _ Le 0 L)|].
    intros x. rewrite H, in_app_iff, in_seq. intuition lia.
  - intros (Le & ->). unfold covered_change. cbn [pn_stage pn_places]. splits; auto. intros p. rewrite in_app_iff, in_seq. intuition lia.
Qed.

Lemma covered_rings s pn pn' r r' : legal pn -> covered_change s pn pn' -> length r = pn_stage pn -> rings (pn_places pn) 0 r r' ->
  rings (pn_places pn') 0 (ext (pn_stage pn) s r) (ext (pn_stage pn) s r').
Proof.
  intros [_ L] (_ & Le & H) Lr R. apply (rings_ext (pn_places pn)); auto.
  - intros p P. rewrite H. intuition lia.
  - intros p P. apply H. auto.
Qed.

Lemma covered_trof n s pns pns' t : 0 < n -> pns <> [] ->
  Forall (fun pn => legal pn /\ pn_stage pn = n) pns -> Forall (fun pn => legal pn /\ pn_stage pn = s) pns' ->
  Forall2 (covered_change s) pns pns' -> trof s pns' t = ext n s (trof n pns t).
Proof.
  intros Hn N F F' U.
  assert (L : length pns = length pns') by (clear -U; induction U; cbn; auto).
  assert (N' : pns' <> []) by (intros ->; destruct pns; [auto|discriminate]).
  assert (Le : n <= s).
  { destruct U as [|pn pn' l l' (_ & Le & _) U]; [congruence|]. inversion F as [|? ? (_ & E) _]; subst. auto. }
  destruct (trof_ok n pns Hn N F t) as (pn & E & R). destruct (trof_ok s pns' ltac:(lia) N' F' t) as (pn' & E' & R'). rewrite L in E.
  assert (X : covered_change s pn pn').
  { clear -U E E'. revert E E'. generalize (t mod length pns'). induction U; intros [|k]; cbn; try discriminate; intros; eauto. congruence. }
  rewrite Forall_forall in F. destruct (F pn) as [Lg Sn]; [eapply nth_error_In; eauto|].
  apply (covered_rings s pn pn' (row_rounds n) _ Lg X) in R; [|rewrite Sn; apply length_rounds].
  rewrite Sn, ext_rounds in R by auto. eapply rings_fun; eauto.
Qed.

Lemma covered_crs n s tr t : 0 < n -> n <= s -> (forall t, vrow n (tr t)) -> crs s (fun t => ext n s (tr t)) t = ext n s (crs n tr t).
Proof.
  intros Hn Le V. induction t as [|t IH]; cbn [crs]; [symmetry; apply ext_rounds; auto|]. rewrite IH. apply ext_rmul; auto. apply crs_v; auto.
Qed.

Lemma covered_ends n s k tr K : 0 < n -> n <= s -> (forall t, vrow n (tr t)) -> ends_after n k tr K -> ends_after s k (fun t => ext n s (tr t)) K.
Proof.
  intros Hn Le V (A & B & C). split; auto. split.
  - rewrite covered_crs, B by auto. apply ext_rounds; auto.
  - intros j Hj E. apply (C j Hj). rewrite covered_crs in E by auto. rewrite <- (ext_rounds n s Le) in E.
    apply ext_inj in E; auto; [apply crs_v; auto|apply length_rounds].
Qed.
