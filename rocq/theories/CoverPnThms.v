(** Property theorems C119: a method rung with cover bells is the method with the cover bells behind. *)

(* Generated from tools/props/CoverPn.src: the proofs behind PropsCoverPn.v. *)
From Coq Require Import Sorted Permutation.
From Verif Require Import Base Bell Stage Row Utils SameStageVec Block PlaceNot Class Method Library Spec SpecVec SpecBlock SpecPn SpecClass SpecSym SpecCover SpecCoverPn ListFacts
  BellFacts RowFacts MulFacts GroupFacts SsvFacts BlockFacts PnFacts PnFacts2 PnFacts3 ClassFacts ClassFacts2 ClassFacts3 SymFacts SymFacts2 SymFacts3
  UpsideFacts UpsideFacts2 ShapeFacts SpecMethod MethodFacts TruthFacts CoverFacts CoverFacts2.
From Verif Require Import PnThms ClassThms ShapesThms.
Local Open Scope list_scope.

Lemma pf_C119_changes_with_covers :
  forall pn s, legal pn -> pn_stage pn <= s -> exists pn', legal pn' /\ covered_change s pn pn' /\
    forall pn2, legal pn2 -> covered_change s pn pn2 -> pn2 = pn'.
Proof.
  intros pn s L Le. set (p := {| pn_places := pn_places pn ++ seq (pn_stage pn) (s - pn_stage pn); pn_stage := s |}).
  assert (Lp : legal p) by (destruct L as [Hn L]; split; cbn; [lia|apply covered_legal_from; auto]).
  exists p. split; auto. split; [apply covered_change_eq; auto|]. intros pn2 L2 C. apply covered_change_eq in C; auto. apply C.
Qed.

Lemma pf_C119_transpositions_with_covers :
  forall pn pn' s, legal pn -> legal pn' -> covered_change s pn pn' ->
    (exists t t', pn_transposition pn = Ret t /\ pn_transposition pn' = Ret t' /\ covered s t t') /\
    (forall r r', valid_row r -> length r = pn_stage pn -> covered s r r' ->
       exists u u', pn_permute_new pn r = Ret (Ok u) /\ pn_permute_new pn' r' = Ret (Ok u') /\ covered s u u').
Proof.
  intros pn pn' s L L' C. pose proof C as (Es & Le & _).
  assert (G : forall r, vrow (pn_stage pn) r -> exists u, permute_unchecked pn r = Ret u /\ permute_unchecked pn' (ext (pn_stage pn) s r) = Ret (ext (pn_stage pn) s u) /\ vrow (pn_stage pn) u).
  { intros r V. destruct (permute_unchecked_ok pn r L (proj2 V)) as (u & E & R).
    destruct (permute_unchecked_ok pn' (ext (pn_stage pn) s r) L') as (u' & E' & R'); [rewrite Es; apply length_ext; auto; apply V|].
    exists u. split; auto. split; [|eapply rings_vrow; eauto]. rewrite E'. f_equal.
    apply (covered_rings s pn pn') in R; auto; [|apply V]. eapply rings_fun; eauto. }
  split.
  - destruct (G (row_rounds (pn_stage pn))) as (u & E & E' & V); [apply valid_rounds; apply L|].
    exists u, (ext (pn_stage pn) s u). unfold pn_transposition. rewrite Es. rewrite ext_rounds in E' by auto.
    splits; auto. apply (ext_covered (pn_stage pn)); auto. apply V.
  - intros r r' V Lr Cr. apply (ext_covered (pn_stage pn)) in Cr; auto. subst r'. assert (Vr : vrow (pn_stage pn) r) by (split; auto).
    destruct (G r Vr) as (u & E & E' & Vu). exists u, (ext (pn_stage pn) s u). unfold pn_permute_new.
    rewrite (row_stage_vrow (pn_stage pn) r Vr), (row_stage_vrow s _ (ext_vrow _ s Le r Vr)). cbn [bind]. rewrite Es.
    rewrite !test_err_same, E, E'. cbn [bind]. splits; auto. apply (ext_covered (pn_stage pn)); auto. apply Vu.
Qed.

Lemma pf_C119_leads_with_covers :
  forall A B (d : A) (d' : B) n s pns pns', 0 < n -> pns <> [] ->
    Forall (fun pn => legal pn /\ pn_stage pn = n) pns -> Forall (fun pn => legal pn /\ pn_stage pn = s) pns' ->
    Forall2 (covered_change s) pns pns' ->
    exists lead lead' ars ars' lo lo',
      pn_block_to_block_from_rounds d pns = Ret lead /\ pn_block_to_block_from_rounds d' pns' = Ret lead' /\
      block_holds lead n ars lo /\ block_holds lead' s ars' lo' /\
      Forall2 (covered s) (map fst ars ++ [lo]) (map fst ars' ++ [lo']).
Proof.
  intros A B d d' n s pns pns' Hn N F F' U.
  assert (L : length pns = length pns') by (clear -U; induction U; cbn; auto).
  assert (N' : pns' <> []) by (intros ->; destruct pns; [auto|discriminate]).
  assert (Le : n <= s) by (destruct U as [|pn pn' l l' (_ & Le & _) U]; [congruence|]; inversion F as [|? ? (_ & E) _]; subst; auto).
  destruct (lead_crs n pns Hn N F d) as (b & ars & E & H & M & J). destruct (lead_crs s pns' ltac:(lia) N' F' d') as (b' & ars' & E' & H' & M' & J').
  rewrite <- L in *. assert (X : forall u, trof s pns' u = ext n s (trof n pns u)) by (intros; apply covered_trof; auto).
  rewrite (crs_ext s _ (fun t => ext n s (trof n pns t))) in H' by auto. rewrite (crows_ext s _ _ (fun t => ext n s (trof n pns t))) in M' by auto.
  do 6 eexists. split; [eassumption|]. split; [eassumption|]. split; [eassumption|]. split; [eassumption|].
  rewrite M, M'. assert (V := trof_v n pns Hn N F).
  assert (R : forall t, covered s (crs n (trof n pns) t) (crs s (fun t => ext n s (trof n pns t)) t)).
  { intros t. rewrite covered_crs by auto. apply (ext_covered n); auto. apply crs_v; auto. }
  apply Forall2_app; [|constructor; auto]. unfold crows. generalize (seq 0 (length pns)). induction l; cbn; constructor; auto.
Qed.

Lemma pf_C119_plain_courses_with_covers :
  forall n s pns pns' m m', 0 < n -> pns <> [] ->
    Forall (fun pn => legal pn /\ pn_stage pn = n) pns -> Forall (fun pn => legal pn /\ pn_stage pn = s) pns' ->
    Forall2 (covered_change s) pns pns' ->
    pn_block_to_block_from_rounds None pns = Ret (first_lead m) -> pn_block_to_block_from_rounds None pns' = Ret (first_lead m') ->
    exists k pc pc' pars pars' pe pe',
      (forall fuel, k <= fuel -> plain_course fuel m = Ret pc /\ plain_course fuel m' = Ret pc') /\
      block_holds pc n pars pe /\ block_holds pc' s pars' pe' /\ length pars = k * length pns /\
      Forall2 (covered s) (map fst pars) (map fst pars') /\ (NoDup (map fst pars) <-> NoDup (map fst pars')).
Proof.
  intros n s pns pns' m m' Hn N F F' U L L'.
  assert (L2 : length pns' = length pns) by (clear -U; induction U; cbn; auto).
  assert (N' : pns' <> []) by (intros K; rewrite K in L2; destruct pns; [auto|discriminate]).
  assert (Le : n <= s) by (destruct U as [|pn pn' l l' (_ & Le & _) U]; [congruence|]; inversion F as [|? ? (_ & E) _]; subst; auto).
  destruct (lead_course n pns m Hn N F L) as (K & pc & pars & pe & EK & Fu & H & M).
  destruct (lead_course s pns' m' ltac:(lia) N' F' L') as (K' & pc' & pars' & pe' & EK' & Fu' & H' & M').
  rewrite L2 in *. set (k := length pns) in *. assert (Hk : 0 < k) by (unfold k; destruct pns; [congruence|cbn; lia]).
  pose proof (trof_v n pns Hn N F) as V. pose proof (covered_ends n s k (trof n pns) K Hn Le V EK) as (A & B & C).
  assert (X : forall u, trof s pns' u = ext n s (trof n pns u)) by (intros; apply covered_trof; auto).
  assert (EK2 : ends_after s k (trof s pns') K).
  { split; auto. rewrite (crs_ext s _ (fun t => ext n s (trof n pns t))) by auto. split; auto. intros j Hj.
    rewrite (crs_ext s _ (fun t => ext n s (trof n pns t))) by auto. auto. }
  assert (K' = K) by (eapply (ends_fun s k (trof s pns')); eauto). subst K'.
  exists K, pc, pc', pars, pars', pe, pe'. split; [auto|]. split; [auto|]. split; [auto|].
  split; [rewrite <- (map_length fst), M; unfold course_rows; rewrite map_length, seq_length; auto|].
  assert (Q : map fst pars' = map (ext n s) (map fst pars)).
  { rewrite M, M'. unfold course_rows. rewrite map_map. apply map_ext. intros t. rewrite <- (covered_crs n s) by auto. apply crs_ext. auto. }
  assert (W : Forall (vrow n) (map fst pars)).
  { rewrite M. unfold course_rows. apply Forall_map. apply Forall_forall. intros t _. apply crs_v; auto. }
  rewrite Q. split; [apply (covered_Forall2 n s); auto|]. split; intros Nd.
  - apply NoDup_map_inj; auto. intros x y Hx Hy. rewrite Forall_forall in W. apply ext_inj; apply W; auto.
  - eapply NoDup_map_inv; eauto.
Qed.
