(** Lemmas for C146: touches of plain and called leads; Grandsire. *)
From Coq Require Import Factorial.
From Verif Require Import Base Spec SpecBlock SpecVec SpecPn SpecSym SpecHunt SpecGrandsire SpecRound ListFacts Row RowFacts MulFacts ParityFacts GroupFacts SameStageVec Block SsvFacts BlockFacts
  PlaceNot PnFacts PnFacts2 PnFacts3 LawFacts LawFacts2 TouchFacts SymFacts SymFacts2 SymFacts3 ShapeFacts HuntFacts BobFacts GrandsireFacts EvenFacts EvenBobFacts ConjFacts RoundFacts.
Local Open Scope list_scope.

Lemma concat_at {X} L : forall (pnss : list (list X)) k l t, Forall (fun l => length l = L) pnss -> nth_error pnss k = Some l -> t < L -> nth_error (concat pnss) (k * L + t) = nth_error l t.
Proof.
  induction pnss as [|l0 pnss IH]; intros k l t F E Ht; [destruct k; discriminate|]. inversion F; subst. cbn [concat]. destruct k as [|k].
  - injection E as ->. cbn [Nat.mul Nat.add]. apply nth_error_app1. auto.
  - rewrite nth_error_app2 by lia. replace (S k * length l0 + t - length l0) with (k * length l0 + t) by lia. apply IH; auto.
Qed.

Lemma concat_len {X} L (pnss : list (list X)) : Forall (fun l => length l = L) pnss -> length (concat pnss) = length pnss * L.
Proof. induction 1; cbn [concat length]; auto. rewrite app_length. lia. Qed.

Section Touch.
  Context (n L : nat) (pnss : list (list place_not)).
  Hypothesis Hn : 0 < n.
  Hypothesis HL : 0 < L.
  Hypothesis F : Forall (fun l => length l = L) pnss.
  Hypothesis Fl : Forall (Forall (fun pn => legal pn /\ pn_stage pn = n)) pnss.

  Lemma touch_trof k l t : nth_error pnss k = Some l -> t < L -> trof n (concat pnss) (k * L + t) = trof n l t.
  Proof.
    intros E Ht. assert (Hk : k < length pnss) by (apply nth_error_Some; congruence). rewrite Forall_forall in F.
    unfold trof. rewrite (concat_len L) by (apply Forall_forall; auto). rewrite (F l) by (eapply nth_error_In; eauto).
    rewrite !Nat.mod_small by nia. rewrite (concat_at L pnss k l t) by (auto; apply Forall_forall; auto). auto.
  Qed.

  Lemma touch_crs k l t : nth_error pnss k = Some l -> t <= L -> crs n (trof n (concat pnss)) (k * L + t) = rmul (crs n (trof n (concat pnss)) (k * L)) (crs n (trof n l) t).
  Proof.
    intros E. assert (Hk : k < length pnss) by (apply nth_error_Some; congruence).
    assert (I : In l pnss) by (eapply nth_error_In; eauto).
    assert (Ll : length l = L) by (rewrite Forall_forall in F; auto).
    assert (Ffl : Forall (fun pn => legal pn /\ pn_stage pn = n) l) by (rewrite Forall_forall in Fl; auto).
    assert (Nl : l <> []) by (intros ->; cbn in Ll; lia).
    assert (Nc : concat pnss <> []) by (intros Q; pose proof (concat_len L pnss F) as X; rewrite Q in X; cbn [length] in X; nia).
    assert (Fc : Forall (fun pn => legal pn /\ pn_stage pn = n) (concat pnss)) by (apply Forall_concat; auto).
    assert (Vc : forall t, vrow n (crs n (trof n (concat pnss)) t)) by (intros; apply crs_v; auto; intros; apply trof_v; auto).
    assert (Vl : forall t, vrow n (crs n (trof n l) t)) by (intros; apply crs_v; auto; intros; apply trof_v; auto).
    induction t as [|t IH]; intros Ht.
    - rewrite Nat.add_0_r. cbn [crs]. symmetry. apply rmul_rounds_r. apply Vc.
    - rewrite Nat.add_succ_r. cbn [crs]. rewrite IH, (touch_trof k l) by (auto; lia). apply (rmul_assoc_vrow n); auto. apply trof_v; auto.
  Qed.

  Lemma touch_heads k l : nth_error pnss k = Some l -> crs n (trof n (concat pnss)) (S k * L) = rmul (crs n (trof n (concat pnss)) (k * L)) (crs n (trof n l) L).
  Proof. intros E. replace (S k * L) with (k * L + L) by lia. apply touch_crs; auto. Qed.
End Touch.

(** ** The common bob of Grandsire *)

Lemma odd_gs_first n : Nat.Odd n -> gs_first n = PlaceNot [2] n.
Proof. intros O. unfold gs_first. apply Nat.odd_spec in O. rewrite <- Nat.negb_even in O. destruct (Nat.even n); [discriminate|auto]. Qed.

Lemma odd_hunting n : Nat.Odd n -> hunting n = [PlaceNot [n - 1] n; PlaceNot [0] n].
Proof. intros O. unfold hunting. apply Nat.odd_spec in O. rewrite <- Nat.negb_even in O. destruct (Nat.even n); [discriminate|auto]. Qed.

Lemma gb_length n : 3 <= n -> length (grandsire_bob n) = 2 * n.
Proof. intros H. unfold grandsire_bob. rewrite app_length, firstn_length, gs_length by lia. cbn [length]. lia. Qed.

Lemma gb_legal n : 3 <= n -> Nat.Odd n -> Forall (fun pn => legal pn /\ pn_stage pn = n) (grandsire_bob n).
Proof.
  intros H O. unfold grandsire_bob. apply Forall_app. pose proof (gs_legal n H) as G. split; [apply Forall_firstn; auto|].
  apply Forall_cons; [rewrite <- odd_gs_first by auto; split; auto using gs_first_legal|]. apply Forall_cons; auto.
  pose proof (hunting_legal n ltac:(lia)) as X. rewrite odd_hunting in X by auto. inversion X as [|? ? _ Y]. inversion Y. auto.
Qed.

Lemma gb_nonempty n : 3 <= n -> grandsire_bob n <> [].
Proof. intros H Q. pose proof (gb_length n H) as L. rewrite Q in L. cbn in L. lia. Qed.

Lemma trof_gb n t : 3 <= n -> t < 2 * n - 2 -> trof n (grandsire_bob n) t = trof n (grandsire n) t.
Proof.
  intros H Ht. unfold trof. rewrite gb_length, gs_length, Nat.mod_small by lia. unfold grandsire_bob. rewrite nth_error_app1 by (rewrite firstn_length, gs_length by lia; lia).
  rewrite <- (firstn_skipn (2 * n - 2) (grandsire n)) at 2. rewrite nth_error_app1 by (rewrite firstn_length, gs_length by lia; lia). auto.
Qed.

Lemma trof_gb_bob n : 3 <= n -> Nat.Odd n -> trof n (grandsire_bob n) (2 * n - 2) = trof n (grandsire n) 0.
Proof.
  intros H O. unfold trof. rewrite gb_length, gs_length, !Nat.mod_small by lia. unfold grandsire_bob. rewrite nth_error_app2 by (rewrite firstn_length, gs_length by lia; lia).
  rewrite firstn_length, gs_length, Nat.min_l, Nat.sub_diag by lia. cbn [nth_error grandsire]. fold (gs_first n). rewrite odd_gs_first by auto. auto.
Qed.

Lemma trof_gb_last n : 3 <= n -> Nat.Odd n -> trof n (grandsire_bob n) (2 * n - 1) = trof n (hunting n) 1.
Proof.
  intros H O. unfold trof. rewrite gb_length, !Nat.mod_small by lia. unfold grandsire_bob. rewrite nth_error_app2 by (rewrite firstn_length, gs_length by lia; lia).
  rewrite firstn_length, gs_length, Nat.min_l by lia. replace (2 * n - 1 - (2 * n - 2)) with 1 by lia. rewrite odd_hunting by auto. auto.
Qed.

Definition gb_head (n : nat) : row := crs n (trof n (grandsire_bob n)) (2 * n).

Lemma gb_trof_v n t : 3 <= n -> Nat.Odd n -> vrow n (trof n (grandsire_bob n) t).
Proof. intros H O. apply trof_v; auto using gb_legal, gb_nonempty. lia. Qed.

Lemma gb_head_v n : 3 <= n -> Nat.Odd n -> vrow n (gb_head n).
Proof. intros H O. apply crs_v; [lia|]. intros. apply gb_trof_v; auto. Qed.

Lemma gb_difference n : 3 <= n -> Nat.Odd n -> exists r, vrow n r /\ rmul (gb_head n) (rinv (gs_head n)) = cj r (gs_head n).
Proof.
  intros H O. assert (Hn : 0 < n) by lia. set (r := grow n (2 * n - 2)). assert (Vr : vrow n r) by (apply grow_v; auto). exists r. split; auto.
  set (T := trof n (grandsire n) 0). set (M := trof n (hunting n) 0). set (Lt := trof n (hunting n) 1).
  assert (VT : vrow n T) by (apply gs_trof_v; auto). assert (VM : vrow n M) by (apply trof_v; auto using hunting_legal, hunting_nonempty).
  assert (VL : vrow n Lt) by (apply trof_v; auto using hunting_legal, hunting_nonempty).
  assert (MM : rmul M M = row_rounds n) by (apply trof_inv; auto using hunting_legal, hunting_nonempty).
  assert (EM : trof n (grandsire n) (2 * n - 2) = M).
  { rewrite trof_gs by lia. unfold M. rewrite !trof_hunting by auto. replace (2 * n - 2) with (2 * (n - 1)) by lia. rewrite even2. auto. }
  assert (EL : trof n (grandsire n) (2 * n - 1) = Lt).
  { rewrite trof_gs by lia. unfold Lt. rewrite !trof_hunting by auto. replace (2 * n - 1) with (2 * (n - 1) + 1) by lia. rewrite even21. auto. }
  assert (Ep : gs_head n = rmul (rmul r M) Lt).
  { unfold gs_head, r, grow. replace (2 * n) with (S (S (2 * n - 2))) by lia. cbn [crs]. rewrite EM. replace (S (2 * n - 2)) with (2 * n - 1) by lia. rewrite EL.
    replace (S (2 * n - 1) - 2) with (2 * n - 2) by lia. auto. }
  assert (Eb : gb_head n = rmul (rmul r T) Lt).
  { unfold gb_head. replace (2 * n) with (S (S (2 * n - 2))) by lia. cbn [crs]. rewrite (crs_ext n _ (trof n (grandsire n)) (2 * n - 2)) by (intros u Hu; apply trof_gb; auto).
    rewrite trof_gb_bob by auto. replace (S (2 * n - 2)) with (2 * n - 1) by lia. rewrite trof_gb_last by auto.
    replace (S (2 * n - 1) - 2) with (2 * n - 2) by lia. auto. }
  pose proof (gs_head_v n H) as Vp. pose proof (gb_head_v n H O) as Vb.
  apply (rmul_cancel_r n (gs_head n)); auto using valid_rmul, valid_rinv.
  { apply (cj_vrow n r); auto. }
  rewrite (rmul_assoc_vrow n), (rmul_rinv_l n), rmul_rounds_r by (auto using valid_rinv; apply Vb).
  unfold cj. rewrite Ep at 2. rewrite (rmul_assoc_vrow n r M Lt) by auto. rewrite (rmul_assoc_vrow n (rmul r (gs_head n))) by auto using valid_rmul, valid_rinv.
  rewrite <- (rmul_assoc_vrow n (rinv r)), (rmul_rinv_l n), rmul_rounds_l_vrow by auto using valid_rmul, valid_rinv.
  rewrite gs_head_turn by auto. unfold gs_turn. fold T M. rewrite <- !(rmul_assoc_vrow n) by auto using valid_rmul.
  rewrite (rmul_assoc_vrow n (rmul r T) M M), MM, rmul_rounds_r by (auto; apply valid_rmul; auto). auto.
Qed.

Lemma gb_head_eq n : 3 <= n -> Nat.Odd n -> gb_head n = rmul (rmul (grow n (2 * n - 2)) (trof n (grandsire n) 0)) (trof n (hunting n) 1).
Proof.
  intros H O. unfold gb_head. replace (2 * n) with (S (S (2 * n - 2))) at 1 by lia. cbn [crs]. rewrite (crs_ext n _ (trof n (grandsire n)) (2 * n - 2)) by (intros u Hu; apply trof_gb; auto).
  rewrite trof_gb_bob by auto. replace (S (2 * n - 2)) with (2 * n - 1) by lia. rewrite trof_gb_last by auto. auto.
Qed.

Lemma gb_head_0 n : 3 <= n -> Nat.Odd n -> nth 0 (gb_head n) 0 = 0.
Proof.
  intros H O. assert (Hn : 0 < n) by lia. assert (V1 : vrow n (trof n (hunting n) 1)) by (apply trof_v; auto using hunting_legal, hunting_nonempty).
  pose proof (gs_trof_v n 0 H) as V0. rewrite gb_head_eq by auto. rewrite nth_rmul by (rewrite (proj2 V1); auto).
  assert (E1 : nth 0 (trof n (hunting n) 1) 0 = 0) by (rewrite trof_hunting by auto; destruct n; [lia|]; reflexivity). rewrite E1, nth_rmul by (rewrite (proj2 V0); auto).
  assert (E0 : nth 0 (trof n (grandsire n) 0) 0 = 1) by (rewrite trof_gs_first by auto; destruct n; [lia|]; reflexivity). rewrite E0.
  pose proof (gs_hunts n 0 (2 * n - 2) H ltac:(lia)) as G. replace (hunting_place n 0 (2 * n - 2)) with 1 in G; [apply (nth_error_nth _ _ 0) in G; auto|].
  unfold hunting_place. cbn [Nat.even Nat.add]. unfold out_and_in. rewrite Nat.mod_small by lia. bools.
Qed.

(** Changes with one place: the parity alternates, or does not change at all. *)
Lemma one_place_sgn n l t : 0 < n -> l <> [] -> Forall (fun pn => (legal pn /\ pn_stage pn = n) /\ length (pn_places pn) = 1) l ->
  sgn (crs n (trof n l) t) = if Nat.odd t then Nat.odd ((n - 1) / 2) else false.
Proof.
  intros Hn N F. assert (F' : Forall (fun pn => legal pn /\ pn_stage pn = n) l) by (eapply Forall_impl; [|exact F]; cbn; tauto).
  assert (V : forall t, vrow n (trof n l t)) by (intros; apply trof_v; auto).
  induction t as [|t IH]; cbn [crs]; [rewrite rounds_seq; apply sgn_rounds|].
  rewrite (sgn_rmul n) by (auto; apply crs_v; auto). rewrite IH.
  destruct (trof_ok n l Hn N F' t) as (pn & E & R). apply nth_error_In in E. rewrite Forall_forall in F. destruct (F pn E) as [[L Sn] L1].
  rewrite (sgn_change pn _ _ n L Sn (valid_rounds n Hn) R), rounds_seq, sgn_rounds, L1, xorb_false_l.
  rewrite Nat.odd_succ, <- Nat.negb_odd. destruct (Nat.odd t), (Nat.odd ((n - 1) / 2)); auto.
Qed.

Lemma gs_one_place n : 3 <= n -> Nat.Odd n -> Forall (fun pn => (legal pn /\ pn_stage pn = n) /\ length (pn_places pn) = 1) (grandsire n).
Proof.
  intros H O. pose proof (gs_legal n H) as F. apply Forall_forall. intros pn I. split; [rewrite Forall_forall in F; auto|].
  apply In_nth_error in I as (t & E). assert (Ht : t < 2 * n) by (rewrite <- (gs_length n) by lia; apply nth_error_Some; congruence).
  destruct t as [|t].
  - injection E as <-. fold (gs_first n). rewrite odd_gs_first by auto. auto.
  - rewrite gs_at, odd_hunting in E by (auto; lia). cbn [nth] in E. destruct (Nat.even (S t)); injection E as <-; auto.
Qed.

Lemma gb_one_place n : 3 <= n -> Nat.Odd n -> Forall (fun pn => (legal pn /\ pn_stage pn = n) /\ length (pn_places pn) = 1) (grandsire_bob n).
Proof.
  intros H O. pose proof (gb_legal n H O) as F. apply Forall_forall. intros pn I. split; [rewrite Forall_forall in F; auto|].
  unfold grandsire_bob in I. apply in_app_iff in I as [I|[<-|[<-|[]]]]; auto. pose proof (gs_one_place n H O) as G. rewrite Forall_forall in G.
  apply G. rewrite <- (firstn_skipn (2 * n - 2) (grandsire n)). apply in_app_iff. auto.
Qed.

Lemma fact_half m : 2 <= m -> Nat.Even (fact m).
Proof.
  induction m as [|m IH]; [lia|]. intros H. destruct (Nat.eq_dec m 1) as [->|]; [exists 1; auto|]. destruct IH as (k & K); [lia|].
  change (fact (S m)) with (S m * fact m). rewrite K. exists (S m * k). lia.
Qed.

Section TouchOf.
  Context (n : nat) (plain called : list place_not) (calls : list bool).
  Hypothesis Hn : 0 < n.
  Hypothesis Np : plain <> [].
  Hypothesis Fp : Forall (fun pn => legal pn /\ pn_stage pn = n) plain.
  Hypothesis Fc : Forall (fun pn => legal pn /\ pn_stage pn = n) called.
  Hypothesis Lc : length called = length plain.
  Hypothesis Nc : calls <> [].

  Lemma touch_L : 0 < length plain. Proof. destruct plain; [congruence|cbn; lia]. Qed.
  Lemma touch_K : 0 < length calls. Proof. destruct calls; [congruence|cbn; lia]. Qed.

  Lemma touch_lens : Forall (fun l => length l = length plain) (map (fun c : bool => if c then called else plain) calls).
  Proof. apply Forall_forall. intros l I. apply in_map_iff in I as (c & <- & _). destruct c; auto. Qed.

  Lemma touch_leads_legal : Forall (Forall (fun pn => legal pn /\ pn_stage pn = n)) (map (fun c : bool => if c then called else plain) calls).
  Proof. apply Forall_forall. intros l I. apply in_map_iff in I as (c & <- & _). destruct c; auto. Qed.

  Lemma touch_length : length (touch_of plain called calls) = length calls * length plain.
  Proof. unfold touch_of. rewrite (concat_len (length plain)), map_length by apply touch_lens. auto. Qed.

  Lemma touch_nonempty : touch_of plain called calls <> [].
  Proof. intros Q. pose proof touch_length as L. pose proof touch_L. pose proof touch_K. rewrite Q in L. cbn [length] in L. nia. Qed.

  Lemma touch_legal : Forall (fun pn => legal pn /\ pn_stage pn = n) (touch_of plain called calls).
  Proof. apply Forall_concat. apply touch_leads_legal. Qed.

  Definition trow (t : nat) : row := crs n (trof n (touch_of plain called calls)) t.
  Definition head_of (l : list place_not) : row := crs n (trof n l) (length plain).

  Lemma trow_v t : vrow n (trow t).
  Proof. apply crs_v; auto. intros. apply trof_v; auto using touch_nonempty, touch_legal. Qed.

  Lemma Nca : called <> [].
  Proof. pose proof touch_L. intros Q. rewrite Q in Lc. cbn in Lc. lia. Qed.

  Lemma head_of_v c : vrow n (head_of (if c : bool then called else plain)).
  Proof. pose proof Nca. apply crs_v; auto. intros. destruct c; apply trof_v; auto. Qed.

  Lemma trow_head k : k < length calls -> trow (S k * length plain) = rmul (trow (k * length plain)) (head_of (if nth k calls false then called else plain)).
  Proof.
    intros Hk. unfold trow, head_of, touch_of. apply touch_heads; auto using touch_L, touch_lens, touch_leads_legal.
    rewrite nth_error_map, (nth_error_nth' _ false) by auto. auto.
  Qed.

  Context (d e : nat).
  Hypothesis Round : trow (length calls * length plain) = row_rounds n.
  Hypothesis Inj : forall i j, i < length calls -> j < length calls -> trow (i * length plain) = trow (j * length plain) -> i = j.
  Hypothesis Closed : forall i, i < length calls -> exists j, j < length calls /\ trow (j * length plain) = rmul (trow (i * length plain)) (head_of plain).
  Hypothesis Hd : 0 < d.
  Hypothesis Pd : rpow (head_of plain) d = row_rounds n.
  Hypothesis Pm : forall j, 0 < j < d -> rpow (head_of plain) j <> row_rounds n.
  Hypothesis Qe : rpow (rmul (head_of called) (rinv (head_of plain))) e = row_rounds n.
  Hypothesis Oe : Nat.odd e = true.

  Lemma touch_circuit : exists c, Nat.Odd c /\ length calls = c * d.
  Proof.
    apply (circuit n (length calls) d e (fun i => trow (i * length plain)) (head_of plain) (head_of called) (fun i => nth i calls false)); auto using touch_K, trow_v.
    - apply (head_of_v false).
    - apply (head_of_v true).
    - intros i Hi. replace (if nth i calls false then head_of called else head_of plain) with (head_of (if nth i calls false then called else plain)) by (destruct (nth i calls false); auto). rewrite <- trow_head by auto.
      destruct (Nat.eq_dec (S i) (length calls)) as [E|E]; [rewrite E, Nat.mod_same, Round by (pose proof touch_K; lia); auto|rewrite Nat.mod_small by lia; auto].
  Qed.
End TouchOf.
