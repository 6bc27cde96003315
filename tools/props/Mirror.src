(** Property theorems C124: symmetrical notation gives symmetrical rows and paths. *)
(*IMPORTS*)
From Verif Require Import Base Spec ListFacts Bell Stage Row RowFacts MulFacts GroupFacts
  Utils SameStageVec SpecVec SsvFacts Block SpecBlock BlockFacts PlaceNot SpecPn SpecLaws PnFacts PnFacts2 PnFacts3 LawFacts
  Class Method SpecMethod MethodFacts SymFacts3 ShapeFacts BellPathFacts MirrorFacts.
From Verif Require Import SsvThms BlockThms PnThms LawsThms.
Local Open Scope list_scope.
(*BODY*)
(** C124: if changes read the same backwards, then so do the rows rung from any row, up to one exchange of bells. *)
Theorem C124_sections :
  forall pns start s v rows, pns <> [] -> Forall (fun pn => legal pn /\ pn_stage pn = s) pns -> rev pns = pns ->
    valid_row start -> length start = s -> pn_block_to_rows pns start = Ret (Ok v) -> ssv_rows v = Ret rows ->
    exists w, valid_row w /\ length w = s /\ composition w w (seq 0 s) /\ rev rows = map (row_product w) rows /\
      forall b path, ssv_path_of v b = Ret (Some path) -> exists c, nth_error w b = Some c /\ ssv_path_of v c = Ret (Some (rev path)).
Proof.
  intros pns start s v rows N F P V L E Er.
  destruct (to_rows_ok pns start s N F (conj V L)) as (v' & rs & x & E1 & Rv & Ru). rewrite E in E1. injection E1 as <-.
  pose proof (proj2 (holds_rep _ _ _) Rv) as H. assert (Er' : ssv_rows v = Ret (start :: rs)) by apply H. rewrite Er in Er'. injection Er' as ->.
  destruct (rung_vrow s _ _ _ _ (conj V L) Ru) as [Vrs Vx]. assert (Vs : vrow s start) by (split; auto).
  pose proof (valid_rinv s start Vs) as Vi. set (w := rmul x (rinv start)). assert (Vw : vrow s w) by (apply valid_rmul; auto).
  pose proof (rung_rev _ _ _ _ Ru) as Rb. rewrite P in Rb.
  pose proof (rung_map (fun i => nth i w 0) _ _ _ _ Ru) as Rf.
  assert (Ew : map (fun i => nth i w 0) start = x).
  { change (rmul w start = x). unfold w. rewrite (rmul_assoc_vrow s), (rmul_rinv_l s) by auto. apply rmul_rounds_r, Vx. }
  rewrite Ew in Rf. destruct (rung_fun _ _ _ _ _ _ Rb Rf) as [Et El].
  assert (Eh : rev (start :: rs) = map (row_product w) (start :: rs)).
  { cbn [map]. change (row_product w start) with (map (fun i => nth i w 0) start). rewrite Ew.
    change (map (row_product w) rs) with (map (map (fun i => nth i w 0)) rs). rewrite <- Et.
    pose proof (rung_last _ _ _ _ Ru) as La. destruct (rev (start :: rs)) as [|y l] eqn:Ey.
    - apply (f_equal (@length _)) in Ey. rewrite rev_length in Ey. discriminate.
    - cbn [tl]. f_equal. rewrite <- La. rewrite <- (rev_involutive (start :: rs)), Ey. cbn [rev]. rewrite last_last. reflexivity. }
  assert (Iw : rmul w w = row_rounds s).
  { assert (Ex : rmul w x = start) by (symmetry; exact El). unfold w at 2. rewrite <- (rmul_assoc_vrow s) by auto. rewrite Ex. apply (rmul_rinv_r s); auto. }
  exists w. split; [apply Vw|]. split; [apply Vw|]. split.
  { rewrite <- rounds_seq, <- Iw. apply (composition_vrow s); auto. }
  split; auto. intros b path Ep.
  destruct (Nat.lt_ge_cases b s) as [Lb|Lb]; [|rewrite (proj2 (pf_C26_paths v s _ b H) Lb) in Ep; discriminate].
  destruct (nth_error w b) as [c|] eqn:Ec; [|apply nth_error_None in Ec; destruct Vw; lia].
  assert (Lc : c < s). { destruct Vw as [(_ & _ & W) Lw]. rewrite <- Lw. apply W. eapply nth_error_In; eauto. }
  exists c. split; auto.
  destruct (proj1 (pf_C26_paths v s _ b H) Lb) as (p1 & E2 & F1). rewrite Ep in E2. injection E2 as <-.
  destruct (proj1 (pf_C26_paths v s _ c H) Lc) as (p2 & E3 & F2). rewrite E3. f_equal. f_equal.
  apply (paths_back c (start :: rs)); auto. rewrite Eh. assert (VV : Forall (vrow s) (start :: rs)) by (constructor; auto).
  clear - F1 Ec Vw VV. induction F1 as [|r i l p J F1 IH]; cbn [map]; constructor; inversion VV; subst; auto.
  apply (at_place_renamed s w r b c i); auto.
Qed.

(** C124: a text of the form "a,b" gives a plain course which can be read backwards from the row where the first
    section ends: the same exchange of bells takes each row to the row as far before that one as the row is after the
    start, going round the course, and the path of each bell to the path of its partner. *)
Theorem C124_courses :
  forall s a b la lb pns m, 0 < s -> plain_text a -> plain_text b ->
    pn_block_parse a s = Ret (Ok la) -> pn_block_parse b s = Ret (Ok lb) ->
    pn_block_parse (a ++ s2l "," ++ b) s = Ret (Ok pns) -> pn_block_to_block_from_rounds None pns = Ret (first_lead m) ->
    exists k pc pars pe w, (forall fuel, k <= fuel -> plain_course fuel m = Ret pc) /\ block_holds pc s pars pe /\
      valid_row w /\ length w = s /\ composition w w (seq 0 s) /\
      nth_error (map fst pars) (2 * length la - 1) = Some w /\
      (forall i r, nth_error (map fst pars) i = Some r ->
         nth_error (map fst pars) ((2 * length la - 1 + length pars - i) mod length pars) = Some (row_product w r)) /\
      (forall bell path e, block_path_of pc bell = Ret (Some (path, e)) ->
         exists partner path' e', nth_error w bell = Some partner /\ block_path_of pc partner = Ret (Some (path', e')) /\
           forall i, i < length pars -> nth_error path' ((2 * length la - 1 + length pars - i) mod length pars) = nth_error path i).
Proof.
  intros s a b la lb pns m Hs Pa Pb Ea Eb Ep Em.
  destruct (pf_C81_texts_combine s a b la lb 32%N Hs Pa Pb ltac:(left; reflexivity) Ea Eb) as (_ & E & _). rewrite Ep in E. injection E as ->.
  destruct (pf_C43_parsed_changes_are_legal _ _ _ Hs Ea) as [Na _]. destruct (pf_C43_parsed_changes_are_legal _ _ _ Hs Eb) as [Nb _].
  destruct (pf_C43_parsed_changes_are_legal _ _ _ Hs Ep) as [Np F]. rewrite app_assoc in *.
  set (q1 := la ++ tl (rev la)) in *. set (q2 := lb ++ tl (rev lb)) in *.
  pose proof (mirror_palindrome la : rev q1 = q1) as P1. pose proof (mirror_palindrome lb : rev q2 = q2) as P2.
  assert (L1 : length q1 = 2 * length la - 1).
  { unfold q1. rewrite app_length. pose proof (rev_length la). destruct (rev la); cbn in *; [destruct la; [congruence|discriminate]|lia]. }
  assert (L2 : 0 < length q2) by (unfold q2; rewrite app_length; destruct lb; [congruence|cbn; lia]).
  destruct (lead_course s (q1 ++ q2) m Hs Np F Em) as (K & pc & pars & pe & EK & Fu & H & M).
  pose proof (mirror_course s q1 q2 K Hs P1 P2 Np F EK) as Mi.
  pose proof (trof_v s (q1 ++ q2) Hs Np F) as V. pose proof (trof_period s (q1 ++ q2) Hs Np F) as P.
  set (n := length (q1 ++ q2)) in *. assert (En : n = length q1 + length q2) by (unfold n; apply app_length).
  set (tr := trof s (q1 ++ q2)) in *. pose proof (crs_v s tr Hs V) as W. set (w := crs s tr (length q1)) in *.
  assert (Hn : 0 < n) by lia. assert (HK : 0 < K) by apply EK. rewrite <- L1.
  assert (Lp : length pars = K * n) by (rewrite <- (map_length fst), M; unfold course_rows; rewrite map_length, seq_length; auto).
  assert (Hw : vrow s w) by apply W.
  assert (Nt : forall i, i < K * n -> nth_error (map fst pars) i = Some (crs s tr i)).
  { intros i Hi. rewrite M. unfold course_rows. rewrite nth_error_map, nth_error_seq, (proj2 (Nat.ltb_lt _ _) Hi). reflexivity. }
  assert (HL : forall i r, nth_error (map fst pars) i = Some r ->
         nth_error (map fst pars) ((length q1 + length pars - i) mod length pars) = Some (row_product w r)).
  { intros i r Er. assert (Hi : i < K * n) by (rewrite <- Lp, <- (map_length fst); apply nth_error_Some; congruence).
    rewrite (Nt i Hi) in Er. injection Er as <-. rewrite Lp, Nt by (apply Nat.mod_upper_bound; nia).
    rewrite (crs_round s n tr Hs Hn V P K) by auto. f_equal. apply Mi. lia. }
  exists K, pc, pars, pe, w. split; [auto|]. split; [auto|]. split; [apply Hw|]. split; [apply Hw|]. split.
  { rewrite <- rounds_seq. assert (length q1 <= K * n) by nia. pose proof (Mi (length q1) ltac:(auto)) as I.
    replace (length q1 + K * n - length q1) with (K * n) in I by lia. rewrite (proj1 (proj2 EK)) in I. rewrite I. apply (composition_vrow s); auto. }
  split; [apply Nt; nia|]. split; [exact HL|].
  intros x path e Ex. pose proof (holds_brep _ _ _ _ H) as B. pose proof (brep_vrows _ _ _ _ B) as [Va _].
  destruct (Nat.lt_ge_cases x s) as [Lx|Lx]; [|pose proof (proj2 (pf_C26_block_paths _ _ s pars pe x H) Lx) as Ex2; intuition congruence].
  destruct (nth_error w x) as [c|] eqn:Ec; [|apply nth_error_None in Ec; destruct Hw; lia].
  assert (Lc : c < s). { destruct Hw as [(_ & _ & Q) Lw]. rewrite <- Lw. apply Q. eapply nth_error_In; eauto. }
  destruct (proj1 (pf_C26_block_paths _ _ s pars pe x H) Lx) as (p1 & e1 & E1 & _ & F1 & _). rewrite Ex in E1. injection E1 as <- <-.
  destruct (proj1 (pf_C26_block_paths _ _ s pars pe c H) Lc) as (p2 & e2 & E2 & _ & F2 & _).
  exists c, p2, e2. splits; auto. intros i Hi. rewrite Lp in Hi. pose proof (Nt i Hi) as Ei. pose proof (HL i _ Ei) as Ei'.
  destruct (Forall2_nth_error_l _ _ _ _ _ F1 Ei) as (j & Ej & J). destruct (Forall2_nth_error_l _ _ _ _ _ F2 Ei') as (j' & Ej' & J').
  rewrite Ej, Ej'. f_equal. apply (at_place_fun c (rmul w (crs s tr i))); auto. apply (at_place_renamed s w _ x); auto.
Qed.

(** Plain Bob Minimus: the exchange is the row before the first lead head, and bell 2 (written 3) is the partner of bell 1 (written 2) *)
Example C124_example :
  exists pns lead pc p q e f, pn_block_parse (s2l "-14-14,12") 4 = Ret (Ok pns) /\
    pn_block_to_block_from_rounds None pns = Ret lead /\
    plain_course 3 (Method [] [] (FullClass false false false Bob) lead) = Ret pc /\
    ssv_index (blk_rows pc) 7 = Ret [0; 2; 1; 3] /\
    block_path_of pc 1 = Ret (Some (p, e)) /\ block_path_of pc 2 = Ret (Some (q, f)) /\
    rev (firstn 8 p) = firstn 8 q /\ rev (skipn 8 p) = skipn 8 q /\
    removelast pns <> [] /\ rev (removelast pns) = removelast pns.
Proof. do 7 eexists. splits; try (vm_compute; reflexivity). vm_compute. discriminate. Qed.
