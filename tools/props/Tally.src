(** Property theorems C140: music counted piece by piece. *)
(*IMPORTS*)
From Coq Require Import Factorial.
From Verif Require Import Base Spec ListFacts Bell Stage Row RowFacts MulFacts GroupFacts
  Utils SameStageVec SpecVec SsvFacts Block SpecBlock BlockFacts PlaceNot Class Method MethodFacts Mask MaskFacts2 Music SpecMask SpecRename SpecTally
  TruthFacts CycleFacts ExtentFacts CourseExtentFacts TallyFacts.
From Verif Require Import MaskThms MethodThms RenameThms BlockThms ExtentThms.
Local Open Scope list_scope.
(*BODY*)

(** C140: as many rows of a buffer match a mask after the buffer is multiplied by a row, as rows of the buffer before it match the
    mask multiplied by the inverse of that row; and likewise for a regex whose bells are renamed. *)
Theorem C140_transposed_rows :
  forall v s rs t ti vt rows, holds v s rs -> valid_row t -> length t = s ->
    ssv_pre_multiply v t = Ret (vt, Ok tt) -> ssv_rows vt = Ret rows -> row_inv t = Ret ti ->
    (forall m, length m = s -> (forall p b, specifies m p b -> b < s) ->
       exists m', row_mul_mask ti m = Ret m' /\ mask_tally m rows = mask_tally m' rs) /\
    (forall es fs es' fs', Forall2 (renamed t) es fs -> regex_from_vec es = Ret es' -> regex_from_vec fs = Ret fs' ->
       regex_tally fs' rows = regex_tally es' rs).
Proof.
  intros v s rs t ti vt rows H Vt Lt E R Ei. pose proof H as (_ & _ & F & _). apply holds_rep in H.
  assert (V : vrow s t) by (split; auto). destruct (ssv_pre_multiply_ok s rs v t H V) as (vt' & E' & R'). rewrite E in E'. injection E' as <-.
  rewrite (rep_rows _ _ _ R') in R. injection R as <-. rewrite row_inv_ok in Ei by auto. injection Ei as <-. split.
  - intros m Lm B. apply (mask_tally_moved s); auto.
  - intros es fs es' fs' Rn A1 A2. apply (regex_tally_moved s t es fs es' fs'); auto.
Qed.

(** C140: extending a block by another adds the rows of the other which match the mask, multiplied by the inverse of the transposition
    from the first row of the other to the leftover row of the block. *)
Theorem C140_joined_blocks :
  forall A (b other : block A) s ars lo ars' lo' first b' ars2 lo2 m,
    block_holds b s ars lo -> block_holds other s ars' lo' -> hd_error (map fst ars' ++ [lo']) = Some first ->
    block_extend b other = Ret (b', Ok tt) -> block_holds b' s ars2 lo2 -> length m = s -> (forall p x, specifies m p x -> x < s) ->
    exists t ti m', solve_xa_equals_b first lo = Ret (Ok t) /\ row_inv t = Ret ti /\ row_mul_mask ti m = Ret m' /\
      mask_tally m (map fst ars2) = mask_tally m (map fst ars) + mask_tally m' (map fst ars').
Proof.
  intros A b other s ars lo ars' lo' first b' ars2 lo2 m H H' Hd E H2 Lm B.
  destruct (pf_C31_extend A b other s ars lo ars' lo' first H H' Hd) as (t & Vt & Lt & Ct & _ & b0 & E0 & H0).
  rewrite E in E0. injection E0 as <-.
  assert (X : ars2 = ars ++ map (fun ra => (row_product t (fst ra), snd ra)) ars').
  { destruct H2 as (_ & _ & _ & _ & _ & B2 & _), H0 as (_ & _ & _ & _ & _ & B0 & _). congruence. }
  assert (V : vrow s t) by (split; auto). pose proof (holds_brep _ _ _ _ H) as Hb. pose proof (brep_vrows _ _ _ _ Hb) as [_ Vlo].
  pose proof (holds_brep _ _ _ _ H') as Hb'. pose proof (brep_vrows _ _ _ _ Hb') as [F' Vlo'].
  assert (Vf : vrow s first).
  { assert (In first (map fst ars' ++ [lo'])) as I by (destruct (map fst ars' ++ [lo']); [discriminate|injection Hd as ->; left; auto]).
    apply in_app_or in I as [I|[<-|[]]]; auto. rewrite Forall_forall in F'. auto. }
  destruct (mask_tally_moved s t m (map fst ars') V Lm B F') as (m' & Em & T). exists t, (rinv t), m'. splits; auto.
  - rewrite (solve_xa_ok s) by auto. do 2 f_equal. apply composition_fun in Ct. rewrite Ct, (rmul_assoc_vrow s), (rmul_rinv_r s), rmul_rounds_r by (auto using valid_rinv; apply V). auto.
  - apply row_inv_ok; auto.
  - rewrite X, map_app, mask_tally_app. f_equal. rewrite map_map. cbn [fst]. rewrite <- T. f_equal. rewrite map_map. auto.
Qed.

(** C140: the rows of a touch (leads of the same rows multiplied by one lead head after another) which match a mask can be counted in the
    rows of the one lead, with the mask multiplied by the inverse of each lead head. *)
Theorem C140_touches :
  forall v s rs heads leads m, holds v s rs -> Forall (fun h => valid_row h /\ length h = s) heads ->
    Forall2 (fun h lead => exists vh, ssv_pre_multiply v h = Ret (vh, Ok tt) /\ ssv_rows vh = Ret lead) heads leads ->
    length m = s -> (forall p b, specifies m p b -> b < s) ->
    exists ms, Forall2 (fun h m' => exists hi, row_inv h = Ret hi /\ row_mul_mask hi m = Ret m') heads ms /\
      mask_tally m (concat leads) = list_sum (map (fun m' => mask_tally m' rs) ms).
Proof.
  intros v s rs heads leads m H Fh F2 Lm B. pose proof H as (_ & _ & F & _). apply holds_rep in H.
  assert (El : leads = map (fun h => map (rmul h) rs) heads).
  { clear Lm B. induction F2 as [|h lead hs ls (vh & E & R) _ IH]; auto. inversion Fh as [|? ? Vx Vt]; subst. cbn [map]. rewrite <- IH by auto. f_equal.
    destruct (ssv_pre_multiply_ok s rs v h H Vx) as (vh' & E' & R'). assert (vh' = vh) by congruence. subst. rewrite (rep_rows _ _ _ R') in R. injection R as <-. reflexivity. }
  subst leads. destruct (mask_tally_leads s m rs heads Lm B F Fh) as (ms & K & T). exists ms. split; auto.
  clear - K Fh. induction K as [|h m' hs ms E K IH]; constructor; inversion Fh as [|? ? [V _] Fh']; subst; auto. exists (rinv h). split; auto. apply row_inv_ok; auto.
Qed.

(** C140: so for the plain course of a method, whose lead heads are the powers of its lead head. *)
Theorem C140_plain_courses :
  forall mt s ars lo fuel pc pars pe fuel' heads m, block_holds (first_lead mt) s ars lo -> is_identity (hd [] (all_rows_of ars lo)) ->
    plain_course fuel mt = Ret pc -> block_holds pc s pars pe -> closure_from_rounds fuel' lo = Ret heads ->
    length m = s -> (forall p b, specifies m p b -> b < s) ->
    exists ms, Forall2 (fun h m' => exists hi, row_inv h = Ret hi /\ row_mul_mask hi m = Ret m') heads ms /\
      mask_tally m (map fst pars) = list_sum (map (fun m' => mask_tally m' (map fst ars)) ms).
Proof.
  intros mt s ars lo fuel pc pars pe fuel' heads m H I P B C Lm Bm.
  destruct (course_rows mt s ars lo fuel pc pars pe fuel' heads H I P B C) as (-> & Fh & F).
  destruct (mask_tally_leads s m (map fst ars) heads Lm Bm F Fh) as (ms & K & T). exists ms. split; auto.
  clear - K Fh. induction K as [|h m' hs ms E K IH]; constructor; inversion Fh as [|? ? [V _] Fh']; subst; auto. exists (rinv h). split; auto. apply row_inv_ok; auto.
Qed.

(** C140: a block without a repeated row has at most as many rows which match a mask as there are orders of the bells the mask leaves open,
    and exactly so many if the block has every row. *)
Theorem C140_music_of_a_true_touch :
  forall A (b : block A) s ars lo m, block_holds b s ars lo -> NoDup (map fst ars) -> length m = s -> each_bell_once m ->
    (forall p x, specifies m p x -> x < s) ->
    mask_tally m (map fst ars) <= fact (length (mask_unspecified_places m)) /\
    (length ars = fact s -> mask_tally m (map fst ars) = fact (length (mask_unspecified_places m))).
Proof.
  intros A b s ars lo m H N Lm O B. apply holds_brep in H. pose proof (brep_vrows _ _ _ _ H) as [F V]. rewrite Forall_forall in F.
  assert (S0 : 0 < s) by (destruct V as [[Nn _] L]; destruct lo; [congruence|cbn in L; lia]).
  assert (Nm : m <> []). { intros ->. cbn in Lm. lia. } rewrite <- Lm in B.
  destruct (proj1 (pf_C104_rows_which_a_mask_matches m Nm) O B) as (l & Ll & Nl & Il).
  set (f := fun r => match mask_matches m r with Ret true => true | _ => false end).
  assert (Ef : forall r, f r = true <-> mask_matches m r = Ret true) by (intros r; unfold f; destruct (mask_matches m r) as [[|]| | |]; split; auto; discriminate).
  unfold mask_tally. fold f. split.
  - rewrite <- Ll. apply NoDup_incl_length; [apply NoDup_filter; auto|]. intros r I. apply filter_In in I as [I M]. apply Il. split; [apply (F r I)|apply Ef; auto].
  - intros El. rewrite <- Ll. destruct (there_are_rows s S0) as (al & La & Na & Ia).
    assert (Inc : incl (map fst ars) al) by (intros r Ir; apply Ia; apply (F r Ir)).
    assert (Inc2 : incl al (map fst ars)) by (apply NoDup_length_incl; auto; rewrite map_length; lia).
    apply Nat.le_antisymm; (apply NoDup_incl_length; auto; [apply NoDup_filter; auto|]) || apply NoDup_incl_length; auto.
    + intros r I. apply filter_In in I as [I M]. apply Il. split; [apply (F r I)|apply Ef; auto].
    + intros r I. apply Il in I as [Vr M]. apply filter_In. split; [|apply Ef; auto]. apply Inc2, Ia. split; auto.
      destruct (pf_C46_matches m r Nm Vr) as (w & Ew & Kw). rewrite M in Ew. injection Ew as <-. destruct (proj1 Kw eq_refl) as [Lr _]. lia.
Qed.

(** The plain course of Plain Bob Minimus has every row on four bells; the mask for 4 at the back matches 3! of its rows, which are found lead by lead. *)
Example C140_example :
  exists pns lead pc rows lead_rows m1 m2,
    pn_block_parse (s2l "-14-14,12") 4 = Ret (Ok pns) /\ pn_block_to_block_from_rounds None pns = Ret lead /\
    plain_course 9 (Method [] [] (FullClass false false false Bob) lead) = Ret pc /\ block_rows pc = Ret rows /\ block_rows lead = Ret lead_rows /\
    closure_from_rounds 9 [0; 2; 3; 1] = Ret [[0; 1; 2; 3]; [0; 2; 3; 1]; [0; 3; 1; 2]] /\
    row_mul_mask [0; 3; 1; 2] [None; None; None; Some 3] = Ret m1 /\ row_mul_mask [0; 2; 3; 1] [None; None; None; Some 3] = Ret m2 /\
    mask_tally [None; None; None; Some 3] rows = 6 /\
    map (fun m => mask_tally m lead_rows) [[None; None; None; Some 3]; m1; m2] = [2; 2; 2].
Proof. do 7 eexists. splits; vm_compute; reflexivity. Qed.
