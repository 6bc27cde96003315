(** Property theorems C153: how often each bell is in each place in the plain course. *)
(*IMPORTS*)
From Verif Require Import Base Spec SpecBlock Class SpecClass SpecVec ListFacts Row RowFacts MulFacts GroupFacts SameStageVec Block SsvFacts BlockFacts
  PlaceNot ClassFacts SymFacts3 Method SpecMethod SpecCycle CycleFacts BellPathFacts DiffFacts WorkFacts SpecShare ShareFacts.
From Verif Require Import BlockThms MethodThms.
Local Open Scope list_scope.
(*BODY*)
(** C153: in the plain course of a method whose lead starts at rounds, let [k] be the length of the cycle of the lead head on which bell [b] is, and [c] the number of
    rows of one lead with some bell of this cycle in place [p].  Then bell [b] is in place [p] in [c] of every [k] leads: the number of times
    in the course, times [k], is the number of leads times [c]. *)
Theorem C153_places_in_the_course :
  forall m s ars lo fuel pc b k p path e,
    block_holds (first_lead m) s ars lo -> ars <> [] -> is_identity (hd [] (map fst ars)) -> plain_course fuel m = Ret pc ->
    block_path_of pc b = Ret (Some (path, e)) -> cycle_length lo b k -> p < s ->
    exists leads, block_len pc = leads * lead_len m /\
      k * visits path p = leads * length (filter (fun r => on_cycle lo b k (nth p r 0)) (map fst ars)).
Proof.
  intros m s ars lo fuel pc b k p path e H Na I P Eb C Hp.
  destruct (work m s ars lo fuel pc H Na I P) as (Vl & LL & N & N0 & RN & Mi & BL & W). rewrite LL, BL. exists N. split; auto.
  destruct (W b path e Eb) as (Hb & Lb & Wb). clear W. pose proof (proj1 Vl) as Vv. pose proof (proj2 Vl) as Lo.
  pose proof (holds_brep _ _ _ _ H) as B. pose proof (brep_vrows _ _ _ _ B) as [Va _].
  assert (D : Nat.divide k N).
  { apply (cycle_divide lo b k N C). rewrite <- follow_rpow by (auto; lia). rewrite RN, rounds_seq, seq_nth; auto. }
  destruct D as (c & ->). rewrite (visits_tot path p s), Lb, tot_square. rewrite (tot_list _ []), map_length. rewrite <- !tot_mul.
  apply tot_ext. intros i Hi. assert (Er : nth_error (map fst ars) i = Some (nth i (map fst ars) [])) by (apply nth_error_nth'; rewrite map_length; auto).
  set (r := nth i (map fst ars) []) in *. rewrite Forall_forall in Va. pose proof (Va r (nth_error_In _ _ Er)) as [Vr Lr].
  assert (X : nth p r 0 < length lo) by (rewrite Lo, <- Lr; apply vnth; auto; lia).
  rewrite (tot_ext _ (fun j => Nat.b2n (follow lo j (nth p r 0) =? b))).
  - rewrite turns by (auto; lia). lia.
  - intros j Hj. destruct (Wb j i r Er) as (q & Hq & Fq & Eq). rewrite Nat.mod_small in Eq by nia. apply (nth_error_nth _ _ s) in Eq. rewrite Eq. f_equal.
    apply eq_true_iff_eq. rewrite !Nat.eqb_eq. split.
    + intros E. pose proof (place_in_ok r q Vr ltac:(lia)) as O'. rewrite E in O'. rewrite (nth_error_nth _ _ _ O'). auto.
    + intros E. rewrite <- Fq in E. apply follow_inj in E; [|auto|auto|lia]. subst q. apply place_in_unique; auto. apply nth_error_nth'. lia.
Qed.

(** C153: if the lead head is one cycle on all the bells, each bell is in each place as often as a lead has rows. *)
Theorem C153_all_bells_working_together :
  forall m s ars lo fuel pc b p path e,
    block_holds (first_lead m) s ars lo -> ars <> [] -> is_identity (hd [] (map fst ars)) -> plain_course fuel m = Ret pc ->
    block_path_of pc b = Ret (Some (path, e)) -> cycle_length lo b s -> p < s ->
    block_len pc = s * lead_len m /\ visits path p = lead_len m.
Proof.
  intros m s ars lo fuel pc b p path e H Na I P Eb C Hp.
  destruct (pf_C153_places_in_the_course m s ars lo fuel pc b s p path e H Na I P Eb C Hp) as (n & BL' & V).
  destruct (work m s ars lo fuel pc H Na I P) as (Vl & LL & N & N0 & RN & Mi & BL & W).
  destruct (W b path e Eb) as (Hb & _ & _). pose proof (proj1 Vl) as Vv. pose proof (proj2 Vl) as Lo.
  pose proof (holds_brep _ _ _ _ H) as B. pose proof (brep_vrows _ _ _ _ B) as [Va _].
  assert (L0 : 0 < length ars) by (destruct ars; [congruence|cbn; lia]). rewrite LL in *. assert (n = N) as -> by nia.
  assert (C' : cycle_length lo b (length lo)) by (rewrite Lo; auto).
  assert (RS : rpow lo s = row_rounds s).
  { rewrite <- Lo. apply rpow_rounds_follow; auto. intros x Hx. apply (on_cycle_back lo b); auto. apply whole_cycle; auto. lia. }
  assert (D : Nat.divide s N).
  { apply (cycle_divide lo b s N C). rewrite <- follow_rpow by (auto; lia). rewrite RN, rounds_seq, seq_nth; auto. }
  assert (N = s) as ->.
  { apply Nat.divide_pos_le in D; auto. destruct (Nat.eq_dec N s) as [|Q]; auto. exfalso. apply (Mi s); auto. destruct C. lia. }
  split; auto. rewrite (filter_all (fun r => on_cycle lo b s (nth p r 0))) in V.
  - rewrite map_length in V. apply Nat.mul_cancel_l in V; auto. lia.
  - intros r Hr. rewrite Forall_forall in Va. destruct (Va r Hr) as [Vr Lr]. rewrite <- Lo. apply whole_cycle; auto; try lia. rewrite Lo, <- Lr. apply vnth; auto. lia.
Qed.

(** C153: if one bell is a hunt bell and the others are on one cycle of the lead head, each of these is in each place, in the course, as often as the hunt bell is in
    other places in one lead. *)
Theorem C153_one_hunt_bell :
  forall m s ars lo fuel pc b h p path e lead_path f,
    block_holds (first_lead m) s ars lo -> ars <> [] -> is_identity (hd [] (map fst ars)) -> plain_course fuel m = Ret pc ->
    hunt_bell lo h -> b <> h -> cycle_length lo b (s - 1) ->
    block_path_of pc b = Ret (Some (path, e)) -> block_path_of (first_lead m) h = Ret (Some (lead_path, f)) -> p < s ->
    block_len pc = (s - 1) * lead_len m /\ visits path p + visits lead_path p = lead_len m.
Proof.
  intros m s ars lo fuel pc b h p path e lp f H Na I P Hh Nb C Eb Eh Hp.
  destruct (pf_C153_places_in_the_course m s ars lo fuel pc b (s - 1) p path e H Na I P Eb C Hp) as (n & BL' & V).
  destruct (work m s ars lo fuel pc H Na I P) as (Vl & LL & N & N0 & RN & Mi & BL & W).
  destruct (W b path e Eb) as (Hb & _ & _). pose proof (proj1 Vl) as Vv. pose proof (proj2 Vl) as Lo.
  pose proof (holds_brep _ _ _ _ H) as B. pose proof (brep_vrows _ _ _ _ B) as [Va _].
  assert (L0 : 0 < length ars) by (destruct ars; [congruence|cbn; lia]). rewrite LL in *. assert (n = N) as -> by nia.
  assert (Lh : h < length lo) by (apply nth_error_Some; rewrite Hh; discriminate).
  assert (C' : cycle_length lo b (length lo - 1)) by (rewrite Lo; auto).
  assert (On : forall x, x < s -> on_cycle lo b (s - 1) x = negb (x =? h)) by (intros x Hx; rewrite <- Lo; apply cycle_but_one; auto; lia).
  assert (RS : rpow lo (s - 1) = row_rounds s).
  { rewrite <- Lo at 2. apply rpow_rounds_follow; auto. intros x Hx. destruct (Nat.eq_dec x h) as [->|Nx]; [apply follow_fixed; auto|].
    apply (on_cycle_back lo b); auto. rewrite On by lia. apply Nat.eqb_neq in Nx. rewrite Nx. auto. }
  assert (D : Nat.divide (s - 1) N).
  { apply (cycle_divide lo b (s - 1) N C). rewrite <- follow_rpow by (auto; lia). rewrite RN, rounds_seq, seq_nth; auto. }
  assert (N = s - 1) as ->.
  { apply Nat.divide_pos_le in D; auto. destruct (Nat.eq_dec N (s - 1)) as [|Q]; auto. exfalso. apply (Mi (s - 1)); auto. destruct C. lia. }
  split; auto. apply Nat.mul_cancel_l in V; [|destruct C; lia]. rewrite V.
  destruct (proj1 (pf_C26_block_paths _ _ s ars lo h H) ltac:(lia)) as (lp' & le & E1 & _ & F1 & _). rewrite Eh in E1. injection E1 as <- <-.
  rewrite <- (map_length fst ars). clear - F1 Va On Hp. induction F1 as [|r i rows lp R F IH]; auto. inversion Va as [|? ? [Vr Lr] Va']; subst.
  specialize (IH Va'). cbn [filter]. rewrite On by (apply vnth; auto).
  assert (E : nth_error r p = Some (nth p r 0)) by (apply nth_error_nth'; auto). unfold visits in *. cbn [count_occ length].
  destruct (Nat.eqb_spec (nth p r 0) h) as [Q|Q]; cbn [negb].
  - rewrite Q in E. apply R in E. subst i. destruct (Nat.eq_dec p p); [lia|congruence].
  - destruct (Nat.eq_dec i p) as [->|Ni]; [|cbn [length]; lia]. exfalso. apply Q. pose proof (proj2 (R p) eq_refl) as E'. congruence.
Qed.

(** In the plain course of Plain Bob Minimus each of 2, 3 and 4 is in each place six times; the treble is there twice in a lead of eight. *)
Example C153_example :
  exists pns lead pc p e tp f, pn_block_parse (s2l "-14-14,12") 4 = Ret (Ok pns) /\
    pn_block_to_block_from_rounds None pns = Ret lead /\
    plain_course 3 (Method [] [] (FullClass false false false Bob) lead) = Ret pc /\
    lead_head (Method [] [] (FullClass false false false Bob) lead) = Ret [0; 2; 3; 1] /\ cycle_length [0; 2; 3; 1] 1 3 /\ hunt_bell [0; 2; 3; 1] 0 /\
    block_path_of pc 1 = Ret (Some (p, e)) /\ block_path_of lead 0 = Ret (Some (tp, f)) /\
    map (visits p) [0; 1; 2; 3] = [6; 6; 6; 6] /\ map (visits tp) [0; 1; 2; 3] = [2; 2; 2; 2].
Proof.
  do 7 eexists. splits; try (vm_compute; reflexivity). split; [lia|]. split; [reflexivity|]. intros j Hj. assert (j = 1 \/ j = 2) as [->| ->] by lia; discriminate.
Qed.

(** Plain hunting on three bells as a principle with leads of two rows: each bell is in each place twice. *)
Example C153_example_principle :
  exists pns lead pc p e, pn_block_parse (s2l "3.1") 3 = Ret (Ok pns) /\
    pn_block_to_block_from_rounds None pns = Ret lead /\
    plain_course 3 (Method [] [] (FullClass false false false Principle) lead) = Ret pc /\
    lead_head (Method [] [] (FullClass false false false Principle) lead) = Ret [1; 2; 0] /\ cycle_length [1; 2; 0] 1 3 /\
    block_path_of pc 1 = Ret (Some (p, e)) /\ map (visits p) [0; 1; 2] = [2; 2; 2].
Proof.
  do 5 eexists. splits; try (vm_compute; reflexivity). split; [lia|]. split; [reflexivity|]. intros j Hj. assert (j = 1 \/ j = 2) as [->| ->] by lia; discriminate.
Qed.
