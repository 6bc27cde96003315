(** Property theorems C138: plain courses which are extents. *)
(*IMPORTS*)
From Coq Require Import Factorial.
From Verif Require Import Base Spec ListFacts Bell Stage Row RowFacts MulFacts GroupFacts
  Utils SameStageVec SpecVec SsvFacts Block SpecBlock BlockFacts PlaceNot SpecPn Class SpecClass ClassFacts ClassFacts2 ClassFacts3
  Method SpecMethod SpecMask ExtentFacts CourseExtentFacts.
From Verif Require Import BlockThms ClassThms WorkThms.
From Verif Require WorkFacts LeadLenFacts.
Local Open Scope list_scope.
(*BODY*)
(** C138: a block (such as a plain course) on [s] bells without a repeated row has at most as many rows as there are orders of [s] bells, and exactly as many
    if and only if it contains every row. *)
Theorem C138_no_more_rows_than_orders :
  forall A (b : block A) s ars lo, block_holds b s ars lo -> NoDup (map fst ars) ->
    length ars <= fact s /\ (length ars = fact s <-> forall r, valid_row r -> length r = s -> In r (map fst ars)).
Proof.
  intros A b s ars lo H N. apply holds_brep in H. pose proof (brep_vrows _ _ _ _ H) as [F V]. rewrite Forall_forall in F.
  assert (S0 : 0 < s) by (destruct V as [[Nn _] L]; destruct lo; [congruence|cbn in L; lia]).
  destruct (there_are_rows s S0) as (l & Ll & Nl & Il). rewrite <- (map_length fst ars).
  assert (Inc : incl (map fst ars) l) by (intros r Ir; apply Il; apply (F r Ir)).
  pose proof (NoDup_incl_length N Inc) as Le. split; [lia|]. split.
  - intros E r Vr Lr. assert (Inc2 : incl l (map fst ars)) by (apply NoDup_length_incl; auto; lia). apply Inc2, Il. auto.
  - intros Al. assert (Inc' : incl l (map fst ars)) by (intros r Ir; apply Il in Ir as [Vr Lr]; auto). pose proof (NoDup_incl_length Nl Inc'). lia.
Qed.

(** C138: if the plain course of a method rings every row exactly once, then in each lead every hunt bell is in every place equally often: the number of leads times the number of times
    is the number of orders of the other bells. *)
Theorem C138_hunt_bells_in_an_extent :
  forall m s ars lo fuel pc pars pe leads t q,
    block_holds (first_lead m) s ars lo -> ars <> [] -> is_identity (hd [] (map fst ars)) -> plain_course fuel m = Ret pc ->
    block_holds pc s pars pe -> NoDup (map fst pars) -> length pars = fact s -> length pars = leads * length ars ->
    hunt_bell lo t -> q < s ->
    leads * visits (path_in (map fst ars) t) q = fact (s - 1).
Proof.
  intros m s ars lo fuel pc pars pe leads t q H Na I P B N Ef El Ht Hq.
  pose proof (proj1 (proj2 (pf_C138_no_more_rows_than_orders _ pc s pars pe B N)) Ef) as Al.
  pose proof (holds_brep _ _ _ _ H) as Bl. pose proof (brep_vrows _ _ _ _ Bl) as [Fl Vl]. pose proof (holds_brep _ _ _ _ B) as Bp. pose proof (brep_vrows _ _ _ _ Bp) as [Fp _].
  rewrite Forall_forall in Fl, Fp.
  assert (T : t < s) by (rewrite <- (proj2 Vl); apply nth_error_Some; unfold hunt_bell in Ht; congruence).
  assert (Pth : forall A (b : block A) l e, block_holds b s l e -> (forall r, In r (map fst l) -> vrow s r) -> exists z, block_path_of b t = Ret (Some (path_in (map fst l) t, z))).
  { intros A b l e Hb Fb. destruct (proj1 (pf_C26_block_paths A b s l e t Hb) T) as (p & z & E & _ & F2 & _). exists z. rewrite E. do 3 f_equal. unfold path_in.
    clear -F2 Fb. induction F2 as [|r i rs ps Q F2 IH]; auto. cbn [map]. f_equal.
    - symmetry. apply place_in_unique; [apply (Fb r); left; auto|apply Q; auto].
    - apply IH. intros r' Ir. apply Fb. right; auto. }
  destruct (Pth _ _ _ _ H Fl) as (z1 & E1). destruct (Pth _ _ _ _ B Fp) as (z2 & E2).
  destruct (proj1 (pf_C134_hunt_bells m s ars lo fuel pc t _ _ _ _ H Na I P E1 E2) Ht) as (n & En).
  assert (Ln : n = leads).
  { assert (L0 : 0 < length ars) by (destruct ars; [congruence|cbn; lia]).
    assert (X : length (path_in (map fst pars) t) = n * length ars).
    { rewrite En. clear -ars. induction n as [|n IH]; auto. cbn [repeat concat]. rewrite app_length, IH. unfold path_in. rewrite !map_length. lia. }
    unfold path_in in X. rewrite !map_length in X. nia. }
  subst n. rewrite <- visits_repeat, <- En. unfold path_in. rewrite visits_filter.
  apply (filter_there_are _ _ _ _ N (there_are_rows_with s t q T Hq)).
  - intros r (Vr & Lr & _). auto.
  - intros r Ir. rewrite Nat.eqb_eq. pose proof (Fp r Ir) as [Vr Lr]. tauto.
Qed.

(** C138: so a method with a hunt bell whose plain course rings every row exactly once is not little, and not an Alliance method. *)
Theorem C138_class_of_an_extent :
  forall m s ars lo fuel pc pars pe hash_order fc,
    block_holds (first_lead m) s ars lo -> ars <> [] -> is_identity (hd [] (map fst ars)) -> plain_course fuel m = Ret pc ->
    block_holds pc s pars pe -> NoDup (map fst pars) -> length pars = fact s ->
    (forall i r1 r2, change_at (map fst ars) lo i r1 r2 -> no_jump r1 r2) ->
    (forall l, collected_set l (hash_order l)) -> classify hash_order (first_lead m) = Ret fc ->
    (exists t, hunt_bell lo t) -> is_little fc = false /\ fc_class fc <> Alliance.
Proof.
  intros m s ars lo fuel pc pars pe ho fc H Na I P B N Ef NJ HO E Hh.
  destruct (pf_C62_classification _ (first_lead m) s ars lo ho H Na I NJ HO) as (fc' & E' & _ & _ & _ & _ & Ex & Dm). rewrite E in E'. injection E' as <-.
  destruct (WorkFacts.work m s ars lo fuel pc H Na I P) as (Vl & _ & k & K0 & _ & _ & Lk & _).
  assert (Lp : length pars = k * length ars). { rewrite <- Lk. apply eq_sym, (brep_len _ _ _ _ (holds_brep _ _ _ _ B)). }
  assert (Vis : forall t q, hunt_bell lo t -> q < s -> k * visits (path_in (map fst ars) t) q = fact (s - 1)).
  { intros t q Ht Hq. eapply pf_C138_hunt_bells_in_an_extent; eauto. }
  assert (In_ : forall t q, hunt_bell lo t -> q < s -> In q (path_in (map fst ars) t)).
  { intros t q Ht Hq. apply (count_occ_In Nat.eq_dec). pose proof (Vis t q Ht Hq) as X. unfold visits in X. pose proof (lt_O_fact (s - 1)). destruct (count_occ _ _ _); lia. }
  destruct (Ex Hh) as (x & h & D). destruct (Dm x h D) as [M Lt]. split.
  - destruct (is_little fc) eqn:El; auto. exfalso. destruct (proj1 Lt eq_refl x D) as (q & Hq & Nq). apply Nq, In_; auto. apply D.
  - intros Ec. assert (h = HAlliance) as -> by (inversion M; congruence).
    destruct D as (Hx & Px & _). inversion Px as [| | | | |Ns Nt Sy Ne|]. apply Ne. intros q r Iq Ir.
    pose proof (holds_brep _ _ _ _ H) as Bl. pose proof (brep_vrows _ _ _ _ Bl) as [Fl _].
    assert (X : x < s) by (rewrite <- (proj2 Vl); apply nth_error_Some; unfold hunt_bell in Hx; congruence).
    pose proof (Vis x q Hx (LeadLenFacts.path_lt _ s x q Fl X Iq)). pose proof (Vis x r Hx (LeadLenFacts.path_lt _ s x r Fl X Ir)). nia.
Qed.

(** Plain Bob Minimus: three leads, in each of which the treble is twice in each place; 3 * 2 = 3!. *)
Example C138_example :
  exists pns lead pc rows, pn_block_parse (s2l "-14-14,12") 4 = Ret (Ok pns) /\ pn_block_to_block_from_rounds None pns = Ret lead /\
    plain_course 9 (Method [] [] (FullClass false false false Bob) lead) = Ret pc /\ block_rows pc = Ret rows /\
    length (nodup (list_eq_dec Nat.eq_dec) rows) = fact 4 /\ length rows = fact 4 /\
    block_path_of lead 0 = Ret (Some ([0; 1; 2; 3; 3; 2; 1; 0], 0)) /\ 3 * visits [0; 1; 2; 3; 3; 2; 1; 0] 2 = fact 3 /\
    classify (nodup Nat.eq_dec) lead = Ret (FullClass false false false Bob).
Proof. do 4 eexists. splits; vm_compute; reflexivity. Qed.
