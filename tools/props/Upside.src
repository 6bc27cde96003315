(** Property theorems C113: a method whose changes are turned upside down has the same class. *)
(*IMPORTS*)
From Verif Require Import Base Bell Stage Row Utils SameStageVec Block PlaceNot Class Method Library Spec SpecVec SpecBlock SpecPn SpecClass SpecUpside ListFacts
  BellFacts RowFacts MulFacts GroupFacts SsvFacts BlockFacts PnFacts PnFacts2 PnFacts3 ClassFacts ClassFacts2 ClassFacts3 SymFacts SymFacts2 SymFacts3
  UpsideFacts UpsideFacts2.
From Coq Require Import Sorted.
From Verif Require Import PnThms ClassThms.
Local Open Scope list_scope.
(*BODY*)

(** C113: every legal change has exactly one legal change upside down, and is the one upside down of that. *)
Theorem C113_changes_upside_down :
  forall pn, legal pn -> exists pn', legal pn' /\ upside_down pn pn' /\ upside_down pn' pn /\
    forall pn2, legal pn2 -> upside_down pn pn2 -> pn2 = pn'.
Proof.
  intros [l s] [Hs L]. cbn [pn_stage pn_places] in *. pose proof (legal_from_back s 0 l L) as L'. rewrite Nat.sub_0_r in L'.
  assert (E : forall p, In p (rev (map (flip s) l)) <-> exists q, In q l /\ p + q + 1 = s).
  { intros p. rewrite <- in_rev, in_map_iff. split; intros (q & A & B).
    - exists q. split; auto. pose proof (legal_from_below _ _ _ _ L B). unfold flip in A. lia.
    - exists q. split; auto. unfold flip. lia. }
  exists {| pn_places := rev (map (flip s) l); pn_stage := s |}. unfold legal, upside_down. cbn [pn_stage pn_places].
  split; [auto|]. split; [auto|]. split.
  - split; auto. intros p. split.
    + intros I. exists (flip s p). pose proof (legal_from_below _ _ _ _ L I). split; [|unfold flip; lia]. apply E. exists p. split; auto. unfold flip. lia.
    + intros (q & Q & X). apply E in Q as (r & R & Y). replace p with r by lia. auto.
  - intros [l2 s2] [Hs2 L2] [S2 E2]. cbn [pn_stage pn_places] in *. subst s2. f_equal. apply sorted_same.
    + eapply legal_sorted; eauto.
    + eapply legal_sorted; eauto.
    + intros x. rewrite E, E2. tauto.
Qed.

(** C113: ringing it is ringing the change with the bells and the places counted from the back. *)
Theorem C113_transpositions_upside_down :
  forall pn pn', legal pn -> legal pn' -> upside_down pn pn' ->
    exists t t', pn_transposition pn = Ret t /\ pn_transposition pn' = Ret t' /\ row_upside_down (pn_stage pn) t t'.
Proof.
  intros pn pn' L L' U. destruct (pn_transposition_ok pn L) as (t & E & V & R). destruct (pn_transposition_ok pn' L') as (t' & E' & V' & R').
  exists t, t'. split; auto. split; auto. destruct L as [Hs Lf]. rewrite (proj1 U) in *.
  apply (rings_conj (pn_stage pn) Hs _ (pn_places pn')) in R.
  2:{ intros p Hp. apply upside_flip; auto. intros q Q. eapply legal_from_below; eauto. }
  rewrite (rings_fun _ _ _ _ _ R' R). apply conj_upside. eapply rings_vrow; [apply valid_rounds; auto|].
  destruct (pn_transposition_ok pn (conj Hs Lf)) as (t2 & E2 & _ & R2). rewrite E in E2. injection E2 as <-. exact R2.
Qed.

(** C113: two leads of legal changes of which one is the other upside down have rows which are each other upside
    down, and are both classified without a panic, and alike, whatever their annotations and in whatever order the
    hash sets are iterated over. *)
Theorem C113_class_upside_down :
  forall A B (d : A) (d' : B) s pns pns' o o', 0 < s -> pns <> [] ->
    Forall (fun pn => legal pn /\ pn_stage pn = s) pns -> Forall (fun pn => legal pn /\ pn_stage pn = s) pns' ->
    Forall2 upside_down pns pns' ->
    (forall l, collected_set l (o l)) -> (forall l, collected_set l (o' l)) ->
    exists lead lead' ars ars' lo lo' fc,
      pn_block_to_block_from_rounds d pns = Ret lead /\ pn_block_to_block_from_rounds d' pns' = Ret lead' /\
      block_holds lead s ars lo /\ block_holds lead' s ars' lo' /\
      Forall2 (row_upside_down s) (map fst ars ++ [lo]) (map fst ars' ++ [lo']) /\
      classify o lead = Ret fc /\ classify o' lead' = Ret fc.
Proof.
  intros A B d d' s pns pns' o o' Hs N F F' U Ho Ho'.
  assert (L : length pns = length pns') by (clear -U; induction U; cbn; auto).
  assert (Hn : 0 < length pns) by (destruct pns; [congruence|cbn; lia]).
  assert (N' : pns' <> []) by (intros ->; destruct pns; [auto|discriminate]).
  destruct (lead_crs s pns Hs N F d) as (b & ars & E & H & M & J). destruct (lead_crs s pns' Hs N' F' d') as (b' & ars' & E' & H' & M' & J').
  rewrite <- L in *. assert (X : forall u, trof s pns' u = conj_row s (trof s pns u)) by (intros; apply upside_trof; auto).
  rewrite (crs_ext s _ (fun t => conj_row s (trof s pns t))) in H', J' by auto. rewrite (crows_ext s _ _ (fun t => conj_row s (trof s pns t))) in M', J' by auto.
  assert (K : exists fc, classify o b = Ret fc /\ classify o' b' = Ret fc).
  { eapply (over_classify s (length pns) (trof s pns)); eauto using trof_v, trof_period. }
  destruct K as (fc & C1 & C2). do 7 eexists. split; [eassumption|]. split; [eassumption|]. split; [eassumption|]. split; [eassumption|].
  split; [|split; eassumption]. rewrite M, M'.
  assert (R : forall t, row_upside_down s (crs s (trof s pns) t) (crs s (fun t => conj_row s (trof s pns t)) t)).
  { intros t. rewrite over_crs by (auto; intros; apply trof_v; auto). apply conj_upside, crs_v; auto. intros; apply trof_v; auto. }
  apply Forall2_app; [|constructor; auto]. unfold crows. generalize (seq 0 (length pns)). induction l; cbn; constructor; auto.
Qed.

(** C113: so two texts whose changes are each other upside down make methods of the same class, and, under the same
    name, of the same title. *)
Theorem C113_methods_upside_down :
  forall o s name text text' pns pns' m m', 0 < s -> (forall l, collected_set l (o l)) ->
    pn_block_parse text s = Ret (Ok pns) -> pn_block_parse text' s = Ret (Ok pns') -> Forall2 upside_down pns pns' ->
    from_place_not_string o name s text = Ret (Ok m) -> from_place_not_string o name s text' = Ret (Ok m') ->
    m_class m = m_class m' /\ m_title m = m_title m'.
Proof.
  intros o s name text text' pns pns' m m' Hs Ho P P' U M M'.
  destruct (pf_C43_parsed_changes_are_legal text s pns Hs P) as [N F]. destruct (pf_C43_parsed_changes_are_legal text' s pns' Hs P') as [N' F'].
  destruct (pf_C113_class_upside_down (option str) (option str) None None s pns pns' o o Hs N F F' U Ho Ho) as (lead & lead' & ars & ars' & lo & lo' & fc & E & E' & H & H' & _ & K & K').
  unfold from_place_not_string in M, M'. rewrite P in M. rewrite P' in M'. cbn [bind] in M, M'. rewrite E in M. rewrite E' in M'. cbn [bind] in M, M'.
  unfold with_name in M, M'. rewrite K in M. rewrite K' in M'. cbn [bind] in M, M'.
  assert (S1 : block_stage lead = s) by apply H. assert (S2 : block_stage lead' = s) by apply H'.
  rewrite S1 in M. rewrite S2 in M'. destruct (generate_title name fc s) as [t| | |]; try discriminate. cbn [bind] in M, M'.
  injection M as <-. injection M' as <-. auto.
Qed.

(** Cambridge Surprise Minor upside down: its hunt bell is the tenor. *)
Example C113_example :
  exists pns pns' lead lead', pn_block_parse (s2l "-36-14-12-36-14-56,12") 6 = Ret (Ok pns) /\
    pn_block_parse (s2l "-14-36-56-14-36-12,56") 6 = Ret (Ok pns') /\ pns <> pns' /\
    Forall2 upside_down pns pns' /\
    pn_block_to_block_from_rounds tt pns = Ret lead /\ pn_block_to_block_from_rounds tt pns' = Ret lead' /\
    block_leftover_row lead = Ret [0; 4; 5; 2; 3; 1] /\ block_leftover_row lead' = Ret [4; 2; 3; 0; 1; 5] /\
    classify (nodup Nat.eq_dec) lead = Ret (FullClass false false false Surprise) /\
    classify (nodup Nat.eq_dec) lead' = Ret (FullClass false false false Surprise).
Proof.
  set (l := match pn_block_parse (s2l "-36-14-12-36-14-56,12") 6 with Ret (Ok l) => l | _ => [] end).
  set (l' := match pn_block_parse (s2l "-14-36-56-14-36-12,56") 6 with Ret (Ok l) => l | _ => [] end).
  exists l, l'. do 2 eexists. split; [vm_compute; reflexivity|]. split; [vm_compute; reflexivity|]. split; [vm_compute; discriminate|]. split.
  { assert (G : forall pn pn', pn_stage pn' = pn_stage pn ->
      forallb (fun p => existsb (fun q => p + q + 1 =? pn_stage pn) (pn_places pn)) (pn_places pn') = true ->
      forallb (fun q => existsb (fun p => p + q + 1 =? pn_stage pn) (pn_places pn')) (pn_places pn) = true -> 
      forallb (fun q => q <? pn_stage pn) (pn_places pn) = true -> upside_down pn pn').
    { intros pn pn' S F1 F2 F3. split; auto. rewrite forallb_forall in F1, F2, F3. intros p. split.
      - intros I. specialize (F1 p I). apply existsb_exists in F1 as (q & Q & X). apply Nat.eqb_eq in X. eauto.
      - intros (q & Q & X). specialize (F2 q Q). apply existsb_exists in F2 as (p' & Q' & X'). apply Nat.eqb_eq in X'. replace p with p' by lia. auto. }
    let v := eval vm_compute in l in change l with v. let v := eval vm_compute in l' in change l' with v.
    repeat (apply Forall2_cons; [apply G; vm_compute; reflexivity|]). apply Forall2_nil. }
  split; [vm_compute; reflexivity|]. split; [vm_compute; reflexivity|]. split; [vm_compute; reflexivity|]. split; [vm_compute; reflexivity|].
  split; vm_compute; reflexivity.
Qed.
