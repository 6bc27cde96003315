(** Property theorems C101: the class of a method does not depend on where its changes start, nor on which way round
    they are rung. *)
(*IMPORTS*)
From Verif Require Import Base Bell Stage Row Utils SameStageVec Block PlaceNot Class Method Library Spec SpecVec SpecBlock SpecPn SpecClass SpecSym ListFacts
  BellFacts RowFacts MulFacts GroupFacts SsvFacts BlockFacts PnFacts PnFacts2 PnFacts3 ClassFacts ClassFacts2 ClassFacts3 SymFacts SymFacts2 SymFacts3.
From Verif Require Import PnThms ClassThms.
Local Open Scope list_scope.
(*BODY*)

(** C101: two leads of legal changes which go round the same circle of changes, starting anywhere and going
    either way round, are both classified without a panic, and alike, whatever their annotations and in whatever
    order the hash sets are iterated over. *)
Theorem C101_class_of_the_circle_of_changes :
  forall A B (d : A) (d' : B) s pns pns' o o', 0 < s -> pns <> [] ->
    Forall (fun pn => legal pn /\ pn_stage pn = s) pns -> same_circle pns pns' ->
    (forall l, collected_set l (o l)) -> (forall l, collected_set l (o' l)) ->
    exists lead lead' fc, pn_block_to_block_from_rounds d pns = Ret lead /\ pn_block_to_block_from_rounds d' pns' = Ret lead' /\
      classify o lead = Ret fc /\ classify o' lead' = Ret fc.
Proof.
  assert (T : forall A B (d : A) (d' : B) s pns c o o', 0 < s -> c < length pns ->
    Forall (fun pn => legal pn /\ pn_stage pn = s) pns ->
    (forall l, collected_set l (o l)) -> (forall l, collected_set l (o' l)) ->
    exists lead lead' fc, pn_block_to_block_from_rounds d pns = Ret lead /\
      pn_block_to_block_from_rounds d' (skipn c pns ++ firstn c pns) = Ret lead' /\
      classify o lead = Ret fc /\ classify o' lead' = Ret fc).
  { intros A B d d' s pns c o o' Hs Hc F Ho Ho'. set (pns' := skipn c pns ++ firstn c pns).
    assert (N : pns <> []) by (intros ->; cbn in Hc; lia).
    assert (F' : Forall (fun pn => legal pn /\ pn_stage pn = s) pns').
    { unfold pns'. rewrite Forall_forall in *. intros x Hx. apply F. rewrite <- (firstn_skipn c pns). rewrite in_app_iff in *. tauto. }
    assert (L' : length pns' = length pns) by (unfold pns'; rewrite app_length, skipn_length, firstn_length; lia).
    assert (N' : pns' <> []) by (intros E; rewrite E in L'; cbn in L'; lia).
    destruct (lead_crs s pns Hs N F d) as (b & ars & E & H & M & J). destruct (lead_crs s pns' Hs N' F' d') as (b' & ars' & E' & H' & M' & J').
    rewrite L' in *. assert (X : forall u, trof s pns' u = trof s pns (u + c)) by (intros; apply trof_rotated; auto).
    rewrite (crs_ext s _ (fun t => trof s pns (t + c))) in H', J' by auto. rewrite (crows_ext s _ _ (fun t => trof s pns (t + c))) in M', J' by auto.
    assert (K : exists fc, classify o b = Ret fc /\ classify o' b' = Ret fc).
    { eapply (turned_classify s (length pns) c (trof s pns)); eauto using trof_v, trof_inv, trof_period. }
    destruct K as (fc & C1 & C2). exists b, b', fc. auto. }
  assert (R : forall A B (d : A) (d' : B) s pns o o', 0 < s -> pns <> [] ->
    Forall (fun pn => legal pn /\ pn_stage pn = s) pns ->
    (forall l, collected_set l (o l)) -> (forall l, collected_set l (o' l)) ->
    exists lead lead' fc, pn_block_to_block_from_rounds d pns = Ret lead /\ pn_block_to_block_from_rounds d' (rev pns) = Ret lead' /\
      classify o lead = Ret fc /\ classify o' lead' = Ret fc).
  { intros A B d d' s pns o o' Hs N F Ho Ho'.
    assert (F' : Forall (fun pn => legal pn /\ pn_stage pn = s) (rev pns)) by (apply Forall_rev; auto).
    assert (Hn : 0 < length pns) by (destruct pns; [congruence|cbn; lia]).
    assert (N' : rev pns <> []) by (intros E; apply (f_equal (@length place_not)) in E; rewrite rev_length in E; cbn in E; lia).
    destruct (lead_crs s pns Hs N F d) as (b & ars & E & H & M & J). destruct (lead_crs s (rev pns) Hs N' F' d') as (b' & ars' & E' & H' & M' & J').
    rewrite rev_length in *.
    assert (X : forall u, trof s (rev pns) u = trof s pns (length pns - 1 - u mod length pns)) by (intros; apply trof_reversed; auto).
    rewrite (crs_ext s _ (fun t => trof s pns (length pns - 1 - t mod length pns))) in H', J' by auto.
    rewrite (crows_ext s _ _ (fun t => trof s pns (length pns - 1 - t mod length pns))) in M', J' by auto.
    assert (K : exists fc, classify o b = Ret fc /\ classify o' b' = Ret fc).
    { eapply (mirrored_classify s (length pns) (trof s pns)); eauto using trof_v, trof_inv, trof_period. }
    destruct K as (fc & C1 & C2). exists b, b', fc. auto. }
  intros A B d d' s pns pns' o o' Hs N F (a & b & E & E') Ho Ho'.
  assert (Eb : exists c, c < length pns /\ b ++ a = skipn c pns ++ firstn c pns).
  { destruct b as [|x b].
    - exists 0. split; [destruct pns; [congruence|cbn; lia]|]. rewrite app_nil_r in E. subst a. cbn. rewrite app_nil_r. reflexivity.
    - exists (length a). subst pns. split; [rewrite app_length; cbn; lia|].
      rewrite skipn_app, skipn_all, Nat.sub_diag, firstn_app, firstn_all, Nat.sub_diag. cbn. rewrite app_nil_r. reflexivity. }
  destruct Eb as (c & Hc & Eb). destruct (T A B d d' s pns c o o' Hs Hc F Ho Ho') as (lead & lead1 & fc & E1 & E2 & C1 & C2).
  rewrite <- Eb in E2. destruct E' as [-> | ->]; [exists lead, lead1, fc; auto|].
  assert (F2 : Forall (fun pn => legal pn /\ pn_stage pn = s) (b ++ a)).
  { subst pns. apply Forall_app in F as [? ?]. apply Forall_app; auto. }
  assert (N2 : b ++ a <> []).
  { intros K. apply app_eq_nil in K as [-> ->]. subst pns. apply N. reflexivity. }
  destruct (R B B d' d' s (b ++ a) o' o' Hs N2 F2 Ho' Ho') as (lead2 & lead' & fc' & E3 & E4 & C3 & C4).
  rewrite E2 in E3. injection E3 as <-. rewrite C2 in C3. injection C3 as <-. exists lead, lead', fc. auto.
Qed.

(** C101: so two texts whose changes go round the same circle make methods of the same class, and, under the same
    name, of the same title. *)
Theorem C101_methods_of_the_circle_of_changes :
  forall o s name text text' pns pns' m m', 0 < s -> (forall l, collected_set l (o l)) ->
    pn_block_parse text s = Ret (Ok pns) -> pn_block_parse text' s = Ret (Ok pns') -> same_circle pns pns' ->
    from_place_not_string o name s text = Ret (Ok m) -> from_place_not_string o name s text' = Ret (Ok m') ->
    m_class m = m_class m' /\ m_title m = m_title m'.
Proof.
  intros o s name text text' pns pns' m m' Hs Ho P P' C M M'.
  destruct (pf_C43_parsed_changes_are_legal text s pns Hs P) as [N F].
  destruct (pf_C101_class_of_the_circle_of_changes (option str) (option str) None None s pns pns' o o Hs N F C Ho Ho) as (lead & lead' & fc & E & E' & K & K').
  unfold from_place_not_string in M, M'. rewrite P in M. rewrite P' in M'. cbn [bind] in M, M'. rewrite E in M. rewrite E' in M'. cbn [bind] in M, M'.
  unfold with_name in M, M'. rewrite K in M. rewrite K' in M'. cbn [bind] in M, M'.
  assert (S1 : block_stage lead = s).
  { destruct (lead_crs s pns Hs N F (@None str)) as (b & ars & Eb & H & _). rewrite E in Eb. injection Eb as <-. apply H. }
  assert (S2 : block_stage lead' = s).
  { destruct (pf_C43_parsed_changes_are_legal text' s pns' Hs P') as [N' F'].
    destruct (lead_crs s pns' Hs N' F' (@None str)) as (b & ars & Eb & H & _). rewrite E' in Eb. injection Eb as <-. apply H. }
  rewrite S1 in M. rewrite S2 in M'. destruct (generate_title name fc s) as [t| | |]; try discriminate. cbn [bind] in M, M'.
  injection M as <-. injection M' as <-. auto.
Qed.

(** Cambridge Surprise Minor, from its half lead on and backwards. *)
Example C101_example :
  exists pns a b pns' lead lead', pn_block_parse (s2l "-36-14-12-36-14-56,12") 6 = Ret (Ok pns) /\
    pns = a ++ b /\ length a = 11 /\ pns' = rev (b ++ a) /\ pns' <> pns /\
    pn_block_to_block_from_rounds tt pns = Ret lead /\ pn_block_to_block_from_rounds tt pns' = Ret lead' /\
    classify (nodup Nat.eq_dec) lead = Ret (FullClass false false false Surprise) /\
    classify (nodup Nat.eq_dec) lead' = Ret (FullClass false false false Surprise).
Proof.
  set (l := match pn_block_parse (s2l "-36-14-12-36-14-56,12") 6 with Ret (Ok l) => l | _ => [] end).
  exists l, (firstn 11 l), (skipn 11 l), (rev (skipn 11 l ++ firstn 11 l)). do 2 eexists.
  split; [vm_compute; reflexivity|]. split; [symmetry; apply firstn_skipn|]. split; [reflexivity|]. split; [reflexivity|].
  split; [vm_compute; discriminate|]. split; [vm_compute; reflexivity|]. split; [vm_compute; reflexivity|].
  split; vm_compute; reflexivity.
Qed.
