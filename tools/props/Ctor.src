(** Properties C71 and C72: the constructors of methods, and the text of classes. *)
(*IMPORTS*)
From Verif Require Import Base Spec ListFacts Bell Stage Row RowFacts MulFacts GroupFacts
  Utils SameStageVec SpecVec SsvFacts Block SpecBlock BlockFacts PlaceNot SpecPn PnFacts PnFacts2 PnFacts3 PropsBell PropsPn
  Class SpecClass ClassFacts ClassFacts2 ClassFacts3 Method SpecMethod MethodFacts PropsMethod PropsClass CtorFacts.
Local Open Scope list_scope.
(*BODY*)
(** C71: a text which describes a non-empty list of changes makes a method whose lead is these
    changes rung from rounds, with no labels; it keeps the name given, has the class found by the
    classification of its lead (C62), and the title made of the name, the class and the stage. *)
Theorem C71_from_place_not_string :
  forall hash_order name s text pns n, (forall l, collected_set l (hash_order l)) ->
    stage_name s = Some n -> block_changes s text pns -> pns <> [] ->
    exists m rs lo, from_place_not_string hash_order name s text = Ret (Ok m) /\
      rung (seq 0 s) pns rs lo /\
      block_holds (first_lead m) s (map (fun r => (r, None)) (removelast (seq 0 s :: rs))) lo /\
      method_stage m = s /\ lead_len m = length pns /\ lead_head m = Ret lo /\
      (forall x, label_indices m x = []) /\
      m_name m = name /\ classify hash_order (first_lead m) = Ret (m_class m) /\ is_jump (m_class m) = false /\
      m_title m = joined (name_words name ++ title_words (m_class m) ++ [n]).
Proof.
  intros ho name s text pns n HO Sn B N.
  assert (Hs : 0 < s). { pose proof (proj1 (proj1 C03_stage_names_round_trip s) (ex_intro _ n Sn)). lia. }
  destruct (C43_parse_block text s Hs) as (r & E & P & _). assert (r = Ok pns) as -> by (apply P; auto). clear P.
  destruct (C43_parsed_changes_are_legal text s pns Hs E) as [_ F].
  assert (V : vrow s (seq 0 s)) by (rewrite <- rounds_seq; apply valid_rounds; auto).
  destruct (C45_to_block (option str) None pns (seq 0 s) s N F (proj1 V) (proj2 V)) as (b & rs & lo & _ & R & H & Eb).
  specialize (Eb eq_refl). pose proof (holds_brep _ _ _ _ H) as Hb.
  destruct (legal_classify ho b s pns rs lo _ N F R H) as (fc & Ec & J); auto.
  { rewrite map_map. cbn [fst]. apply map_id. }
  pose proof (proj1 (C63_title name fc s) n Sn) as T.
  assert (St : block_stage b = s) by apply H.
  exists (Method (joined (name_words name ++ title_words fc ++ [n])) name fc b), rs, lo.
  unfold from_place_not_string. rewrite E. cbn [bind]. rewrite Eb. cbn [bind]. unfold with_name. rewrite Ec. cbn [bind].
  rewrite St, T. cbn [bind].
  unfold method_stage, lead_len, lead_head, label_indices. cbn [first_lead m_name m_class m_title].
  pose proof (rung_length _ _ _ _ R) as Lr. splits; auto.
  - rewrite (brep_len _ _ _ _ Hb), map_length, removelast_firstn_len, firstn_length. cbn [length]. lia.
  - destruct H as (_ & _ & _ & _ & _ & _ & El). exact El.
  - intros x. destruct Hb as [_ ->]. rewrite map_map. cbn [snd].
    generalize (removelast (seq 0 s :: rs)). intros l.
    destruct (positions _ _) as [|i t] eqn:Ep; auto. exfalso.
    assert (Hi : In i (i :: t)) by (left; auto). rewrite <- Ep in Hi. apply positions_ok in Hi as (y & Hy & Hf).
    apply nth_error_In, in_map_iff in Hy as (z & <- & _). discriminate.
Qed.

(** C71: the errors of parsing are returned, and a stage without a name panics (if the text is
    right). *)
Theorem C71_errors :
  forall hash_order name s text, 0 < s ->
    (forall e, pn_block_parse text s = Ret (Err e) ->
       from_place_not_string hash_order name s text = Ret (Err e)) /\
    (forall e, from_place_not_string hash_order name s text = Ret (Err e) ->
       pn_block_parse text s = Ret (Err e)) /\
    (forall pns, (forall l, collected_set l (hash_order l)) -> pns <> [] -> block_changes s text pns -> stage_name s = None ->
       from_place_not_string hash_order name s text = Panic).
Proof.
  intros ho name s text Hs. unfold from_place_not_string. splits.
  - intros e ->. reflexivity.
  - intros e. destruct (pn_block_parse text s) as [[pns|e']| | |]; cbn [bind]; intros H; try discriminate;
      [revert H|injection H as ->; reflexivity].
    destruct (pn_block_to_block_from_rounds None pns) as [lead| | |]; cbn [bind]; intros H; try discriminate. revert H.
    destruct (with_name ho name lead) as [m| | |]; cbn [bind]; intros H; discriminate.
  - intros pns HO N B Sn.
    destruct (C43_parse_block text s Hs) as (r & E & P & _). assert (r = Ok pns) as -> by (apply P; auto). clear P.
    destruct (C43_parsed_changes_are_legal text s pns Hs E) as [_ F].
    assert (V : vrow s (seq 0 s)) by (rewrite <- rounds_seq; apply valid_rounds; auto).
    destruct (C45_to_block (option str) None pns (seq 0 s) s N F (proj1 V) (proj2 V)) as (b & rs & lo & _ & R & H & Eb).
    specialize (Eb eq_refl). destruct (legal_classify ho b s pns rs lo _ N F R H) as (fc & Ec & J); auto.
    { rewrite map_map. cbn [fst]. apply map_id. }
    rewrite E. cbn [bind]. rewrite Eb. cbn [bind]. unfold with_name. rewrite Ec. cbn [bind].
    assert (St : block_stage b = s) by apply H. rewrite St, (proj2 (C63_title name fc s) Sn). reflexivity.
Qed.

(** C71: [with_lead_end] does the same for given changes, and labels the last row of the lead (and no
    other) as the lead end. *)
Theorem C71_with_lead_end :
  forall hash_order name s pns n, (forall l, collected_set l (hash_order l)) ->
    stage_name s = Some n -> pns <> [] -> Forall (fun pn => legal pn /\ pn_stage pn = s) pns ->
    exists m rs lo ars, with_lead_end hash_order name pns = Ret m /\
      rung (seq 0 s) pns rs lo /\ block_holds (first_lead m) s ars lo /\
      map fst ars = removelast (seq 0 s :: rs) /\
      (forall i, i < length pns -> get_label m i = Ret (if i =? length pns - 1 then Some (s2l "LE") else None)) /\
      lead_len m = length pns /\ label_indices m (s2l "LE") = [length pns - 1] /\
      m_name m = name /\ classify hash_order (first_lead m) = Ret (m_class m) /\ is_jump (m_class m) = false /\
      m_title m = joined (name_words name ++ title_words (m_class m) ++ [n]).
Proof.
  intros ho name s pns n HO Sn N F.
  assert (Hs : 0 < s). { pose proof (proj1 (proj1 C03_stage_names_round_trip s) (ex_intro _ n Sn)). lia. }
  assert (V : vrow s (seq 0 s)) by (rewrite <- rounds_seq; apply valid_rounds; auto).
  destruct (C45_to_block (option str) None pns (seq 0 s) s N F (proj1 V) (proj2 V)) as (b & rs & lo & _ & R & H & Eb).
  specialize (Eb eq_refl). pose proof (holds_brep _ _ _ _ H) as Hb. pose proof (rung_length _ _ _ _ R) as Lr.
  assert (Ln : length pns <> 0) by (destruct pns; [congruence|discriminate]).
  set (ars := map (fun r => (r, None)) (removelast (seq 0 s :: rs))) in *.
  assert (La : length ars = length pns).
  { unfold ars. rewrite map_length, removelast_firstn_len, firstn_length. cbn [length]. lia. }
  assert (Na : forall i r l, nth_error ars i = Some (r, l) -> l = (None : option str)).
  { intros i r l Hi. apply nth_error_In, in_map_iff in Hi as (z & Ez & _). congruence. }
  destruct (nth_error ars (length pns - 1)) as [(r, l)|] eqn:El; [|apply nth_error_None in El; lia].
  destruct (brep_set_annot s ars lo b (length pns - 1) (Some LABEL_LEAD_END) r l Hb El) as (b' & E' & Hb').
  set (ars' := replace_nth ars (length pns - 1) (r, Some LABEL_LEAD_END)) in *.
  assert (N' : forall i, nth_error ars' i = if length pns - 1 =? i then Some (r, Some LABEL_LEAD_END) else nth_error ars i).
  { clear - El. unfold ars'. revert El. generalize (length pns - 1). intros k El.
    apply nth_error_split in El as (l1 & l2 & -> & E). rewrite <- E, replace_nth_split. intros i.
    destruct (Nat.eqb_spec (length l1) i) as [<-|Hne]; [rewrite nth_error_app2, Nat.sub_diag; auto|].
    destruct (Nat.lt_ge_cases i (length l1)); [rewrite !nth_error_app1 by auto; auto|].
    rewrite !nth_error_app2 by lia. replace (i - length l1) with (S (i - length l1 - 1)) by lia. reflexivity. }
  assert (La' : length ars' = length pns).
  { destruct (Nat.lt_trichotomy (length ars') (length pns)) as [Hl|[Hl|Hl]]; auto; exfalso.
    - assert (X : nth_error ars' (length ars') = None) by (apply nth_error_None; lia). rewrite N' in X.
      destruct (length pns - 1 =? length ars'); [discriminate|]. apply nth_error_None in X. lia.
    - assert (X : nth_error ars' (length pns) <> None) by (apply nth_error_Some; lia). rewrite N' in X.
      destruct (Nat.eqb_spec (length pns - 1) (length pns)); [lia|]. apply X, nth_error_None. lia. }
  assert (M : map fst ars' = removelast (seq 0 s :: rs)).
  { transitivity (map fst ars).
    - apply nth_error_ext. intros i. rewrite !nth_error_map, N'.
      destruct (Nat.eqb_spec (length pns - 1) i) as [<-|]; auto. rewrite El. reflexivity.
    - unfold ars. rewrite map_map. cbn [fst]. apply map_id. }
  assert (H' : block_holds b' s ars' lo) by (apply brep_holds; auto).
  destruct (legal_classify ho b' s pns rs lo ars' N F R H' M HO) as (fc & Ec & J).
  pose proof (proj1 (C63_title name fc s) n Sn) as T.
  assert (St : block_stage b' = s) by apply H'.
  set (m := Method (joined (name_words name ++ title_words fc ++ [n])) name fc b').
  assert (G : forall i, i < length pns -> get_label m i = Ret (if i =? length pns - 1 then Some (s2l "LE") else None)).
  { intros i Hi. unfold get_label, m. cbn [first_lead]. destruct Hb' as [_ Ha]. unfold block_get_annot. rewrite Ha, nth_error_map, N'.
    rewrite Nat.eqb_sym. destruct (Nat.eqb_spec (length pns - 1) i) as [<-|Hne].
    - rewrite Nat.eqb_refl. reflexivity.
    - destruct (Nat.eqb_spec i (length pns - 1)); [lia|].
      destruct (nth_error ars i) as [(x, y)|] eqn:Ei; [|apply nth_error_None in Ei; lia]. rewrite (Na _ _ _ Ei). reflexivity. }
  exists m, rs, lo, ars'. splits; auto.
  - unfold with_lead_end. rewrite Eb. cbn [bind]. rewrite (brep_len _ _ _ _ Hb), La. unfold usub.
    destruct (Nat.leb_spec 1 (length pns)); [|lia]. cbn [bind]. rewrite E'. cbn [unwrap bind]. unfold with_name. rewrite Ec. cbn [bind].
    rewrite St, T. reflexivity.
  - unfold m, lead_len. cbn [first_lead]. rewrite (brep_len _ _ _ _ Hb'). auto.
  - destruct (C60_labels m s ars' lo [] H' (Forall_nil _)) as (m1 & ars1 & E1 & _ & _ & _ & L & _). injection E1 as <-.
    destruct (L (s2l "LE")) as [So In_]. revert So In_. generalize (label_indices m (s2l "LE")). intros is So In_.
    assert (Hin : forall i, In i is <-> i = length pns - 1).
    { intros i. rewrite In_, La'. split.
      - intros [Hi E1]. rewrite G in E1 by auto. destruct (Nat.eqb_spec i (length pns - 1)); auto. discriminate.
      - intros ->. split; [lia|]. rewrite G by lia. rewrite Nat.eqb_refl. reflexivity. }
    destruct is as [|x is]; [exfalso; apply (Hin (length pns - 1)); auto|].
    assert (x = length pns - 1) as -> by (apply Hin; left; auto).
    destruct is as [|y is]; auto. exfalso. inversion So as [|? ? _ Fa]; subst.
    assert (y = length pns - 1) by (apply Hin; right; left; auto). inversion Fa; subst. lia.
Qed.

(** C71: so the two ways of labelling the lead end disagree on every lead of more than one row:
    [set_lead_end_label] labels the row at index 0, [with_lead_end] the one at the last index. *)
Theorem C71_lead_end_labels_agree_refuted :
  forall hash_order name s pns n m, (forall l, collected_set l (hash_order l)) ->
    stage_name s = Some n -> 1 < length pns -> Forall (fun pn => legal pn /\ pn_stage pn = s) pns ->
    with_lead_end hash_order name pns = Ret m ->
    exists m', set_lead_end_label m = Ret m' /\
      label_indices m (s2l "LE") = [length pns - 1] /\ label_indices m' (s2l "LE") = [0; length pns - 1].
Proof.
  intros ho name s pns n m HO Sn Ln F E.
  destruct (pf_C71_with_lead_end ho name s pns n HO Sn) as (m1 & rs & lo & ars & E1 & R & H & M & G & L & Li & _); auto.
  { intros ->. cbn in Ln. lia. }
  assert (m1 = m) as -> by congruence. clear E1.
  assert (La : length ars = length pns).
  { unfold lead_len in L. rewrite (brep_len _ _ _ _ (holds_brep _ _ _ _ H)) in L. auto. }
  destruct (C60_labels m s ars lo [OpLeadEnd] H) as (m' & ars' & E' & H' & _ & G' & L' & _).
  { constructor; auto. cbn [op_index]. lia. }
  cbn [label_calls label_call] in E'. destruct (set_lead_end_label m) as [m2| | |] eqn:E2; try discriminate. injection E' as ->.
  exists m'. splits; auto.
  assert (Gl : forall i r l, nth_error ars i = Some (r, l) -> get_label m i = Ret l).
  { intros i r l Hi. destruct (holds_brep _ _ _ _ H) as [_ Ha]. unfold get_label, block_get_annot. rewrite Ha, nth_error_map, Hi. reflexivity. }
  destruct (L' (s2l "LE")) as [So In_].
  assert (Hin : forall i, In i (label_indices m' (s2l "LE")) <-> i = 0 \/ i = length pns - 1).
  { intros i. rewrite In_, La. split.
    - intros [Hi E1]. destruct (nth_error ars i) as [(r, l)|] eqn:Ei; [|apply nth_error_None in Ei; lia].
      rewrite (G' _ _ _ Ei) in E1. cbn [last_label op_index op_label] in E1.
      destruct (Nat.eqb_spec 0 i); auto. right. pose proof (Gl _ _ _ Ei) as E3. rewrite G in E3 by auto.
      destruct (Nat.eqb_spec i (length pns - 1)); auto. congruence.
    - intros Hi. split; [lia|]. destruct (nth_error ars i) as [(r, l)|] eqn:Ei; [|apply nth_error_None in Ei; lia].
      rewrite (G' _ _ _ Ei). cbn [last_label op_index op_label]. destruct (Nat.eqb_spec 0 i); auto.
      pose proof (Gl _ _ _ Ei) as E3. rewrite G in E3 by lia. destruct (Nat.eqb_spec i (length pns - 1)); [|lia]. congruence. }
  revert So Hin. generalize (label_indices m' (s2l "LE")). intros is So Hin.
  assert (P : forall a b, Sorted.StronglySorted lt a -> Sorted.StronglySorted lt b -> (forall i : nat, In i a <-> In i b) -> a = b).
  { clear. induction a as [|x a IH]; intros b Sa Sb Hi.
    - destruct b as [|y b]; auto. exfalso. apply (Hi y). left; auto.
    - destruct b as [|y b]; [exfalso; apply (Hi x); left; auto|].
      inversion Sa as [|? ? Sa' Fa]; subst. inversion Sb as [|? ? Sb' Fb]; subst. rewrite Forall_forall in Fa, Fb.
      assert (x = y).
      { destruct (proj1 (Hi x) (or_introl eq_refl)) as [->|Hx]; auto.
        destruct (proj2 (Hi y) (or_introl eq_refl)) as [->|Hy]; auto. specialize (Fa _ Hy). specialize (Fb _ Hx). lia. }
      subst y. f_equal. apply IH; auto. intros i. split; intros Hx.
      + destruct (proj1 (Hi i) (or_intror Hx)) as [<-|]; auto. specialize (Fa _ Hx). lia.
      + destruct (proj2 (Hi i) (or_intror Hx)) as [<-|]; auto. specialize (Fb _ Hx). lia. }
  apply P; auto.
  - repeat constructor. lia.
  - intros i. rewrite Hin. cbn [In]. intuition lia.
Qed.

Example C71_example :
  exists pns m m', pn_block_parse (s2l "-14-14,12") 4 = Ret (Ok pns) /\
    from_place_not_string (nodup Nat.eq_dec) (s2l "Plain") 4 (s2l "-14-14,12") = Ret (Ok m) /\
    m_title m = s2l "Plain Bob Minimus" /\ lead_head m = Ret [0; 2; 3; 1] /\
    with_lead_end (nodup Nat.eq_dec) (s2l "Plain") pns = Ret m' /\ label_indices m' (s2l "LE") = [7] /\
    from_place_not_string (nodup Nat.eq_dec) (s2l "Plain") 5 (s2l "-14-14,12") =
      Ret (Err (PnError 0 1 (OddStageCross 5))) /\
    from_place_not_string (nodup Nat.eq_dec) (s2l "Plain") 23 (s2l "1") = Panic.
Proof. do 3 eexists. splits; vm_compute; reflexivity. Qed.

(** C72: the text of a class is its words joined with single spaces, in the order jump, differential,
    little, class. *)
Theorem C72_display_words :
  forall c, full_class_display c = joined (display_words c).
Proof. intros [[] [] [] []]; reflexivity. Qed.

(** C72: different classes have different texts. *)
Theorem C72_display_is_injective :
  forall c d, full_class_display c = full_class_display d -> c = d.
Proof.
  set (all := flat_map (fun j => flat_map (fun l => flat_map (fun d => map (FullClass j l d)
        [Principle; Place; Bob; TrebleBob; Delight; Surprise; TreblePlace; Alliance; Hybrid]) [true; false]) [true; false]) [true; false]).
  assert (A : forall c, In c all).
  { intros [[] [] [] []]; vm_compute; tauto. }
  assert (D : NoDup (map full_class_display all)).
  { assert (B : forall l, (fix nd (l : list str) := match l with [] => true | x :: t => negb (existsb (str_eqb x) t) && nd t end) l = true -> NoDup l).
    { induction l as [|x l IH]; intros H; constructor; apply andb_true_iff in H as [H1 H2].
      - intros Hin. apply negb_true_iff in H1. assert (existsb (str_eqb x) l = true); [|congruence].
        apply existsb_exists. exists x. split; auto. apply str_eqb_eq. auto.
      - apply IH. auto. }
    apply B. vm_compute. reflexivity. }
  intros c d E. destruct (In_nth_error _ _ (A c)) as (i & Hi). destruct (In_nth_error _ _ (A d)) as (j & Hj).
  assert (i = j); [|congruence]. rewrite NoDup_nth_error in D. apply D.
  - rewrite map_length. apply nth_error_Some. congruence.
  - rewrite !nth_error_map, Hi, Hj. cbn [option_map]. congruence.
Qed.

Example C72_example :
  full_class_display (FullClass true true true TreblePlace) = s2l "Jump Differential Little Treble Place" /\
  full_class_display (FullClass false false false Principle) = s2l "Principle".
Proof. split; reflexivity. Qed.
