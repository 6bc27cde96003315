(** Property C95: reading the Central Council's XML format. *)

(* Generated from tools/props/Xml.src: the proofs behind PropsXml.v. *)
From Verif Require Import Base Spec ListFacts Bell Stage Row Utils SameStageVec Block PlaceNot Class Method
  Library Serde SpecLib LibFacts Json JsonFacts SpecJson CacheFacts LibThms CcXml SpecXml XmlFacts.
Local Open Scope list_scope.

Lemma pf_C95_reading_a_document :
  forall parse_xml xml,
    (parse_xml xml = None -> parse_cc_lib parse_xml xml = Panic) /\
    forall root, parse_xml xml = Some root ->
      ((forall sets, ~ says root sets) -> parse_cc_lib parse_xml xml = Panic) /\
      (forall sets sets', says root sets -> says root sets' -> sets = sets') /\
      forall sets, says root sets ->
        exists lib, parse_cc_lib parse_xml xml = Ret lib /\ keys_differ lib /\
          forall s k cm, entry lib s k cm <-> k = cm_title cm /\ lists_last sets s cm.
Proof.
  intros parse_xml xml. split.
  - intros E. unfold parse_cc_lib. rewrite E. reflexivity.
  - intros root E. splits.
    + intros N. eapply parse_panics; eauto.
    + apply says_fun.
    + intros sets H. eapply parsed_ok; eauto.
Qed.

Lemma pf_C95_methods_are_found_refuted :
  forall parse_xml to_lowercase xml root sets lib,
    (forall t, to_lowercase (to_lowercase t) = to_lowercase t) ->
    parse_xml xml = Some root -> says root sets -> parse_cc_lib parse_xml xml = Ret lib ->
    (forall s cm, In (s, cm) (listed sets) -> to_lowercase (cm_title cm) <> cm_title cm) ->
    forall title, get_by_title to_lowercase lib title = Ret (Err (NotFound tt)).
Proof.
  intros parse_xml lower xml root sets lib Idem E Hs Ep Hl title.
  destruct (parsed_ok parse_xml xml root sets E Hs) as (lib' & Ep' & D & He). rewrite Ep in Ep'. injection Ep' as <-.
  apply (pf_C64_get_by_title lower lib title D). intros s cm (w & _ & _ & H). apply He in H as [Et (b & a & El & _)].
  apply (Hl s cm); [rewrite El; apply in_or_app; right; left; auto|]. rewrite <- Et. apply Idem.
Qed.

Lemma pf_C95_methods_are_found_partial :
  forall parse_xml to_lowercase lib_order stage_order group_order xml root sets lib,
    (forall l, Permutation l (lib_order l)) -> (forall l, Permutation l (stage_order l)) ->
    (forall l, Permutation l (group_order l)) ->
    parse_xml xml = Some root -> says root sets -> parse_cc_lib parse_xml xml = Ret lib ->
    ((exists s cm, In (s, cm) (listed sets) /\ stage_name s = None) ->
       to_json lib_order stage_order group_order lib = Panic) /\
    ((forall s cm, In (s, cm) (listed sets) -> stage_name s <> None) ->
       exists text lib', to_json lib_order stage_order group_order lib = Ret text /\
         from_json to_lowercase text = Ret (Some lib') /\ keys_differ lib' /\
         (forall s k cm, entry lib' s k cm -> k = to_lowercase (cm_title cm) /\ lists_last sets s cm) /\
         forall s cm w, lists_last sets s cm ->
           (forall cm', In (s, cm') (listed sets) -> to_lowercase (cm_title cm') = to_lowercase (cm_title cm) ->
              cm_title cm' = cm_title cm) ->
           last_word (to_lowercase (cm_title cm)) w -> stage_from_lower_case_name w = Some s ->
           found to_lowercase lib' (cm_title cm) s cm).
Proof.
  intros parse_xml lower lo so go xml root sets lib P1 P2 P3 E Hs Ep.
  destruct (parsed_ok parse_xml xml root sets E Hs) as (lib' & Ep' & D & He). rewrite Ep in Ep'. injection Ep' as <-.
  assert (L : forall s k cm, entry lib s k cm -> In (s, cm) (listed sets)).
  { intros s k cm H. apply He in H as [_ (b & a & El & _)]. rewrite El. apply in_or_app. right. left. auto. }
  split.
  - intros (s & cm & Hin & Hn).
    destruct (last_in (fun e => fst e = s /\ cm_title (snd e) = cm_title cm) (listed sets)) as (pre & [s' cm'] & post & El & [Es Et] & N).
    { intros [s0 cm0]. cbn. destruct (Nat.eq_dec s0 s), (list_eq_dec N.eq_dec (cm_title cm0) (cm_title cm)); tauto. }
    { exists (s, cm). auto. }
    cbn in Es, Et. subst s'.
    assert (X : entry lib s (cm_title cm') cm').
    { apply He. split; auto. exists pre, post. split; auto. intros c Hc Hc'. apply (N _ Hc). cbn. split; congruence. }
    unfold to_json. rewrite (to_serde_panic lo so P1 P2 go P3 lib s _ cm' X Hn). reflexivity.
  - intros Hn.
    destruct (relabelled lower lo so go lib P1 P2 P3) as (compact & lib' & E1 & J & E2 & D' & H1 & H2).
    { intros s k cm H. split; [apply He in H; tauto|]. apply L in H. apply Hn in H. destruct (stage_name s); [eauto|congruence]. }
    exists (json_write (lib_to_json compact)), lib'. unfold to_json, from_json. rewrite E1. cbn [bind].
    rewrite json_read_write by apply lib_to_json_plain. cbn [bind]. rewrite J, E2. splits; auto.
    + intros s k cm H. apply H1 in H as [-> H]. split; auto. apply He in H. apply H.
    + intros s cm w Hl Hu Hw Hst. exists w. splits; auto.
      assert (X : entry lib s (cm_title cm) cm) by (apply He; auto).
      destruct (H2 s cm X) as (cm' & Hc & Ht).
      destruct (H1 _ _ _ Hc) as [_ X']. assert (Et : cm_title cm' = cm_title cm) by (apply Hu; auto; eapply L; eauto).
      rewrite Et in X'. apply (lookup_entry lib s _ _ D) in X, X'. assert (cm' = cm) by congruence. subst. auto.
Qed.
