(** Properties C71 and C72: the constructors of methods, and the text of classes. *)

(* Generated from tools/props/Ctor.src; the proofs are in CtorThms.v. *)
From Verif Require Import Base Spec ListFacts Bell Stage Row RowFacts MulFacts GroupFacts
  Utils SameStageVec SpecVec SsvFacts Block SpecBlock BlockFacts PlaceNot SpecPn PnFacts PnFacts2 PnFacts3 PropsBell PropsPn
  Class SpecClass ClassFacts ClassFacts2 ClassFacts3 Method SpecMethod MethodFacts PropsMethod PropsClass CtorFacts.
Local Open Scope list_scope.
From Verif Require Import CtorThms.

(** C71: a text which describes a non-empty list of changes makes a method whose lead is these
    changes rung from rounds, with no labels; it keeps the name given, has the class found by the
    classification of its lead (C62), and the title made of the name, the class and the stage. *)
Theorem C71_from_place_not_string :
  forall hash_order name s text pns n, (forall l, collected_set l (hash_order l)) ->
    stage_name s = Some n -> block_changes s text pns -> pns <> [] ->
    exists m rs lo, from_place_not_string hash_order name s text = Ret (Ok m) /\
      rung (seq 0 s) pns rs lo /\
      block_holds (first_lead m) s (map (fun r => (r, None)) (removelast (seq 0 s :: rs))) lo /\
      method_stage m = s /\ lead_len m = length pns /\ lead_head m = Ret lo /\
      (forall x, label_indices m x = []) /\
      m_name m = name /\ classify hash_order (first_lead m) = Ret (m_class m) /\ is_jump (m_class m) = false /\
      m_title m = joined (name_words name ++ title_words (m_class m) ++ [n]).
Proof. exact pf_C71_from_place_not_string. Qed.
Print Assumptions C71_from_place_not_string.

(** C71: the errors of parsing are returned, and a stage without a name panics (if the text is
    right). *)
Theorem C71_errors :
  forall hash_order name s text, 0 < s ->
    (forall e, pn_block_parse text s = Ret (Err e) ->
       from_place_not_string hash_order name s text = Ret (Err e)) /\
    (forall e, from_place_not_string hash_order name s text = Ret (Err e) ->
       pn_block_parse text s = Ret (Err e)) /\
    (forall pns, (forall l, collected_set l (hash_order l)) -> pns <> [] -> block_changes s text pns -> stage_name s = None ->
       from_place_not_string hash_order name s text = Panic).
Proof. exact pf_C71_errors. Qed.
Print Assumptions C71_errors.

(** C71: [with_lead_end] does the same for given changes, and labels the last row of the lead (and no
    other) as the lead end. *)
Theorem C71_with_lead_end :
  forall hash_order name s pns n, (forall l, collected_set l (hash_order l)) ->
    stage_name s = Some n -> pns <> [] -> Forall (fun pn => legal pn /\ pn_stage pn = s) pns ->
    exists m rs lo ars, with_lead_end hash_order name pns = Ret m /\
      rung (seq 0 s) pns rs lo /\ block_holds (first_lead m) s ars lo /\
      map fst ars = removelast (seq 0 s :: rs) /\
      (forall i, i < length pns -> get_label m i = Ret (if i =? length pns - 1 then Some (s2l "LE") else None)) /\
      lead_len m = length pns /\ label_indices m (s2l "LE") = [length pns - 1] /\
      m_name m = name /\ classify hash_order (first_lead m) = Ret (m_class m) /\ is_jump (m_class m) = false /\
      m_title m = joined (name_words name ++ title_words (m_class m) ++ [n]).
Proof. exact pf_C71_with_lead_end. Qed.
Print Assumptions C71_with_lead_end.

(** C71: so the two ways of labelling the lead end disagree on every lead of more than one row:
    [set_lead_end_label] labels the row at index 0, [with_lead_end] the one at the last index. *)
Theorem C71_lead_end_labels_agree_refuted :
  forall hash_order name s pns n m, (forall l, collected_set l (hash_order l)) ->
    stage_name s = Some n -> 1 < length pns -> Forall (fun pn => legal pn /\ pn_stage pn = s) pns ->
    with_lead_end hash_order name pns = Ret m ->
    exists m', set_lead_end_label m = Ret m' /\
      label_indices m (s2l "LE") = [length pns - 1] /\ label_indices m' (s2l "LE") = [0; length pns - 1].
Proof. exact pf_C71_lead_end_labels_agree_refuted. Qed.
Print Assumptions C71_lead_end_labels_agree_refuted.

Example C71_example :
  exists pns m m', pn_block_parse (s2l "-14-14,12") 4 = Ret (Ok pns) /\
    from_place_not_string (nodup Nat.eq_dec) (s2l "Plain") 4 (s2l "-14-14,12") = Ret (Ok m) /\
    m_title m = s2l "Plain Bob Minimus" /\ lead_head m = Ret [0; 2; 3; 1] /\
    with_lead_end (nodup Nat.eq_dec) (s2l "Plain") pns = Ret m' /\ label_indices m' (s2l "LE") = [7] /\
    from_place_not_string (nodup Nat.eq_dec) (s2l "Plain") 5 (s2l "-14-14,12") =
      Ret (Err (PnError 0 1 (OddStageCross 5))) /\
    from_place_not_string (nodup Nat.eq_dec) (s2l "Plain") 23 (s2l "1") = Panic.
Proof. do 3 eexists. splits; vm_compute; reflexivity. Qed.

(** C72: the text of a class is its words joined with single spaces, in the order jump, differential,
    little, class. *)
Theorem C72_display_words :
  forall c, full_class_display c = joined (display_words c).
Proof. exact pf_C72_display_words. Qed.
Print Assumptions C72_display_words.

(** C72: different classes have different texts. *)
Theorem C72_display_is_injective :
  forall c d, full_class_display c = full_class_display d -> c = d.
Proof. exact pf_C72_display_is_injective. Qed.
Print Assumptions C72_display_is_injective.

Example C72_example :
  full_class_display (FullClass true true true TreblePlace) = s2l "Jump Differential Little Treble Place" /\
  full_class_display (FullClass false false false Principle) = s2l "Principle".
Proof. split; reflexivity. Qed.
