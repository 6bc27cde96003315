(** Property theorems C113: a method whose changes are turned upside down has the same class. *)

(* Generated from tools/props/Upside.src; the proofs are in UpsideThms.v. *)
From Verif Require Import Base Bell Stage Row Utils SameStageVec Block PlaceNot Class Method Library Spec SpecVec SpecBlock SpecPn SpecClass SpecUpside ListFacts
  BellFacts RowFacts MulFacts GroupFacts SsvFacts BlockFacts PnFacts PnFacts2 PnFacts3 ClassFacts ClassFacts2 ClassFacts3 SymFacts SymFacts2 SymFacts3
  UpsideFacts UpsideFacts2.
From Coq Require Import Sorted.
From Verif Require Import PnThms ClassThms.
Local Open Scope list_scope.
From Verif Require Import UpsideThms.

(** C113: every legal change has exactly one legal change upside down, and is the one upside down of that. *)
Theorem C113_changes_upside_down :
  forall pn, legal pn -> exists pn', legal pn' /\ upside_down pn pn' /\ upside_down pn' pn /\
    forall pn2, legal pn2 -> upside_down pn pn2 -> pn2 = pn'.
Proof. exact pf_C113_changes_upside_down. Qed.
Print Assumptions C113_changes_upside_down.

(** C113: ringing it is ringing the change with the bells and the places counted from the back. *)
Theorem C113_transpositions_upside_down :
  forall pn pn', legal pn -> legal pn' -> upside_down pn pn' ->
    exists t t', pn_transposition pn = Ret t /\ pn_transposition pn' = Ret t' /\ row_upside_down (pn_stage pn) t t'.
Proof. exact pf_C113_transpositions_upside_down. Qed.
Print Assumptions C113_transpositions_upside_down.

(** C113: two leads of legal changes of which one is the other upside down have rows which are each other upside
    down, and are both classified without a panic, and alike, whatever their annotations and in whatever order the
    hash sets are iterated over. *)
Theorem C113_class_upside_down :
  forall A B (d : A) (d' : B) s pns pns' o o', 0 < s -> pns <> [] ->
    Forall (fun pn => legal pn /\ pn_stage pn = s) pns -> Forall (fun pn => legal pn /\ pn_stage pn = s) pns' ->
    Forall2 upside_down pns pns' ->
    (forall l, collected_set l (o l)) -> (forall l, collected_set l (o' l)) ->
    exists lead lead' ars ars' lo lo' fc,
      pn_block_to_block_from_rounds d pns = Ret lead /\ pn_block_to_block_from_rounds d' pns' = Ret lead' /\
      block_holds lead s ars lo /\ block_holds lead' s ars' lo' /\
      Forall2 (row_upside_down s) (map fst ars ++ [lo]) (map fst ars' ++ [lo']) /\
      classify o lead = Ret fc /\ classify o' lead' = Ret fc.
Proof. exact pf_C113_class_upside_down. Qed.
Print Assumptions C113_class_upside_down.

(** C113: so two texts whose changes are each other upside down make methods of the same class, and, under the same
    name, of the same title. *)
Theorem C113_methods_upside_down :
  forall o s name text text' pns pns' m m', 0 < s -> (forall l, collected_set l (o l)) ->
    pn_block_parse text s = Ret (Ok pns) -> pn_block_parse text' s = Ret (Ok pns') -> Forall2 upside_down pns pns' ->
    from_place_not_string o name s text = Ret (Ok m) -> from_place_not_string o name s text' = Ret (Ok m') ->
    m_class m = m_class m' /\ m_title m = m_title m'.
Proof. exact pf_C113_methods_upside_down. Qed.
Print Assumptions C113_methods_upside_down.

(** Cambridge Surprise Minor upside down: its hunt bell is the tenor. *)
Example C113_example :
  exists pns pns' lead lead', pn_block_parse (s2l "-36-14-12-36-14-56,12") 6 = Ret (Ok pns) /\
    pn_block_parse (s2l "-14-36-56-14-36-12,56") 6 = Ret (Ok pns') /\ pns <> pns' /\
    Forall2 upside_down pns pns' /\
    pn_block_to_block_from_rounds tt pns = Ret lead /\ pn_block_to_block_from_rounds tt pns' = Ret lead' /\
    block_leftover_row lead = Ret [0; 4; 5; 2; 3; 1] /\ block_leftover_row lead' = Ret [4; 2; 3; 0; 1; 5] /\
    classify (nodup Nat.eq_dec) lead = Ret (FullClass false false false Surprise) /\
    classify (nodup Nat.eq_dec) lead' = Ret (FullClass false false false Surprise).
Proof.
  set (l := match pn_block_parse (s2l "-36-14-12-36-14-56,12") 6 with Ret (Ok l) => l | _ => [] end).
  set (l' := match pn_block_parse (s2l "-14-36-56-14-36-12,56") 6 with Ret (Ok l) => l | _ => [] end).
  exists l, l'. do 2 eexists. split; [vm_compute; reflexivity|]. split; [vm_compute; reflexivity|]. split; [vm_compute; discriminate|]. split.
  { assert (G : forall pn pn', pn_stage pn' = pn_stage pn ->
      forallb (fun p => existsb (fun q => p + q + 1 =? pn_stage pn) (pn_places pn)) (pn_places pn') = true ->
      forallb (fun q => existsb (fun p => p + q + 1 =? pn_stage pn) (pn_places pn')) (pn_places pn) = true -> 
      forallb (fun q => q <? pn_stage pn) (pn_places pn) = true -> upside_down pn pn').
    { intros pn pn' S F1 F2 F3. split; auto. rewrite forallb_forall in F1, F2, F3. intros p. split.
      - intros I. specialize (F1 p I). apply existsb_exists in F1 as (q & Q & X). apply Nat.eqb_eq in X. eauto.
      - intros (q & Q & X). specialize (F2 q Q). apply existsb_exists in F2 as (p' & Q' & X'). apply Nat.eqb_eq in X'. replace p with p' by lia. auto. }
    let v := eval vm_compute in l in change l with v. let v := eval vm_compute in l' in change l' with v.
    repeat (apply Forall2_cons; [apply G; vm_compute; reflexivity|]). apply Forall2_nil. }
  split; [vm_compute; reflexivity|]. split; [vm_compute; reflexivity|]. split; [vm_compute; reflexivity|]. split; [vm_compute; reflexivity|].
  split; vm_compute; reflexivity.
Qed.
