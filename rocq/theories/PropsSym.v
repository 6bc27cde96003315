(** Property theorems C101: the class of a method does not depend on where its changes start, nor on which way round
    they are rung. *)

(* Generated from tools/props/Sym.src; the proofs are in SymThms.v. *)
From Verif Require Import Base Bell Stage Row Utils SameStageVec Block PlaceNot Class Method Library Spec SpecVec SpecBlock SpecPn SpecClass SpecSym ListFacts
  BellFacts RowFacts MulFacts GroupFacts SsvFacts BlockFacts PnFacts PnFacts2 PnFacts3 ClassFacts ClassFacts2 ClassFacts3 SymFacts SymFacts2 SymFacts3.
From Verif Require Import PnThms ClassThms.
Local Open Scope list_scope.
From Verif Require Import SymThms.

(** C101: two leads of legal changes which go round the same circle of changes, starting anywhere and going
    either way round, are both classified without a panic, and alike, whatever their annotations and in whatever
    order the hash sets are iterated over. *)
Theorem C101_class_of_the_circle_of_changes :
  forall A B (d : A) (d' : B) s pns pns' o o', 0 < s -> pns <> [] ->
    Forall (fun pn => legal pn /\ pn_stage pn = s) pns -> same_circle pns pns' ->
    (forall l, collected_set l (o l)) -> (forall l, collected_set l (o' l)) ->
    exists lead lead' fc, pn_block_to_block_from_rounds d pns = Ret lead /\ pn_block_to_block_from_rounds d' pns' = Ret lead' /\
      classify o lead = Ret fc /\ classify o' lead' = Ret fc.
Proof. exact pf_C101_class_of_the_circle_of_changes. Qed.
Print Assumptions C101_class_of_the_circle_of_changes.

(** C101: so two texts whose changes go round the same circle make methods of the same class, and, under the same
    name, of the same title. *)
Theorem C101_methods_of_the_circle_of_changes :
  forall o s name text text' pns pns' m m', 0 < s -> (forall l, collected_set l (o l)) ->
    pn_block_parse text s = Ret (Ok pns) -> pn_block_parse text' s = Ret (Ok pns') -> same_circle pns pns' ->
    from_place_not_string o name s text = Ret (Ok m) -> from_place_not_string o name s text' = Ret (Ok m') ->
    m_class m = m_class m' /\ m_title m = m_title m'.
Proof. exact pf_C101_methods_of_the_circle_of_changes. Qed.
Print Assumptions C101_methods_of_the_circle_of_changes.

(** Cambridge Surprise Minor, from its half lead on and backwards. *)
Example C101_example :
  exists pns a b pns' lead lead', pn_block_parse (s2l "-36-14-12-36-14-56,12") 6 = Ret (Ok pns) /\
    pns = a ++ b /\ length a = 11 /\ pns' = rev (b ++ a) /\ pns' <> pns /\
    pn_block_to_block_from_rounds tt pns = Ret lead /\ pn_block_to_block_from_rounds tt pns' = Ret lead' /\
    classify (nodup Nat.eq_dec) lead = Ret (FullClass false false false Surprise) /\
    classify (nodup Nat.eq_dec) lead' = Ret (FullClass false false false Surprise).
Proof.
  set (l := match pn_block_parse (s2l "-36-14-12-36-14-56,12") 6 with Ret (Ok l) => l | _ => [] end).
  exists l, (firstn 11 l), (skipn 11 l), (rev (skipn 11 l ++ firstn 11 l)). do 2 eexists.
  split; [vm_compute; reflexivity|]. split; [symmetry; apply firstn_skipn|]. split; [reflexivity|]. split; [reflexivity|].
  split; [vm_compute; discriminate|]. split; [vm_compute; reflexivity|]. split; [vm_compute; reflexivity|].
  split; vm_compute; reflexivity.
Qed.
