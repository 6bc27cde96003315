(** Property theorems C143: Grandsire. *)

(* Generated from tools/props/Grandsire.src; the proofs are in GrandsireThms.v. *)
From Verif Require Import Base Spec ListFacts Bell Stage Row RowFacts MulFacts GroupFacts
  Utils SameStageVec SpecVec SsvFacts Block SpecBlock BlockFacts PlaceNot SpecPn SpecLaws PnFacts PnFacts2 PnFacts3 LawFacts
  Class SpecClass ClassFacts ClassFacts2 ClassFacts3 Method SpecMethod MethodFacts SymFacts3 ShapeFacts BellPathFacts SpecHunt HuntFacts BobFacts SpecGrandsire GrandsireFacts.
From Verif Require Import SsvThms BlockThms PnThms LawsThms ClassThms MethodThms CtorThms CtorFacts.
Local Open Scope list_scope.
From Verif Require Import GrandsireThms.

(** C143: the changes of Grandsire are legal, and on up to 33 bells they can be written. *)
Theorem C143_changes :
  forall n, 3 <= n -> length (grandsire n) = 2 * n /\ Forall (fun pn => legal pn /\ pn_stage pn = n) (grandsire n) /\
    (n <= 33 -> pn_block_parse (with_dots (grandsire n)) n = Ret (Ok (grandsire n))).
Proof. exact pf_C143_changes. Qed.
Print Assumptions C143_changes.

(** C143: its plain course has [n - 2] leads of [2 * n] rows; no row comes twice; the treble and the 2 plain hunt throughout, and no
    other bell is back in its place at a lead head before the end of the course. *)
Theorem C143_plain_course :
  forall n m, 3 <= n -> pn_block_to_block_from_rounds None (grandsire n) = Ret (first_lead m) ->
    exists pc pars, (forall fuel, n - 2 <= fuel -> plain_course fuel m = Ret pc) /\ block_holds pc n pars (seq 0 n) /\
      length pars = (n - 2) * (2 * n) /\ NoDup (map fst pars) /\
      (forall b, b < 2 -> block_path_of pc b = Ret (Some (map (hunting_place n b) (seq 0 ((n - 2) * (2 * n))), b))) /\
      (forall b k r, 2 <= b < n -> 0 < k < n - 2 -> nth_error (map fst pars) (k * (2 * n)) = Some r -> nth_error r b <> Some b).
Proof. exact pf_C143_plain_course. Qed.
Print Assumptions C143_plain_course.

(** C143: on at least five bells it is a Bob method with two hunt bells, neither little nor differential.  So the standard title has
    the word Bob in it, which the title ringers use has not. *)
Theorem C143_class :
  forall hash_order name n stage text, (forall l, collected_set l (hash_order l)) -> 5 <= n -> stage_name n = Some stage ->
    pn_block_parse text n = Ret (Ok (grandsire n)) ->
    exists m h, from_place_not_string hash_order name n text = Ret (Ok m) /\
      pn_block_to_block_from_rounds None (grandsire n) = Ret (first_lead m) /\
      lead_head m = Ret h /\ (forall b, hunt_bell h b <-> b < 2) /\
      m_class m = FullClass false false false Bob /\ m_title m = joined (name_words name ++ [s2l "Bob"; stage]) /\
      m_title m <> joined (name_words name ++ [stage]).
Proof. exact pf_C143_class. Qed.
Print Assumptions C143_class.

Example C143_example :
  pn_block_parse (s2l "3,1.5.1.5.1") 5 = Ret (Ok (grandsire 5)) /\ pn_block_parse (s2l "36,16-16-16-") 6 = Ret (Ok (grandsire 6)) /\
  exists m pc, from_place_not_string (nodup Nat.eq_dec) (s2l "Grandsire") 7 (s2l "3,1.7.1.7.1.7.1") = Ret (Ok m) /\
    m_title m = s2l "Grandsire Bob Triples" /\ pn_block_to_block_from_rounds None (grandsire 7) = Ret (first_lead m) /\
    plain_course 5 m = Ret pc /\ block_len pc = 70 /\ lead_head m = Ret [0; 1; 4; 2; 6; 3; 5].
Proof. vm_compute. split; [reflexivity|]. split; [reflexivity|]. eexists. eexists. repeat (split; [reflexivity|]). reflexivity. Qed.
