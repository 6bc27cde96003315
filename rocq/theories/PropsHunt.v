(** Property theorems C131: plain hunting. *)

(* Generated from tools/props/Hunt.src; the proofs are in HuntThms.v. *)
From Verif Require Import Base Spec ListFacts Bell Stage Row RowFacts MulFacts GroupFacts
  Utils SameStageVec SpecVec SsvFacts Block SpecBlock BlockFacts PlaceNot SpecPn SpecLaws PnFacts PnFacts2 PnFacts3 LawFacts
  Class SpecClass ClassFacts ClassFacts2 ClassFacts3 Method SpecMethod MethodFacts SymFacts3 ShapeFacts BellPathFacts SpecHunt HuntFacts.
From Verif Require Import SsvThms BlockThms PnThms LawsThms ClassThms MethodThms CtorThms CtorFacts.
Local Open Scope list_scope.
From Verif Require Import HuntThms.

(** C131: on up to 33 bells the two changes of plain hunting can be written. *)
Theorem C131_changes :
  forall n, 0 < n -> Forall (fun pn => legal pn /\ pn_stage pn = n) (hunting n) /\
    (n <= 33 -> pn_block_parse (with_dots (hunting n)) n = Ret (Ok (hunting n))).
Proof. exact pf_C131_changes. Qed.
Print Assumptions C131_changes.

(** C131: the method of these two changes rings every bell to the back and to the front again.  Its plain course has [n]
    leads, so [2 * n] rows; half way through it the bells are in reverse order; no row comes twice unless there are fewer than
    three bells. *)
Theorem C131_plain_course :
  forall n m, 0 < n -> pn_block_to_block_from_rounds None (hunting n) = Ret (first_lead m) ->
    exists pc pars, (forall fuel, n <= fuel -> plain_course fuel m = Ret pc) /\ block_holds pc n pars (seq 0 n) /\ length pars = 2 * n /\
      nth_error (map fst pars) n = Some (rev (seq 0 n)) /\
      (NoDup (map fst pars) <-> 3 <= n) /\
      (forall t, exists r, row_in_plain_course m t = Ret r /\
         forall b, b < n -> forall p, nth_error r p = Some b <-> p = hunting_place n b t) /\
      (forall b, b < n -> block_path_of pc b = Ret (Some (map (hunting_place n b) (seq 0 (2 * n)), b))).
Proof. exact pf_C131_plain_course. Qed.
Print Assumptions C131_plain_course.

(** C131: and on at least two bells it is a principle: no bell is fixed by the lead head, and all of them are back in their
    places after the same number of leads. *)
Theorem C131_principle :
  forall hash_order name n stage text, (forall l, collected_set l (hash_order l)) -> 2 <= n -> stage_name n = Some stage ->
    pn_block_parse text n = Ret (Ok (hunting n)) ->
    exists m, from_place_not_string hash_order name n text = Ret (Ok m) /\
      pn_block_to_block_from_rounds None (hunting n) = Ret (first_lead m) /\
      fc_class (m_class m) = Principle /\ is_differential (m_class m) = false /\ is_jump (m_class m) = false /\
      m_title m = joined (name_words name ++ [stage]).
Proof. exact pf_C131_principle. Qed.
Print Assumptions C131_principle.

Example C131_example :
  with_dots (hunting 5) = s2l "5.1" /\ with_dots (hunting 6) = s2l "-.16" /\
  exists m pc, from_place_not_string (nodup Nat.eq_dec) (s2l "Original") 5 (s2l "5.1") = Ret (Ok m) /\
    m_title m = s2l "Original Doubles" /\ pn_block_to_block_from_rounds None (hunting 5) = Ret (first_lead m) /\
    plain_course 5 m = Ret pc /\ block_path_of pc 1 = Ret (Some ([1; 0; 0; 1; 2; 3; 4; 4; 3; 2], 1)) /\
    row_in_plain_course m 3 = Ret [3; 1; 4; 0; 2] /\ row_in_plain_course m 5 = Ret [4; 3; 2; 1; 0].
Proof. vm_compute. split; [reflexivity|]. split; [reflexivity|]. eexists. eexists. repeat (split; [reflexivity|]). reflexivity. Qed.
