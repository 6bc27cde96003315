(** Property theorems C132: Plain Bob. *)

(* Generated from tools/props/Bob.src; the proofs are in BobThms.v. *)
From Verif Require Import Base Spec ListFacts Bell Stage Row RowFacts MulFacts GroupFacts
  Utils SameStageVec SpecVec SsvFacts Block SpecBlock BlockFacts PlaceNot SpecPn SpecLaws PnFacts PnFacts2 PnFacts3 LawFacts
  Class SpecClass ClassFacts ClassFacts2 ClassFacts3 Method SpecMethod MethodFacts SymFacts3 ShapeFacts BellPathFacts SpecHunt HuntFacts BobFacts.
From Verif Require Import SsvThms BlockThms PnThms LawsThms ClassThms MethodThms CtorThms CtorFacts.
Local Open Scope list_scope.
From Verif Require Import BobThms.

(** C132: the changes of Plain Bob are legal, and on up to 33 bells they can be written. *)
Theorem C132_changes :
  forall n, 2 <= n -> length (plain_bob n) = 2 * n /\ Forall (fun pn => legal pn /\ pn_stage pn = n) (plain_bob n) /\
    (n <= 33 -> pn_block_parse (with_dots (plain_bob n)) n = Ret (Ok (plain_bob n))).
Proof. exact pf_C132_changes. Qed.
Print Assumptions C132_changes.

(** C132: its plain course has [n - 1] leads of [2 * n] rows, the treble hunts in every one of them, and no row comes twice exactly
    when there are at least four bells. *)
Theorem C132_plain_course :
  forall n m, 2 <= n -> pn_block_to_block_from_rounds None (plain_bob n) = Ret (first_lead m) ->
    exists pc pars, (forall fuel, n - 1 <= fuel -> plain_course fuel m = Ret pc) /\ block_holds pc n pars (seq 0 n) /\
      length pars = (n - 1) * (2 * n) /\ (NoDup (map fst pars) <-> 4 <= n) /\
      block_path_of pc 0 = Ret (Some (concat (repeat (seq 0 n ++ rev (seq 0 n)) (n - 1)), 0)).
Proof. exact pf_C132_plain_course. Qed.
Print Assumptions C132_plain_course.

(** C132: on at least four bells it is a Bob method with one hunt bell, neither little nor differential. *)
Theorem C132_class :
  forall hash_order name n stage text, (forall l, collected_set l (hash_order l)) -> 4 <= n -> stage_name n = Some stage ->
    pn_block_parse text n = Ret (Ok (plain_bob n)) ->
    exists m, from_place_not_string hash_order name n text = Ret (Ok m) /\
      pn_block_to_block_from_rounds None (plain_bob n) = Ret (first_lead m) /\
      m_class m = FullClass false false false Bob /\ m_title m = joined (name_words name ++ [s2l "Bob"; stage]).
Proof. exact pf_C132_class. Qed.
Print Assumptions C132_class.

Example C132_example :
  pn_block_parse (s2l "-16-16-16,12") 6 = Ret (Ok (plain_bob 6)) /\ pn_block_parse (s2l "5.1.5.1.5,125") 5 = Ret (Ok (plain_bob 5)) /\
  exists m pc, from_place_not_string (nodup Nat.eq_dec) (s2l "Plain") 6 (s2l "-16-16-16,12") = Ret (Ok m) /\
    m_title m = s2l "Plain Bob Minor" /\ pn_block_to_block_from_rounds None (plain_bob 6) = Ret (first_lead m) /\
    plain_course 5 m = Ret pc /\ block_len pc = 60 /\ lead_head m = Ret [0; 2; 4; 1; 5; 3].
Proof. vm_compute. split; [reflexivity|]. split; [reflexivity|]. eexists. eexists. repeat (split; [reflexivity|]). reflexivity. Qed.
