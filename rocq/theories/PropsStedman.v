(** Property theorems C145: Stedman. *)

(* Generated from tools/props/Stedman.src; the proofs are in StedmanThms.v. *)
From Verif Require Import Base Spec ListFacts Bell Stage Row RowFacts MulFacts GroupFacts
  Utils SameStageVec SpecVec SsvFacts Block SpecBlock BlockFacts PlaceNot SpecPn SpecLaws PnFacts PnFacts2 PnFacts3 LawFacts
  Class SpecClass ClassFacts ClassFacts2 ClassFacts3 Method SpecMethod MethodFacts SymFacts3 ShapeFacts BellPathFacts SpecHunt HuntFacts BobFacts GrandsireFacts SpecStedman StedmanFacts.
From Verif Require Import SsvThms BlockThms PnThms LawsThms ClassThms MethodThms CtorThms CtorFacts.
Local Open Scope list_scope.
From Verif Require Import StedmanThms.

(** C145: the changes of Stedman are legal, and on up to 33 bells they can be written. *)
Theorem C145_changes :
  forall n, Nat.Odd n -> 5 <= n -> length (stedman n) = 12 /\ Forall (fun pn => legal pn /\ pn_stage pn = n) (stedman n) /\
    (n <= 33 -> pn_block_parse (with_dots (stedman n)) n = Ret (Ok (stedman n))).
Proof. exact pf_C145_changes. Qed.
Print Assumptions C145_changes.

(** C145: its plain course has [n] leads of 12 rows; no row comes twice; no bell is back in its place at a lead head before the
    end of the course; and every bell is throughout in the places where the treble is some number of leads later. *)
Theorem C145_plain_course :
  forall n m, Nat.Odd n -> 5 <= n -> pn_block_to_block_from_rounds None (stedman n) = Ret (first_lead m) ->
    exists pc pars, (forall fuel, n <= fuel -> plain_course fuel m = Ret pc) /\ block_holds pc n pars (seq 0 n) /\
      length pars = n * 12 /\ NoDup (map fst pars) /\
      (forall b k r, b < n -> 0 < k < n -> nth_error (map fst pars) (k * 12) = Some r -> nth_error r b <> Some b) /\
      (forall b, b < n -> exists k, k < n /\
         forall t r r' p, nth_error (map fst pars) t = Some r -> nth_error (map fst pars) ((t + k * 12) mod (n * 12)) = Some r' ->
           (nth_error r p = Some b <-> nth_error r' p = Some 0)).
Proof. exact pf_C145_plain_course. Qed.
Print Assumptions C145_plain_course.

(** C145: it is a principle, not differential, so that its standard title is its name and the stage. *)
Theorem C145_class :
  forall hash_order name n stage text, (forall l, collected_set l (hash_order l)) -> Nat.Odd n -> 5 <= n -> stage_name n = Some stage ->
    pn_block_parse text n = Ret (Ok (stedman n)) ->
    exists m h, from_place_not_string hash_order name n text = Ret (Ok m) /\
      pn_block_to_block_from_rounds None (stedman n) = Ret (first_lead m) /\
      lead_head m = Ret h /\ (forall b, ~ hunt_bell h b) /\
      fc_class (m_class m) = Principle /\ is_differential (m_class m) = false /\ is_jump (m_class m) = false /\
      m_title m = joined (name_words name ++ [stage]).
Proof. exact pf_C145_class. Qed.
Print Assumptions C145_class.

Example C145_example :
  pn_block_parse (s2l "3.1.5.3.1.3,1") 5 = Ret (Ok (stedman 5)) /\ pn_block_parse (s2l "3.1.E.3.1.3,1") 11 = Ret (Ok (stedman 11)) /\
  exists m pc, from_place_not_string (nodup Nat.eq_dec) (s2l "Stedman") 7 (s2l "3.1.7.3.1.3,1") = Ret (Ok m) /\
    m_title m = s2l "Stedman Triples" /\ pn_block_to_block_from_rounds None (stedman 7) = Ret (first_lead m) /\
    plain_course 7 m = Ret pc /\ block_len pc = 84 /\ lead_head m = Ret [5; 2; 3; 6; 1; 4; 0].
Proof. vm_compute. split; [reflexivity|]. split; [reflexivity|]. eexists. eexists. repeat (split; [reflexivity|]). reflexivity. Qed.
