(** Property theorems C93: calls of the API come to an end. *)

(* Generated from tools/props/Ends.src; the proofs are in EndsThms.v. *)
From Verif Require Import Base Bell Stage Row Utils SameStageVec Block PlaceNot Mask Class Method Program
  Spec SpecVec SpecBlock SpecProg SpecEnds ListFacts BellFacts RowFacts MulFacts GroupFacts SsvFacts BlockFacts MethodThms SafeFacts SafeFacts2 UnwindFacts UnwindFacts2 UnwindFacts3 UnwindFacts4 EndFacts EndFacts2.
Local Open Scope list_scope.
From Verif Require Import EndsThms.

(** C93: after any careful program (C68), every call ends: it returns or panics.  For [plain_course] the
    first lead of the method has to start at rounds and to have as many annotations as rows before
    the left-over one.
    Missing: [plain_course] of other methods; it may run for ever (below). *)
Theorem C93_calls_end_partial :
  forall ho prog st c, careful ho [] prog -> run ho prog = Ret st -> sound_course st c ->
    comes_to_an_end (fun k => step ho st (cut_off k c)).
Proof. exact pf_C93_calls_end_partial. Qed.
Print Assumptions C93_calls_end_partial.

(** C93: whole programs end.  Each call is careful when the program gets there, and either no call is
    [plain_course] or no call is [Method::new] or [extend_range].
    Missing: programs which call both. *)
Theorem C93_programs_end_partial :
  forall ho prog, (forall k, careful ho [] (map (cut_off k) prog)) ->
    Forall (fun c => makes_unsound_leads c = false) prog \/ Forall (fun c => rings_a_course c = false) prog ->
    comes_to_an_end (fun k => run ho (map (cut_off k) prog)).
Proof. exact pf_C93_programs_end_partial. Qed.
Print Assumptions C93_programs_end_partial.

(** C93: what the programs of C93_programs_end_partial rely on.  Without [Method::new] and [extend_range] every
    method of the program has a sound lead. *)
Theorem C93_methods_have_sound_leads :
  forall ho prog st i m, careful ho [] prog -> Forall (fun c => makes_unsound_leads c = false) prog ->
    run ho prog = Ret st -> nth_error st i = Some (VMethod m) -> sound_lead m.
Proof. exact pf_C93_methods_have_sound_leads. Qed.
Print Assumptions C93_methods_have_sound_leads.

(** C93: the number of rounds allowed to the loops does not change what a call does, once it is
    enough.  This holds of every call in every store, so the cut-off is not part of the model's meaning. *)
Theorem C93_enough_is_enough :
  forall ho st c k k', k <= k' -> step ho st (cut_off k c) <> NoFuel -> step ho st (cut_off k' c) = step ho st (cut_off k c).
Proof. exact pf_C93_enough_is_enough. Qed.
Print Assumptions C93_enough_is_enough.

(** C93 is false of a row made by [Mask::as_row] from a mask with a repeated bell, "11":
    [Row::parity] swaps for ever, and [Row::closure] multiplies for ever. *)
Theorem C93_repeated_bells_refuted :
  forall ho, exists st, run ho two_trebles = Ret st /\ nth_error st 1 = Some (VRow [0; 0]) /\
    runs_for_ever (fun k => step ho st (ChangeRow (InRow 1) (Parity k))) /\
    runs_for_ever (fun k => step ho st (Closure k 1)) /\
    runs_for_ever (fun k => step ho st (ClosureFromRounds k 1)).
Proof. exact pf_C93_repeated_bells_refuted. Qed.
Print Assumptions C93_repeated_bells_refuted.

(** C93 is false of [Method::new]: the plain course of a method whose lead does not start at rounds runs for ever. *)
Theorem C93_method_new_refuted :
  forall ho, exists st m, run ho back_to_back = Ret st /\ nth_error st 1 = Some (VMethod m) /\
    Forall (fun c => unguarded c = false) back_to_back /\
    runs_for_ever (fun k => step ho st (MethodPlainCourse k 1)).
Proof. exact pf_C93_method_new_refuted. Qed.
Print Assumptions C93_method_new_refuted.

(** C93 is false after [extend_range], even of [Method::with_name] of a block which starts at rounds. *)
Theorem C93_extend_range_refuted :
  forall ho, exists st m, run ho too_many_annotations = Ret st /\ nth_error st 2 = Some (VMethod m) /\
    block_get_row (first_lead m) 0 = Some [0; 1; 2] /\
    Forall (fun c => unguarded c = false) too_many_annotations /\
    runs_for_ever (fun k => step ho st (MethodPlainCourse k 2)).
Proof. exact pf_C93_extend_range_refuted. Qed.
Print Assumptions C93_extend_range_refuted.

(** A program with parity, closures, groups and a plain course: it is careful, makes no unsound lead, and
    ends with the 60 rows of the plain course of a minor method; with too few rounds it would be cut off. *)
Definition ending_program : list call :=
  [Parse (s2l "2143"); Parse (s2l "1342"); ChangeRow (InRow 0) (Parity 0); Closure 0 1; LeastGroup 0 [1];
   MethodFromString (s2l "Plain") 6 (s2l "x16x16x16,12"); MethodPlainCourse 0 8].
Example C93_program_example :
  Forall (fun c => unguarded c = false) ending_program /\
  Forall (fun c => makes_unsound_leads c = false) ending_program /\
  (forall ho k, careful ho [] (map (cut_off k) ending_program)) /\
  (match run (fun l => l) (map (cut_off 40) ending_program) with
   | Ret st => match nth_error st 9 with Some (VBlock b) => block_len b = 60 | _ => False end
   | _ => False
   end) /\
  run (fun l => l) (map (cut_off 3) ending_program) = NoFuel.
Proof.
  split; [repeat constructor|]. split; [repeat constructor|]. split; [|split; vm_compute; reflexivity].
  intros ho k. apply unguarded_careful. unfold ending_program. cbn [map cut_off]. repeat constructor.
Qed.
