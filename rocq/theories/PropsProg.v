(** Property C68: whatever a program does with the safe API, its rows stay valid. *)

(* Generated from tools/props/Prog.src; the proofs are in ProgThms.v. *)
From Verif Require Import Base Spec Bell Stage Row Utils SameStageVec Block PlaceNot Mask Class Method Program SpecProg
  RowFacts SsvFacts SafeFacts SafeFacts2.
Local Open Scope list_scope.
From Verif Require Import ProgThms.

(** C68 (false as claimed, see the two [_refuted] theorems; this is the part which is true): a
    program may call every modelled function of rows, accumulators, buffers, iterators, blocks, place
    notation, masks and methods, in any order and on any values which it has, except
    [Mask::as_row], [SameStageVec::extend_transposed] and [SameStageVec::extend_range_transposed].
    Such a program makes no out-of-bounds unchecked access, and every row which it has at any time
    is valid.  (Every way of looking at a row inside another value is itself a call which puts that
    row into the store.) *)
Theorem C68_safe_programs_partial :
  forall hash_order prog, Forall (fun c => unguarded c = false) prog ->
    run hash_order prog <> Ub /\
    forall st r, run hash_order prog = Ret st -> In (VRow r) st -> valid_row r.
Proof. exact pf_C68_safe_programs_partial. Qed.
Print Assumptions C68_safe_programs_partial.

(** C68: the three excluded calls are also fine in a program which checks, each time, that the mask
    agrees with some row, or that the buffer copied from has the stage of the buffer copied to. *)
Theorem C68_careful_programs_partial :
  forall hash_order prog, careful hash_order [] prog ->
    run hash_order prog <> Ub /\
    forall st r, run hash_order prog = Ret st -> In (VRow r) st -> valid_row r.
Proof. exact pf_C68_careful_programs_partial. Qed.
Print Assumptions C68_careful_programs_partial.

(** The same at every point of the program, not only at its end. *)
Theorem C68_at_every_point_partial :
  forall hash_order before after st r, Forall (fun c => unguarded c = false) (before ++ after) ->
    run hash_order before = Ret st -> In (VRow r) st -> valid_row r.
Proof. exact pf_C68_at_every_point_partial. Qed.
Print Assumptions C68_at_every_point_partial.

(** C68 is false of all safe programs: this one makes the "row" 29 from a mask, puts it into a
    buffer, and multiplies the buffer by 21, which reads bell 9 of a row of two bells unchecked. *)
Theorem C68_no_unchecked_access_out_of_bounds_refuted :
  exists prog, forall hash_order, run hash_order prog = Ub.
Proof. exact pf_C68_no_unchecked_access_out_of_bounds_refuted. Qed.
Print Assumptions C68_no_unchecked_access_out_of_bounds_refuted.

(** C68 is false of all safe programs: both a mask and a buffer of another stage give a program a
    row which is not one. *)
Theorem C68_every_row_is_valid_refuted :
  (exists prog st r, (forall hash_order, run hash_order prog = Ret st) /\ In (VRow r) st /\ ~ valid_row r /\
     In (MaskAsRow 0) prog) /\
  (exists prog st r, (forall hash_order, run hash_order prog = Ret st) /\ In (VRow r) st /\ ~ valid_row r /\
     In (VecExtendTransposed 2 0 3) prog).
Proof. exact pf_C68_every_row_is_valid_refuted. Qed.
Print Assumptions C68_every_row_is_valid_refuted.

(** A program of the first theorem which uses most kinds of values, and its rows. *)
Example C68_program_example :
  let prog :=
    [ MethodFromString (s2l "Plain") 5 (s2l "5.1.5.1.5,125"); MethodLead 0; BlockIter 1; IterNext 2; IterNextBack 2;
      Queens 5; RepeatNew 5 1; RepeatNext 6; RepeatNext 6; RepeatNextInto 6 3;
      AccNew 5; Accumulate 9 7; AccTotal 9; BlockParse (s2l "12345"); BlockExtend 11 1; BlockPreMultiply 11 5; BlockLeftover 11;
      MaskFullRow 12; MaskMulRow 13 5; PnBetween 7 8; PnTransposition 15; ChangeRow (InRow 16) (Swap 0 4); ChangeRow (InRow 16) (Permute 15);
      MethodPlainCourse 9 0; BlockLeftover 17 ] in
  Forall (fun c => unguarded c = false) prog /\
  exists st, run (fun l => nodup Nat.eq_dec l) prog = Ret st /\
    (length st, filter_map (fun v => match v with VRow r => Some r | _ => None end) st) =
    (19, [[2; 1; 0; 3; 4]; [0; 2; 1; 4; 3]; [0; 2; 4; 1; 3]; [0; 2; 4; 1; 3]; [2; 0; 1; 4; 3]; [0; 4; 3; 2; 1];
          [0; 4; 3; 2; 1]; [0; 4; 2; 3; 1]; [0; 1; 2; 3; 4]]).
Proof.
  cbv zeta. split; [repeat constructor|]. eexists. split; [vm_compute; reflexivity|]. vm_compute. reflexivity.
Qed.

(** A careful program which makes all three of the other calls. *)
Example C68_careful_example :
  let prog := [Parse (s2l "4231"); MaskFullRow 0; MaskAsRow 1; VecFromRow 2; VecNew 4;
               VecExtendTransposed 4 0 3; VecExtendRangeTransposed 4 0 3 Unbounded (Excluded 1); VecRows 4] in
  careful (fun l => l) [] prog /\
  existsb unguarded prog = true /\
  exists st, run (fun l => l) prog = Ret st /\ In (VRow [0; 1; 2; 3]) st.
Proof.
  cbv zeta. split; [|split; [reflexivity|]].
  - cbn [careful careful_call]. repeat match goal with
      | |- True /\ _ => split; [exact I|]
      | |- forall st', _ = Ret st' -> _ => let st := fresh "st" in let E := fresh in
          intros st E; vm_compute in E; injection E as <-
      end.
    split.
    { intros m E. vm_compute in E. injection E as <-. exists [3; 1; 2; 0]. split; [vr|]. split; [reflexivity|].
      intros i b E. do 4 (destruct i as [|i]; [cbn in *; congruence|]). destruct i; discriminate. }
    intros st E; vm_compute in E; injection E as <-. cbn [careful careful_call].
    repeat match goal with
      | |- _ /\ _ => split
      | |- True => exact I
      | |- forall st', _ = Ret st' -> _ => let st := fresh "st" in let E := fresh in
          intros st E; vm_compute in E; injection E as <-
      | |- forall x y, _ -> _ -> ssv_stage _ = ssv_stage _ => let E := fresh in let F := fresh in
          intros x y E F; vm_compute in E, F; injection E as <-; injection F as <-; reflexivity
      end.
  - eexists. split; [vm_compute; reflexivity|]. cbn. tauto.
Qed.
