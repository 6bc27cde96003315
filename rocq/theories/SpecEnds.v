(** Calls that end, for the theorems about termination.

    Five calls of the API run loops which the model cuts off after a number of rounds: the call then
    answers [NoFuel].  No other call has such a number of its own to give.  A real call has no such
    limit: it ends exactly when some number of rounds is enough. *)
From Verif Require Import Base Spec SpecVec SpecBlock Bell Stage Row Utils SameStageVec Block PlaceNot Mask Class Method Program.
Local Open Scope list_scope.

(** The same call, with its loops cut off after [k] rounds. *)
Definition cut_off (k : nat) (c : call) : call :=
  match c with
  | ChangeRow p (Parity _) => ChangeRow p (Parity k)
  | Closure _ i => Closure k i
  | ClosureFromRounds _ i => ClosureFromRounds k i
  | LeastGroup _ is => LeastGroup k is
  | MethodPlainCourse _ m => MethodPlainCourse k m
  | c => c
  end.

(** Some number of rounds is enough, and then any larger number gives the same outcome: [f k] is a
    computation cut off after [k] rounds. *)
Definition comes_to_an_end {A} (f : nat -> exec A) : Prop :=
  exists e, e <> NoFuel /\ exists k, forall k', k <= k' -> f k' = e.

(** However many rounds are allowed, there are not enough. *)
Definition runs_for_ever {A} (f : nat -> exec A) : Prop := forall k, f k = NoFuel.

(** The rows of the method's first lead can be listed (it has as many annotations as rows before the
    left-over one), and the first of them is rounds. *)
Definition sound_lead (m : method) : Prop :=
  exists s ars lo, block_holds (first_lead m) s ars lo /\ is_identity (hd [] (all_rows_of ars lo)).

(** If the call is [Method::plain_course], then its method has a sound lead. *)
Definition sound_course (st : list value) (c : call) : Prop :=
  match c with
  | MethodPlainCourse _ i => forall m, nth_error st i = Some (VMethod m) -> sound_lead m
  | _ => True
  end.

(** The two calls which can make other methods: [Method::new], which takes any block, and
    [AnnotBlock::extend_range], which makes blocks with more annotations than rows. *)
Definition makes_unsound_leads (c : call) : bool :=
  match c with MethodNew _ _ _ _ | BlockExtendRange _ _ _ _ => true | _ => false end.

(** [Method::plain_course]. *)
Definition rings_a_course (c : call) : bool := match c with MethodPlainCourse _ _ => true | _ => false end.

(** A row given as the text of a mask. *)
Definition two_trebles : list call := [MaskParse (s2l "11"); MaskAsRow 0].
(** A method given by [Method::new] as a block which does not start at rounds. *)
Definition back_to_back : list call :=
  [BlockParse (map (fun c => if (c =? 47)%N then 10%N else c) (s2l "21/21"));
   MethodNew [] [] (FullClass false false false Principle) 0].
(** A method given by [Method::with_name] as a block which starts at rounds, after
    [AnnotBlock::extend_range] was called on that block. *)
Definition too_many_annotations : list call :=
  [BlockParse (map (fun c => if (c =? 47)%N then 10%N else c) (s2l "123/231/312/123"));
   BlockEmpty 3; BlockExtendRange 1 0 (Included 0) (Excluded 1); MethodWithName (s2l "x") 1].
