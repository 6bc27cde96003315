(** Model of /repo/src/stage.rs.  A [Stage] is its number of bells (stage.rs 49); the type does
    not exclude 0, the constructors do. *)
From Verif Require Import Base Bell.

Notation stage := nat (only parsing).

(* stage.rs 288-290 *)
Inductive zero_stage_error := ZeroStageError.

(* stage.rs 277-286 *)
Definition stage_try_from (n : nat) : result stage zero_stage_error :=
  match n with O => Err ZeroStageError | _ => Ok n end.

(* stage.rs 58-60 *)
Definition stage_new (n : nat) : exec stage := unwrap_res (stage_try_from n).

(* stage.rs 97-99 *)
Definition stage_bells (s : stage) : list bell := range 0 s.

(* stage.rs 92-94 *)
Definition stage_tenor (s : stage) : exec bell := bell_tenor s.

(* stage.rs 103-105 *)
Definition stage_is_even (s : stage) : bool := s mod 2 =? 0.

(* stage.rs 145-177 *)
Definition stage_name (s : stage) : option str :=
  match s with
  | 1 => Some (s2l "One") | 2 => Some (s2l "Two")
  | 3 => Some (s2l "Singles") | 4 => Some (s2l "Minimus")
  | 5 => Some (s2l "Doubles") | 6 => Some (s2l "Minor")
  | 7 => Some (s2l "Triples") | 8 => Some (s2l "Major")
  | 9 => Some (s2l "Caters") | 10 => Some (s2l "Royal")
  | 11 => Some (s2l "Cinques") | 12 => Some (s2l "Maximus")
  | 13 => Some (s2l "Sextuples") | 14 => Some (s2l "Fourteen")
  | 15 => Some (s2l "Septuples") | 16 => Some (s2l "Sixteen")
  | 17 => Some (s2l "Octuples") | 18 => Some (s2l "Eighteen")
  | 19 => Some (s2l "Nonuples") | 20 => Some (s2l "Twenty")
  | 21 => Some (s2l "Decuples") | 22 => Some (s2l "Twenty-two")
  | _ => None
  end.

(* stage.rs 109-141: the arms of the [match], tried in order *)
Definition lower_case_stage_arms : list (str * stage) :=
  [ (s2l "one", 1); (s2l "two", 2); (s2l "singles", 3); (s2l "minimus", 4);
    (s2l "doubles", 5); (s2l "minor", 6); (s2l "triples", 7); (s2l "major", 8);
    (s2l "caters", 9); (s2l "royal", 10); (s2l "cinques", 11); (s2l "maximus", 12);
    (s2l "sextuples", 13); (s2l "fourteen", 14); (s2l "septuples", 15); (s2l "sixteen", 16);
    (s2l "octuples", 17); (s2l "eighteen", 18); (s2l "nonuples", 19); (s2l "twenty", 20);
    (s2l "decuples", 21); (s2l "twenty-two", 22) ].

(* stage.rs 109-141 *)
Definition stage_from_lower_case_name (name : str) : option stage :=
  option_map snd (find (fun arm => str_eqb (fst arm) name) lower_case_stage_arms).

(* stage.rs 268-275 *)
Definition stage_display (s : stage) : str :=
  match stage_name s with
  | Some n => n
  | None => (dec s ++ s2l " bells")%list
  end.

(* stage.rs 242-266 *)
Definition stage_debug (s : stage) : exec str :=
  match s with
  | 0 => Panic
  | 1 => Ret (s2l "Stage::ONE") | 2 => Ret (s2l "Stage::TWO")
  | 3 => Ret (s2l "Stage::SINGLES") | 4 => Ret (s2l "Stage::MINIMUS")
  | 5 => Ret (s2l "Stage::DOUBLES") | 6 => Ret (s2l "Stage::MINOR")
  | 7 => Ret (s2l "Stage::TRIPLES") | 8 => Ret (s2l "Stage::MAJOR")
  | 9 => Ret (s2l "Stage::CATERS") | 10 => Ret (s2l "Stage::ROYAL")
  | 11 => Ret (s2l "Stage::CINQUES") | 12 => Ret (s2l "Stage::MAXIMUS")
  | 13 => Ret (s2l "Stage::SEXTUPLES") | 14 => Ret (s2l "Stage::FOURTEEN")
  | 15 => Ret (s2l "Stage::SEPTUPLES") | 16 => Ret (s2l "Stage::SIXTEEN")
  | n => Ret (s2l "Stage(" ++ dec n ++ s2l ")")%list
  end.

(* stage.rs 298-305 *)
Record incompatible_stages := IncompatibleStages { lhs_stage : stage; rhs_stage : stage }.

(* stage.rs 310-319 *)
Definition test_err (lhs rhs : stage) : result unit incompatible_stages :=
  if lhs =? rhs then Ok tt else Err (IncompatibleStages lhs rhs).

(* stage.rs 325-333: returns the new value of [*opt] too *)
Definition test_err_opt (opt : option stage) (s : stage)
  : option stage * result unit incompatible_stages :=
  match opt with
  | None => (Some s, Ok tt)
  | Some s0 => (Some s0, test_err s0 s)
  end.
