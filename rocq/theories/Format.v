(** Model of the texts written by the [Display] and [Debug] implementations of errors, rows, buffers
    and blocks.  Writing to the formatter cannot fail; the flags of format strings (width, [#]) are
    those of a plain [{}] or [{:?}]. *)
From Verif Require Import Base Bell Stage Row Utils SameStageVec Block PlaceNot Mask Music Class.
Local Open Scope list_scope.

(** ** Errors *)

(* row/errors.rs 34-49 *)
Definition invalid_row_error_display (e : invalid_row_error) : str :=
  match e with
  | DuplicateBell b => s2l "Bell '" ++ bell_name b ++ s2l "' appears twice."
  | BellOutOfStage b s => s2l "Bell '" ++ bell_name b ++ s2l "' is not within stage " ++ stage_display s
  | MissingBell b => s2l "Bell '" ++ bell_name b ++ s2l "' is missing"
  | NoBells => s2l "Row would have no bells"
  end.

(* row/errors.rs 60-73 *)
Definition mul_into_error_display (e : mul_into_error) : str :=
  match e with
  | RhsStage (IncompatibleStages l r) =>
      s2l "Can't multiply stage " ++ stage_display l ++ s2l " with " ++ stage_display r
  | IntoStage (IncompatibleStages l r) =>
      s2l "Can't write stage " ++ stage_display l ++ s2l " into " ++ stage_display r
  end.

(* stage.rs 336-344 *)
Definition incompatible_stages_display (e : incompatible_stages) : str :=
  s2l "Incompatible stages: " ++ stage_display (lhs_stage e) ++ s2l " (lhs), " ++
  stage_display (rhs_stage e) ++ s2l " (rhs)".

(* same_stage_vec.rs 498-521; [ParseError::ZeroStage] is never made, and not in the model *)
Definition ssv_parse_error_display (e : ssv_parse_error) : str :=
  match e with
  | SpeInvalidRow line err =>
      s2l "Error parsing row on line " ++ dec line ++ s2l ": " ++ invalid_row_error_display err
  | SpeIncompatibleStages line first_stage different_stage =>
      s2l "Row on line " ++ dec line ++ s2l " has different stage (" ++ stage_display different_stage ++
      s2l ") to the first stage (" ++ stage_display first_stage ++ s2l ")"
  end.

(* block.rs 554-561 *)
Definition block_parse_error_display (e : block_parse_error) : str :=
  match e with
  | ZeroLengthBlock => s2l "Blocks must contain at least one row"
  | BlockOther inner => ssv_parse_error_display inner
  end.

(* place_not.rs 23-51; the subtraction [q - p - 1] panics on underflow (in debug builds) *)
Definition pn_error_display (e : pn_error) : exec str :=
  match e with
  | OddStageCross s => Ret (s2l "Cross notation for odd stage " ++ stage_display s)
  | PlaceOutOfStage place s =>
      Ret (s2l "Place '" ++ bell_name place ++ s2l "' is out stage " ++ stage_display s)
  | AmbiguousPlacesBetween p q =>
      d <- usub q p;; gap <- usub d 1;;
      Ret (s2l "Ambiguous gap of " ++ dec gap ++ s2l " bells between places '" ++ bell_name p ++
           s2l "' and '" ++ bell_name q ++ s2l "'.")
  | NoPlacesGiven => Ret (s2l "No places given.  Use 'x' or '-' for a cross.")
  | DuplicatePlace p => Ret (s2l "Place '" ++ bell_name p ++ s2l "' is duplicated")
  end.

(* place_not.rs 383-395 *)
Definition pn_block_error_display (e : pn_block_error) : exec str :=
  match e with
  | EmptyBlock => Ret (s2l "`PnBlock`s can't be empty.")
  | PnError start _ err =>
      t <- pn_error_display err;; Ret (s2l "Error parsing PN at index " ++ dec start ++ s2l ": " ++ t)
  | PlusNotAtBlockStart index =>
      Ret (s2l "'+' at index " ++ dec index ++ s2l " is not at the start of a block.")
  end.

(* place_not.rs 406-417 *)
Definition invalid_pn_block_display (e : invalid_pn_block) : str :=
  match e with
  | PbIncompatibleStages ind e =>
      s2l "Incompatible stages: First PN has stage " ++ stage_display (lhs_stage e) ++
      s2l ", whereas the " ++ dec ind ++ s2l "th has " ++ stage_display (rhs_stage e)
  | PbEmptyBlock => s2l "`PnBlock`s can't be empty."
  end.

(** ** [Debug] *)

(* bell.rs 237-241 *)
Definition bell_debug (b : bell) : str := s2l "Bell(" ++ bell_name b ++ s2l ")".

(* borrowed.rs 1039-1043 *)
Definition row_debug (r : row) : str := s2l "Row(" ++ row_display r ++ s2l ")".

(* owned.rs 461-465 *)
Definition row_buf_debug (r : row) : str := s2l "RowBuf(" ++ row_display r ++ s2l ")".

(* place_not.rs 347-351 *)
Definition pn_debug (pn : place_not) : str := s2l "PlaceNot(" ++ pn_display pn ++ s2l ")".

(* mask.rs 271-275 *)
Definition mask_debug (m : mask) : str := s2l "Mask(" ++ mask_display m ++ s2l ")".

(* music.rs 453-457 *)
Definition regex_debug (es : regex) : str := s2l "Regex(" ++ regex_display es ++ s2l ")".

(* std::fmt::DebugTuple (without [#]): an opening bracket before the first field, ", " before each
   other one, and a closing bracket if there was a field *)
Fixpoint debug_fields (first : bool) (fields : list str) : str :=
  match fields with
  | [] => if first then [] else s2l ")"
  | f :: t => (if first then s2l "(" else s2l ", ") ++ f ++ debug_fields false t
  end.
(* [Formatter::debug_tuple], block.rs 470, same_stage_vec.rs 408 *)
Definition debug_tuple (name : str) (fields : list str) : str := name ++ debug_fields true fields.

(* same_stage_vec.rs 406-414; the fields are written by [DbgRow] (borrowed.rs 1059-1063), which is
   the [Display] of the row *)
Definition ssv_debug (v : ssv) : exec str :=
  rows <- ssv_rows v;; Ret (debug_tuple (s2l "SameStageVec") (map row_display rows)).

(* block.rs 452-479; [debug_annot] is the [Debug] of the annotations *)
Definition block_debug {A} (debug_annot : A -> str) (b : block A) : exec str :=
  ars <- block_annot_rows b;;
  leftover <- block_leftover_row b;;
  Ret (debug_tuple (s2l "AnnotBlock")
         (map (fun '(r, a) => row_display r ++ s2l ": " ++ debug_annot a) ars ++ [row_display leftover])).
