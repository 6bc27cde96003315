(** Property theorems C107: the characters and the widths of the texts written by the API. *)

(* Generated from tools/props/Text.src; the proofs are in TextThms.v. *)
From Verif Require Import Base Spec SpecText ListFacts Bell Stage BellFacts Row RowFacts MulFacts Utils SameStageVec SpecVec SsvFacts Block SpecBlock BlockFacts
  PlaceNot Mask Music Class Method Format FormatFacts TextFacts.
Local Open Scope string_scope.
Local Open Scope list_scope.
From Verif Require Import TextThms.

(** C107: bells, rows, masks, regexes and place notations are displayed without spaces, line breaks or characters outside
    ASCII; stages and classes on one line of ASCII characters. *)
Theorem C107_displayed_texts :
  (forall b, no_spaces (bell_name b)) /\ (forall r, no_spaces (row_display r)) /\ (forall m, no_spaces (mask_display m)) /\
  (forall es, no_spaces (regex_display es)) /\ (forall pn, no_spaces (pn_display pn)) /\
  (forall s, one_line (stage_display s)) /\ (forall c, one_line (full_class_display c)) /\ (forall c, one_line (class_name c)).
Proof. exact pf_C107_displayed_texts. Qed.
Print Assumptions C107_displayed_texts.

(** C107: the message of every error is one line of ASCII characters, whatever the text which caused it. *)
Theorem C107_messages :
  (forall e, one_line (invalid_row_error_display e)) /\ (forall e, one_line (mul_into_error_display e)) /\
  (forall e, one_line (incompatible_stages_display e)) /\ (forall e, one_line (ssv_parse_error_display e)) /\
  (forall e, one_line (block_parse_error_display e)) /\ (forall e t, pn_error_display e = Ret t -> one_line t) /\
  (forall e t, pn_block_error_display e = Ret t -> one_line t) /\ (forall e, one_line (invalid_pn_block_display e)).
Proof. exact pf_C107_messages. Qed.
Print Assumptions C107_messages.

(** C107: the debug texts are one line of ASCII characters too; that of a block if those of its annotations are.  The
    title generated for a name adds only such characters to it. *)
Theorem C107_debug_texts_and_titles :
  (forall b, no_spaces (bell_debug b)) /\ (forall r, no_spaces (row_debug r) /\ no_spaces (row_buf_debug r)) /\
  (forall pn, no_spaces (pn_debug pn)) /\ (forall m, no_spaces (mask_debug m)) /\ (forall es, no_spaces (regex_debug es)) /\
  (forall s t, stage_debug s = Ret t -> no_spaces t) /\ (forall v t, ssv_debug v = Ret t -> one_line t) /\
  (forall A (debug_annot : A -> list N) b t, (forall a, one_line (debug_annot a)) -> block_debug debug_annot b = Ret t -> one_line t) /\
  (forall name c s t, generate_title name c s = Ret t -> exists rest, t = name ++ rest /\ one_line rest).
Proof. exact pf_C107_debug_texts_and_titles. Qed.
Print Assumptions C107_debug_texts_and_titles.

(** C107: rows of one stage line up: their texts have the same number of characters, which is the number of bells when
    there are at most 33 of them; and as many bytes as characters.  Likewise masks, on at most 33 bells. *)
Theorem C107_rows_line_up :
  (forall r r', valid_row r -> valid_row r' -> length r = length r' -> length (row_display r) = length (row_display r')) /\
  (forall r, valid_row r -> (length (row_display r) = length r <-> length r <= 33)) /\
  (forall r, byte_len (row_display r) = length (row_display r)) /\
  (forall m, (forall b, In (Some b) m -> b < 33) -> length (mask_display m) = length m).
Proof. exact pf_C107_rows_line_up. Qed.
Print Assumptions C107_rows_line_up.

Example C107_example :
  row_display [33; 0; 32] = s2l "<34>1Z" /\ stage_display 30 = s2l "30 bells" /\ valid_row (row_rounds 34) /\
  length (row_display (row_rounds 33)) = 33 /\ length (row_display (row_rounds 34)) = 37 /\
  generate_title [233; 116; 233]%N (FullClass false true false Bob) 6 = Ret ([233; 116; 233]%N ++ s2l " Little Bob Minor") /\
  byte_len [233; 116; 233]%N = 5.
Proof. splits; try (vm_compute; reflexivity). apply valid_rounds. lia. Qed.
