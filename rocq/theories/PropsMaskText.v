(** Property theorems C127: one text read as a mask and as a regex. *)

(* Generated from tools/props/MaskText.src; the proofs are in MaskTextThms.v. *)
From Verif Require Import Base Bell Stage Row Music Mask Spec SpecMask ListFacts BellFacts RowFacts MaskFacts MusicFacts MulFacts SsvFacts.
From Verif Require Import MaskThms MusicThms.
Local Open Scope list_scope.
From Verif Require Import MaskTextThms.

(** C127: a text without [*] gives, read as a regex, the regex of the mask which it gives without its capital [X]s: these are
    open places of masks, and nothing to regexes. *)
Theorem C127_same_text :
  forall t, ~ In 42%N t ->
    regex_parse t = mask_to_regex (mask_parse (filter (fun c => negb (c =? 88)%N) t)) /\
    (~ In 88%N t -> regex_parse t = mask_to_regex (mask_parse t)).
Proof. exact pf_C127_same_text. Qed.
Print Assumptions C127_same_text.

(** C127: hence a text without [*] and [X] matches the same rows, read either way. *)
Theorem C127_same_rows :
  forall t r, ~ In 42%N t -> ~ In 88%N t -> valid_row r -> mask_parse t <> [] ->
    exists es v, regex_parse t = Ret es /\ regex_matches es r = Ret v /\ mask_matches (mask_parse t) r = Ret v.
Proof. exact pf_C127_same_rows. Qed.
Print Assumptions C127_same_rows.

(** C127: a mask and its regex are displayed alike, and the text of the mask (of bells with a name of one char) is read back as
    its regex. *)
Theorem C127_displayed :
  forall m, exists es, mask_to_regex m = Ret es /\ regex_display es = mask_display m /\ length es = length m /\
    ((forall p b, specifies m p b -> b < 33) -> regex_parse (mask_display m) = Ret es).
Proof. exact pf_C127_displayed. Qed.
Print Assumptions C127_displayed.

(** C127: a text which is read as a row and has none of the chars [x], [X], [.] and [*] gives, read as a mask, the mask of
    that row alone, and read as a regex, a regex which only that row matches. *)
Theorem C127_texts_of_rows :
  forall t r, row_parse t = Ok r -> ~ In 120%N t -> ~ In 88%N t -> ~ In 46%N t -> ~ In 42%N t ->
    mask_parse t = mask_full_row r /\
    exists es, regex_parse t = Ret es /\ forall r', valid_row r' -> exists v, regex_matches es r' = Ret v /\ (v = true <-> r' = r).
Proof. exact pf_C127_texts_of_rows. Qed.
Print Assumptions C127_texts_of_rows.

(** With a capital [X], the mask has three places and the regex two. *)
Example C127_example :
  mask_parse (s2l "1xX") = [Some 0; None; None] /\ regex_parse (s2l "1xX") = Ret [RBell 0; RAny] /\
  mask_matches (mask_parse (s2l "1xX")) [0; 2; 1] = Ret true /\ regex_matches [RBell 0; RAny] [0; 2; 1] = Ret false /\
  mask_parse (s2l "1x.") = [Some 0; None; None] /\ regex_parse (s2l "1x.") = Ret [RBell 0; RAny; RAny] /\
  mask_matches (mask_parse (s2l "1x.")) [0; 2; 1] = Ret true /\ regex_matches [RBell 0; RAny; RAny] [0; 2; 1] = Ret true /\
  row_parse (s2l "2 1,3") = Ok [1; 0; 2] /\ mask_parse (s2l "2 1,3") = [Some 1; Some 0; Some 2] /\
  mask_display [Some 0; None; None] = s2l "1xx" /\ regex_display [RBell 0; RAny; RAny] = s2l "1xx".
Proof. splits; vm_compute; reflexivity. Qed.
