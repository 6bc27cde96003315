(** Property theorems C122: what the text of two patterns put together matches. *)

(* Generated from tools/props/Join.src; the proofs are in JoinThms.v. *)
From Verif Require Import Base Bell Stage Row Utils Music Spec SpecMask ListFacts BellFacts RowFacts MulFacts SsvFacts MusicFacts
  RegexLawFacts.
From Verif Require Import MusicThms LawsRegexThms.
Local Open Scope list_scope.
From Verif Require Import JoinThms.

(** C122: the texts of two patterns, one after the other, match a row exactly when the row can be cut so that the first
    part is as the first pattern says and the rest as the second says. *)
Theorem C122_joined_texts :
  forall t u et eu r, valid_row r -> regex_text t et -> regex_text u eu ->
    exists es v, regex_parse (t ++ u) = Ret es /\ regex_matches es r = Ret v /\
      (v = true <-> exists k, k <= length r /\ described et (firstn k r) /\ described eu (skipn k r)).
Proof. exact pf_C122_joined_texts. Qed.
Print Assumptions C122_joined_texts.

(** C122: with a star on either side of it, a pattern matches exactly the rows which have a stretch as it says. *)
Theorem C122_anywhere :
  forall t et r, valid_row r -> regex_text t et ->
    exists es v, regex_parse (s2l "*" ++ t ++ s2l "*") = Ret es /\ regex_matches es r = Ret v /\
      (v = true <-> exists i n, i + n <= length r /\ described et (firstn n (skipn i r))).
Proof. exact pf_C122_anywhere. Qed.
Print Assumptions C122_anywhere.

(** C122: patterns which parse to the same regex can stand for each other inside a longer text. *)
Theorem C122_texts_of_the_same_regex :
  forall t t' u u', regex_parse t = regex_parse t' -> regex_parse u = regex_parse u' -> regex_parse (t ++ u) = regex_parse (t' ++ u').
Proof. exact pf_C122_texts_of_the_same_regex. Qed.
Print Assumptions C122_texts_of_the_same_regex.

Example C122_example :
  regex_text (s2l "56") [RBell 4; RBell 5] /\ valid_row [1; 4; 5; 0; 2; 3] /\
  (exists es, regex_parse (s2l "*" ++ s2l "56" ++ s2l "*") = Ret es /\ regex_matches es [1; 4; 5; 0; 2; 3] = Ret true /\
     regex_matches es [1; 4; 0; 5; 2; 3] = Ret false) /\
  regex_parse (s2l "*x") = regex_parse (s2l ".*") /\ regex_parse (s2l "*x" ++ s2l "*1") = regex_parse (s2l ".*" ++ s2l "*1").
Proof.
  splits; try (vm_compute; reflexivity).
  - apply rt_elem; [apply ce_bell; reflexivity|]. apply rt_elem; [apply ce_bell; reflexivity|apply rt_nil].
  - apply (proj1 (from_vec_ok [1; 4; 5; 0; 2; 3] [1; 4; 5; 0; 2; 3])). vm_compute. reflexivity.
  - eexists. splits; vm_compute; reflexivity.
Qed.
