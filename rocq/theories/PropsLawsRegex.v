(** Property theorem C98: equality of regexes decides whether two patterns mean the same. *)

(* Generated from tools/props/LawsRegex.src; the proofs are in LawsRegexThms.v. *)
From Verif Require Import Base Bell Stage Row Utils Music Spec SpecMask ListFacts BellFacts RowFacts MulFacts SsvFacts MusicFacts
  RegexLawFacts.
From Verif Require Import MusicThms.
Local Open Scope list_scope.
From Verif Require Import LawsRegexThms.

(** C98: two patterns give the same regex exactly when they describe the same lists of bells. *)
Theorem C98_equal_regexes :
  forall es fs, regex_from_vec es = regex_from_vec fs <-> (forall l, described es l <-> described fs l).
Proof. exact pf_C98_equal_regexes. Qed.
Print Assumptions C98_equal_regexes.

(** C98: the same for two texts. *)
Theorem C98_equal_texts :
  forall s t es fs, regex_text s es -> regex_text t fs ->
    (regex_parse s = regex_parse t <-> (forall l, described es l <-> described fs l)).
Proof. exact pf_C98_equal_texts. Qed.
Print Assumptions C98_equal_texts.

(** C98: no pattern which describes the same lists is shorter than the regex, and the only one in normal
    form is the regex itself. *)
Theorem C98_least_pattern :
  forall es es' fs, regex_from_vec es = Ret es' -> (forall l, described fs l <-> described es l) ->
    length es' <= length fs /\ (normal_form fs -> fs = es').
Proof. exact pf_C98_least_pattern. Qed.
Print Assumptions C98_least_pattern.

(** C98: rows alone do not tell regexes apart, since every row contains every bell once: [*] and [*1*]
    match the same rows of every stage. *)
Theorem C98_rows_do_not_tell_regexes_apart :
  exists es fs, regex_parse (s2l "*") = Ret es /\ regex_parse (s2l "*1*") = Ret fs /\ es <> fs /\
    forall r, valid_row r -> regex_matches es r = Ret true /\ regex_matches fs r = Ret true.
Proof. exact pf_C98_rows_do_not_tell_regexes_apart. Qed.
Print Assumptions C98_rows_do_not_tell_regexes_apart.

Example C98_witness :
  regex_parse (s2l "*x1**4.*") = regex_parse (s2l ".*1*4x**") /\ regex_parse (s2l "*x1*4.*") <> regex_parse (s2l "x1*4.*") /\
  exists l, described [RAny; RGlob; RBell 0] l /\ ~ described [RAny; RBell 0] l.
Proof.
  split; [vm_compute; reflexivity|]. split; [vm_compute; discriminate|].
  exists [1; 2; 0]. split; [constructor; apply (described_glob [2]); repeat constructor|].
  intros H. inversion H; subst. match goal with K : described [RBell 0] _ |- _ => inversion K end.
Qed.
