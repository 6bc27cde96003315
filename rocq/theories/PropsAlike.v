(** Property theorems C110: characters without a meaning do not matter. *)

(* Generated from tools/props/Alike.src; the proofs are in AlikeThms.v. *)
From Verif Require Import Base Spec ListFacts Bell BellFacts Stage Row RowFacts Utils SameStageVec Block PlaceNot SpecPn PnFacts Mask Music Class Method
  SpecAlike AlikeFacts PnThms.
Local Open Scope string_scope.
Local Open Scope list_scope.
From Verif Require Import AlikeThms.

(** C110: a character which is not the name of a bell can be put anywhere into the text of a row. *)
Theorem C110_rows :
  forall a c b, ~ is_bell_name_char c ->
    row_parse (a ++ c :: b) = row_parse (a ++ b) /\
    (forall s, row_parse_with_stage (a ++ c :: b) s = row_parse_with_stage (a ++ b) s).
Proof. exact pf_C110_rows. Qed.
Print Assumptions C110_rows.

(** C110: such a character, if it is no line feed, can be put anywhere into a text of rows, where there is a line: not
    into an empty text or after the last line feed. *)
Theorem C110_texts_of_rows :
  forall a c b, ~ is_bell_name_char c -> [c] <> [10%N] -> (b <> [] \/ exists a' d, a = a' ++ [d] /\ d <> 10%N) ->
    ssv_parse (a ++ c :: b) = ssv_parse (a ++ b) /\
    (forall A (default : A), block_parse default (a ++ c :: b) = block_parse default (a ++ b)).
Proof. exact pf_C110_texts_of_rows. Qed.
Print Assumptions C110_texts_of_rows.

(** C110: a character which is neither the name of a bell nor a wildcard can be put anywhere into the text of a mask, and
    the wildcards can be exchanged for each other. *)
Theorem C110_masks :
  (forall a c b, ~ is_bell_name_char c -> ~ mask_wildcard c -> mask_parse (a ++ c :: b) = mask_parse (a ++ b)) /\
  (forall a c c' b, mask_wildcard c -> mask_wildcard c' -> mask_parse (a ++ c :: b) = mask_parse (a ++ c' :: b)).
Proof. exact pf_C110_masks. Qed.
Print Assumptions C110_masks.

(** C110: the same for regexes, in which a star has a meaning too. *)
Theorem C110_regexes :
  (forall a c b, ~ is_bell_name_char c -> ~ regex_wildcard c -> [c] <> s2l "*" -> regex_parse (a ++ c :: b) = regex_parse (a ++ b)) /\
  (forall a c c' b, regex_wildcard c -> regex_wildcard c' -> regex_parse (a ++ c :: b) = regex_parse (a ++ c' :: b)).
Proof. exact pf_C110_regexes. Qed.
Print Assumptions C110_regexes.

(** C110: a character which is not the name of a bell can be put anywhere into the text of one change, unless the text with
    it or without it stands for a cross; the three texts for a cross are the same. *)
Theorem C110_changes :
  (forall a c b s, ~ is_bell_name_char c -> ~ cross_text (a ++ c :: b) -> ~ cross_text (a ++ b) ->
     pn_parse (a ++ c :: b) s = pn_parse (a ++ b) s) /\
  (forall t t' s, cross_text t -> cross_text t' -> pn_parse t s = pn_parse t' s).
Proof. exact pf_C110_changes. Qed.
Print Assumptions C110_changes.

(** C110: texts of place notation which are alike stand for the same changes, or are refused for the same reason; only the
    positions in the error can differ. *)
Theorem C110_place_notation :
  forall t t' s, alike t t' -> 0 < s ->
    exists r r', pn_block_parse t s = Ret r /\ pn_block_parse t' s = Ret r' /\ same_but_for_position r r'.
Proof. exact pf_C110_place_notation. Qed.
Print Assumptions C110_place_notation.

(** C110: and they give the same methods. *)
Theorem C110_methods :
  forall hash_order name t t' s, alike t t' -> 0 < s ->
    forall m, from_place_not_string hash_order name s t = Ret (Ok m) <-> from_place_not_string hash_order name s t' = Ret (Ok m).
Proof. exact pf_C110_methods. Qed.
Print Assumptions C110_methods.

(** Plain Bob Minor written in four ways; a delimiter which cannot be left out, and one which makes another error the
    first one. *)
Example C110_example :
  alike (s2l "-16-16-16,12") (s2l " x 16 X.16 - /16. , .12;") /\
  pn_block_parse (s2l " x 16 X.16 - /16. , .12;") 6 = pn_block_parse (s2l "-16-16-16,12") 6 /\
  pn_block_parse (s2l "1 6") 6 <> pn_block_parse (s2l "16") 6 /\
  pn_block_parse (s2l "19+") 6 = Ret (Err (PlusNotAtBlockStart 2)) /\
  pn_block_parse (s2l "19 +") 6 = Ret (Err (PnError 0 3 (PlaceOutOfStage 8 6))) /\
  pn_block_parse (s2l "16/9") 6 = Ret (Err (PnError 0 5 (PlaceOutOfStage 8 6))) /\
  pn_block_parse (s2l "169") 6 = Ret (Err (PnError 0 4 (PlaceOutOfStage 8 6))).
Proof.
  split; [|splits; try (vm_compute; reflexivity); vm_compute; discriminate].
  assert (D1 : is_delimiter_char 32%N) by (left; reflexivity). assert (D2 : is_delimiter_char 46%N) by (right; reflexivity).
  assert (C1 : is_cross_char 120%N) by (left; reflexivity). assert (C2 : is_cross_char 88%N) by (right; left; reflexivity).
  assert (C3 : is_cross_char 45%N) by (right; right; reflexivity).
  assert (I : forall c, bell_from_name c = None -> (c <> 120 -> c <> 88 -> c <> 45 -> c <> 32 -> c <> 46 -> c <> 43)%N -> 
    (c <> 120)%N -> (c <> 88)%N -> (c <> 45)%N -> (c <> 32)%N -> (c <> 46)%N -> is_ignored_char c).
  { intros c B H H1 H2 H3 H4 H5. specialize (H H1 H2 H3 H4 H5). repeat split; [intros X; apply X; exact B| | |];
      [intros [X|[X|X]]|intros [X|X]|intros X]; injection X as X; congruence. }
  apply alike_sym.
  eapply alike_trans; [apply (alike_after [] 32 (s2l "x 16 X.16 - /16. , .12;")); auto|]. cbn [app].
  eapply alike_trans; [apply (alike_cross [] 120 45 (s2l " 16 X.16 - /16. , .12;")); auto|]. cbn [app].
  eapply alike_trans; [apply (alike_after (s2l "-") 32 (s2l "16 X.16 - /16. , .12;")); auto; right; exists [], 45%N; auto|].
  eapply alike_trans; [apply (alike_before (s2l "-16") 32 (s2l "X.16 - /16. , .12;")); auto; right; do 2 eexists; split; [reflexivity|]; auto|].
  eapply alike_trans; [apply (alike_cross (s2l "-16") 88 45 (s2l ".16 - /16. , .12;")); auto|].
  eapply alike_trans; [apply (alike_after (s2l "-16-") 46 (s2l "16 - /16. , .12;")); auto; right; exists (s2l "-16"), 45%N; auto|].
  eapply alike_trans; [apply (alike_before (s2l "-16-16") 32 (s2l "- /16. , .12;")); auto; right; do 2 eexists; split; [reflexivity|]; auto|].
  eapply alike_trans; [apply (alike_after (s2l "-16-16-") 32 (s2l "/16. , .12;")); auto; right; exists (s2l "-16-16"), 45%N; auto|].
  eapply alike_trans; [apply (alike_ignored (s2l "-16-16-") 47 (s2l "16. , .12;")); [apply I; (reflexivity || discriminate)|discriminate]|].
  eapply alike_trans; [apply (alike_before (s2l "-16-16-16") 46 (s2l " , .12;")); auto; right; do 2 eexists; split; [reflexivity|]; auto|].
  eapply alike_trans; [apply (alike_before (s2l "-16-16-16") 32 (s2l ", .12;")); auto; right; do 2 eexists; split; [reflexivity|]; auto|].
  eapply alike_trans; [apply (alike_after (s2l "-16-16-16,") 32 (s2l ".12;")); auto; right; exists (s2l "-16-16-16"), comma; auto|].
  eapply alike_trans; [apply (alike_after (s2l "-16-16-16,") 46 (s2l "12;")); auto; right; exists (s2l "-16-16-16"), comma; auto 6|].
  apply (alike_ignored (s2l "-16-16-16,12") 59 []); [apply I; (reflexivity || discriminate)|discriminate].
Qed.
