(** Property theorem C98: equality of regexes decides whether two patterns mean the same. *)

(* Generated from tools/props/LawsRegex.src: the proofs behind PropsLawsRegex.v. *)
From Verif Require Import Base Bell Stage Row Utils Music Spec SpecMask ListFacts BellFacts RowFacts MulFacts SsvFacts MusicFacts
  RegexLawFacts.
From Verif Require Import MusicThms.
Local Open Scope list_scope.

Lemma pf_C98_equal_regexes :
  forall es fs, regex_from_vec es = regex_from_vec fs <-> (forall l, described es l <-> described fs l).
Proof.
  intros es fs. unfold regex_from_vec. rewrite !normalise_ok. split.
  - intros [= E] l. rewrite <- (norm_described es 0 false l : _ <-> described es l), E. apply (norm_described fs 0 false l).
  - intros H. f_equal. apply nf_unique; try apply nf_norm. intros l.
    rewrite (norm_described es 0 false l : _ <-> described es l), (norm_described fs 0 false l : _ <-> described fs l). apply H.
Qed.

Lemma pf_C98_equal_texts :
  forall s t es fs, regex_text s es -> regex_text t fs ->
    (regex_parse s = regex_parse t <-> (forall l, described es l <-> described fs l)).
Proof.
  intros s t es fs S T. unfold regex_parse. rewrite (proj1 (regex_text_ok s es) S), (proj1 (regex_text_ok t fs) T).
  apply pf_C98_equal_regexes.
Qed.

Lemma pf_C98_least_pattern :
  forall es es' fs, regex_from_vec es = Ret es' -> (forall l, described fs l <-> described es l) ->
    length es' <= length fs /\ (normal_form fs -> fs = es').
Proof.
  intros es es' fs E H. unfold regex_from_vec in E. rewrite normalise_ok in E. injection E as <-.
  assert (K : norm fs 0 false = norm es 0 false).
  { apply nf_unique; try apply nf_norm. intros l.
    rewrite (norm_described es 0 false l : _ <-> described es l), (norm_described fs 0 false l : _ <-> described fs l). apply H. }
  rewrite <- K. split.
  - rewrite !length_elems, norm_bells, norm_any. pose proof (norm_glob fs 0 false) as G. cbn in G. lia.
  - intros N. apply nf_spec in N. symmetry. exact (norm_id fs 0 N).
Qed.

Lemma pf_C98_rows_do_not_tell_regexes_apart :
  exists es fs, regex_parse (s2l "*") = Ret es /\ regex_parse (s2l "*1*") = Ret fs /\ es <> fs /\
    forall r, valid_row r -> regex_matches es r = Ret true /\ regex_matches fs r = Ret true.
Proof.
  exists [RGlob], [RGlob; RBell 0; RGlob]. split; [vm_compute; reflexivity|]. split; [vm_compute; reflexivity|]. split; [discriminate|].
  intros r V. pose proof (valid_row_pos r V) as P. destruct V as (_ & N & B). split.
  - destruct (regex_matches_ok [RGlob] r) as (v & E & H); [cbn; auto|auto|]. rewrite E. f_equal. apply H.
    rewrite <- (app_nil_r r). constructor. constructor.
  - destruct (regex_matches_ok [RGlob; RBell 0; RGlob] r) as (v & E & H); [cbn; auto|auto|]. rewrite E. f_equal. apply H.
    assert (I : In 0 r) by (apply B; lia). apply in_split in I as (l1 & l2 & ->). constructor. constructor.
    rewrite <- (app_nil_r l2). constructor. constructor.
Qed.
