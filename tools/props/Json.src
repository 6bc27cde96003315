(** Property C90: the texts which are read are those of the grammar of JSON. *)
(*IMPORTS*)
From Verif Require Import Base Spec ListFacts Bell Stage Class Method Library Serde Json JsonFacts Utf8 Cache SpecLib
  SpecJson SpecCache GrammarFacts FormFacts CacheFacts LibFacts LibThms.
Local Open Scope string_scope.
Local Open Scope list_scope.
(*BODY*)
(** C90: a text is read as a value exactly when the grammar says that it stands for the value; all other
    texts are refused, and reading always ends. *)
Theorem C90_reader_follows_grammar :
  forall text,
    (forall j, json_read text = Ret (Some j) <-> json_document j text) /\
    ((forall j, ~ json_document j text) <-> json_read text = Ret None).
Proof.
  intros text. split; [intros j; apply json_read_document|].
  destruct (json_read_total text) as [[j|] R]; split; auto.
  - intros H. exfalso. apply (H j). apply json_read_document; auto.
  - rewrite R. discriminate.
  - intros _ j D. apply json_read_document in D. congruence.
Qed.

(** C90: no text stands for two values. *)
Theorem C90_one_value :
  forall text j j', json_document j text -> json_document j' text -> j = j'.
Proof. intros text j j' H H'. apply json_read_document in H, H'. congruence. Qed.

(** C90: what is written is a text of the grammar and stands for what was written. *)
Theorem C90_writer_follows_grammar :
  forall j, plain j = true -> json_document j (json_write j).
Proof. intros j P. apply json_read_document. apply json_read_write; auto. Qed.

(** C90: the text of a library has the fields of its compact form, so that every reader of JSON which
    knows the fields finds the methods in it. *)
Theorem C90_text_of_library :
  forall to_lowercase lib_order stage_order group_order lib,
    (forall l, Permutation l (lib_order l)) -> (forall l, Permutation l (stage_order l)) ->
    (forall l, Permutation l (group_order l)) ->
    keys_differ lib -> proper to_lowercase lib ->
    exists text compact, to_json lib_order stage_order group_order lib = Ret text /\
      text_form text compact /\ (forall g, In g compact -> ~ bad_group g) /\
      (forall s k cm, entry lib s k cm -> exists gc, In gc (methods_of compact) /\ stands_for to_lowercase gc s k cm) /\
      (forall gc, In gc (methods_of compact) -> exists s k cm, entry lib s k cm /\ stands_for to_lowercase gc s k cm).
Proof.
  intros lower lo so go lib P1 P2 P3 D Pr.
  destruct (to_serde_ok lo so P1 P2 go P3 lib) as (ser & E & He & Hc & Hs).
  { intros s k cm H. apply (Pr s k cm H). }
  assert (Hk : forall s k cm, entry lib s k cm -> k = lower (cm_title cm)) by (intros s k cm H; apply (Pr s k cm H)).
  specialize (He lower Hk).
  destruct (pf_C65_json_round_trip lower lo so go lib P1 P2 P3 D Pr) as (compact & E2 & J). rewrite E in E2. injection E2 as <-.
  exists (json_write (lib_to_json ser)), ser. split; [unfold to_json; rewrite E; reflexivity|].
  split; [exists (lib_to_json ser); split; [apply json_read_document, json_read_write, lib_to_json_plain|apply lib_iff; auto]|].
  assert (NB : forall g, In g ser -> ~ bad_group g).
  { intros g Hg B. destruct (Hs g Hg) as (k & cm & He0). destruct (Pr _ _ _ He0) as [_ (n & En)].
    destruct B as [B|[B|(cs & _ & _ & B)]].
    - rewrite B in En. discriminate.
    - specialize (Hc g Hg). lia.
    - congruence. }
  split; auto. split.
  - intros s k cm H. apply He in H as (gc & Hin & U). exists gc. split; auto. apply unpacked_stands; auto.
  - intros gc Hin. destruct (from_serde_gen lower ser [] keys_differ_nil) as [[(g & Hg & B) _]|(lib' & _ & _ & _ & F & _)].
    + destruct (NB g Hg B).
    + rewrite Forall_forall in F. destruct (F gc Hin) as (k & cm & U). exists (g_stage (fst gc)), k, cm. split.
      * apply He. eauto.
      * apply unpacked_stands; auto.
Qed.

Example C90_example :
  json_document (JObj [(s2l "a", JArr [JNum 10; JOther; JStr [128276; 9]%N]); ([233]%N, JNull)])
    (s2l " { ""a"" : [10 , -0.5e+1,""\uD83D\uDD14\t"" ] ," ++ [9; 34; 233; 34]%N ++ s2l ":null}" ++ [10]%N) /\
  (forall j, ~ json_document j (s2l "[01]")) /\ (forall j, ~ json_document j (s2l "[1,]")) /\
  (forall j, ~ json_document j (s2l "{a:1}")) /\ (forall j, ~ json_document j []) /\
  json_document JOther (s2l "{""\udd14"":1}").
Proof.
  assert (X : forall t, json_read t = Ret None -> forall j, ~ json_document j t)
    by (intros t H; apply (pf_C90_reader_follows_grammar t); auto).
  splits; try (apply X; vm_compute; reflexivity); apply pf_C90_reader_follows_grammar; vm_compute; reflexivity.
Qed.
