(** Property C90: the texts which are read are those of the grammar of JSON. *)

(* Generated from tools/props/Json.src; the proofs are in JsonThms.v. *)
From Verif Require Import Base Spec ListFacts Bell Stage Class Method Library Serde Json JsonFacts Utf8 Cache SpecLib
  SpecJson SpecCache GrammarFacts FormFacts CacheFacts LibFacts LibThms.
Local Open Scope string_scope.
Local Open Scope list_scope.
From Verif Require Import JsonThms.

(** C90: a text is read as a value exactly when the grammar says that it stands for the value; all other
    texts are refused, and reading always ends. *)
Theorem C90_reader_follows_grammar :
  forall text,
    (forall j, json_read text = Ret (Some j) <-> json_document j text) /\
    ((forall j, ~ json_document j text) <-> json_read text = Ret None).
Proof. exact pf_C90_reader_follows_grammar. Qed.
Print Assumptions C90_reader_follows_grammar.

(** C90: no text stands for two values. *)
Theorem C90_one_value :
  forall text j j', json_document j text -> json_document j' text -> j = j'.
Proof. exact pf_C90_one_value. Qed.
Print Assumptions C90_one_value.

(** C90: what is written is a text of the grammar and stands for what was written. *)
Theorem C90_writer_follows_grammar :
  forall j, plain j = true -> json_document j (json_write j).
Proof. exact pf_C90_writer_follows_grammar. Qed.
Print Assumptions C90_writer_follows_grammar.

(** C90: the text of a library has the fields of its compact form, so that every reader of JSON which
    knows the fields finds the methods in it. *)
Theorem C90_text_of_library :
  forall to_lowercase lib_order stage_order group_order lib,
    (forall l, Permutation l (lib_order l)) -> (forall l, Permutation l (stage_order l)) ->
    (forall l, Permutation l (group_order l)) ->
    keys_differ lib -> proper to_lowercase lib ->
    exists text compact, to_json lib_order stage_order group_order lib = Ret text /\
      text_form text compact /\ (forall g, In g compact -> ~ bad_group g) /\
      (forall s k cm, entry lib s k cm -> exists gc, In gc (methods_of compact) /\ stands_for to_lowercase gc s k cm) /\
      (forall gc, In gc (methods_of compact) -> exists s k cm, entry lib s k cm /\ stands_for to_lowercase gc s k cm).
Proof. exact pf_C90_text_of_library. Qed.
Print Assumptions C90_text_of_library.

Example C90_example :
  json_document (JObj [(s2l "a", JArr [JNum 10; JOther; JStr [128276; 9]%N]); ([233]%N, JNull)])
    (s2l " { ""a"" : [10 , -0.5e+1,""\uD83D\uDD14\t"" ] ," ++ [9; 34; 233; 34]%N ++ s2l ":null}" ++ [10]%N) /\
  (forall j, ~ json_document j (s2l "[01]")) /\ (forall j, ~ json_document j (s2l "[1,]")) /\
  (forall j, ~ json_document j (s2l "{a:1}")) /\ (forall j, ~ json_document j []) /\
  json_document JOther (s2l "{""\udd14"":1}").
Proof.
  assert (X : forall t, json_read t = Ret None -> forall j, ~ json_document j t)
    by (intros t H; apply (pf_C90_reader_follows_grammar t); auto).
  splits; try (apply X; vm_compute; reflexivity); apply pf_C90_reader_follows_grammar; vm_compute; reflexivity.
Qed.
