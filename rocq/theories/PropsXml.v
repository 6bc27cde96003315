(** Property C95: reading the Central Council's XML format. *)

(* Generated from tools/props/Xml.src; the proofs are in XmlThms.v. *)
From Verif Require Import Base Spec ListFacts Bell Stage Row Utils SameStageVec Block PlaceNot Class Method
  Library Serde SpecLib LibFacts Json JsonFacts SpecJson CacheFacts LibThms CcXml SpecXml XmlFacts.
Local Open Scope list_scope.
From Verif Require Import XmlThms.

(** C95: a document gives the library with exactly the methods it lists, each under its stage and its
    title; of methods with the same stage and title the last one.  Reading panics exactly when the
    text is not XML, or the document does not say all that is needed (a date; for each set of methods
    a stage which is a positive number and a known class; for each method a title, a name and a
    notation).  A document says one thing only. *)
Theorem C95_reading_a_document :
  forall parse_xml xml,
    (parse_xml xml = None -> parse_cc_lib parse_xml xml = Panic) /\
    forall root, parse_xml xml = Some root ->
      ((forall sets, ~ says root sets) -> parse_cc_lib parse_xml xml = Panic) /\
      (forall sets sets', says root sets -> says root sets' -> sets = sets') /\
      forall sets, says root sets ->
        exists lib, parse_cc_lib parse_xml xml = Ret lib /\ keys_differ lib /\
          forall s k cm, entry lib s k cm <-> k = cm_title cm /\ lists_last sets s cm.
Proof. exact pf_C95_reading_a_document. Qed.
Print Assumptions C95_reading_a_document.

(** C95: the methods which were read cannot be found by their titles, because the library stores them
    under titles which are not in lower case.  If no title is the same in lower case, no search finds
    anything. *)
Theorem C95_methods_are_found_refuted :
  forall parse_xml to_lowercase xml root sets lib,
    (forall t, to_lowercase (to_lowercase t) = to_lowercase t) ->
    parse_xml xml = Some root -> says root sets -> parse_cc_lib parse_xml xml = Ret lib ->
    (forall s cm, In (s, cm) (listed sets) -> to_lowercase (cm_title cm) <> cm_title cm) ->
    forall title, get_by_title to_lowercase lib title = Ret (Err (NotFound tt)).
Proof. exact pf_C95_methods_are_found_refuted. Qed.
Print Assumptions C95_methods_are_found_refuted.

(** C95, what holds (missing: searches before the library is written and read back).  The library
    which was read can be written to JSON (it panics exactly when a method is on a stage without a
    name) and read back; then the methods are stored under their titles in lower case, and each one
    is found under its title, if its title ends in the name of its stage and differs from the other
    titles of the stage also in lower case.  Nothing is found which was not listed. *)
Theorem C95_methods_are_found_partial :
  forall parse_xml to_lowercase lib_order stage_order group_order xml root sets lib,
    (forall l, Permutation l (lib_order l)) -> (forall l, Permutation l (stage_order l)) ->
    (forall l, Permutation l (group_order l)) ->
    parse_xml xml = Some root -> says root sets -> parse_cc_lib parse_xml xml = Ret lib ->
    ((exists s cm, In (s, cm) (listed sets) /\ stage_name s = None) ->
       to_json lib_order stage_order group_order lib = Panic) /\
    ((forall s cm, In (s, cm) (listed sets) -> stage_name s <> None) ->
       exists text lib', to_json lib_order stage_order group_order lib = Ret text /\
         from_json to_lowercase text = Ret (Some lib') /\ keys_differ lib' /\
         (forall s k cm, entry lib' s k cm -> k = to_lowercase (cm_title cm) /\ lists_last sets s cm) /\
         forall s cm w, lists_last sets s cm ->
           (forall cm', In (s, cm') (listed sets) -> to_lowercase (cm_title cm') = to_lowercase (cm_title cm) ->
              cm_title cm' = cm_title cm) ->
           last_word (to_lowercase (cm_title cm)) w -> stage_from_lower_case_name w = Some s ->
           found to_lowercase lib' (cm_title cm) s cm).
Proof. exact pf_C95_methods_are_found_partial. Qed.
Print Assumptions C95_methods_are_found_partial.

(** A document with two sets of methods.  In the first, an element of another namespace comes before
    the stage; the second has two methods with the same title. *)
Definition el (name : list N) (nodes : list (element + str)) : element := Element name council [] nodes.
Definition leaf (name text : list N) : element := el name [inr text].
Definition method_el (title name notation : list N) : element + str :=
  inl (el (s2l "method") [inr (s2l " "); inl (leaf (s2l "name") name); inl (leaf (s2l "title") title);
                          inl (leaf (s2l "notation") notation)]).
Definition document : element :=
  Element (s2l "collection") council [(s2l "date", s2l "2021-03-09")]
    [inr (s2l " ");
     inl (el (s2l "methodSet")
       [inl (el (s2l "properties")
          [inl (Element (s2l "stage") (s2l "elsewhere") [] [inr (s2l "8")]);
           inl (leaf (s2l "classification") (s2l "Bob")); inl (leaf (s2l "stage") (s2l "6"))]);
        method_el (s2l "Plain Bob Minor") (s2l "Plain") (s2l "-16-16-16,12")]);
     inl (leaf (s2l "notes") (s2l "none"));
     inl (el (s2l "methodSet")
       [inl (el (s2l "properties")
          [inl (leaf (s2l "stage") (s2l "5"));
           inl (Element (s2l "classification") council [(s2l "differential", s2l "yes"); (s2l "little", s2l "true")]
                  [inr (s2l "Treble "); inr (s2l "Place")])]);
        method_el (s2l "Twice Little Treble Place Doubles") (s2l "Twice") (s2l "5.1");
        method_el (s2l "Twice Little Treble Place Doubles") (s2l "Twice") (s2l "3.1")])].
Definition plain_minor : compact_method :=
  CompactMethod (s2l "Plain") (s2l "Plain Bob Minor") (FullClass false false false Bob) (s2l "-16-16-16,12").
Definition twice (notation : list N) : compact_method :=
  CompactMethod (s2l "Twice") (s2l "Twice Little Treble Place Doubles") (FullClass false true false TreblePlace) notation.
Definition document_says : list (nat * list compact_method) :=
  [(6, [plain_minor]); (5, [twice (s2l "5.1"); twice (s2l "3.1")])].
Example C95_example :
  let lower := map ascii_lower in
  says document document_says /\
  (exists lib, parse_cc_lib (fun _ => Some document) [] = Ret lib /\
     lib = [(6, [(s2l "Plain Bob Minor", plain_minor)]);
            (5, [(s2l "Twice Little Treble Place Doubles", twice (s2l "3.1"))])] /\
     get_by_title lower lib (s2l "Plain Bob Minor") = Ret (Err (NotFound tt)) /\
     exists text lib' m, to_json (fun l => l) (fun l => l) (fun l => l) lib = Ret text /\
       from_json lower text = Ret (Some lib') /\ get_by_title lower lib' (s2l "Plain Bob Minor") = Ret (Ok m)) /\
  (forall s cm, In (s, cm) (listed document_says) -> lower (cm_title cm) <> cm_title cm) /\
  (forall s cm, In (s, cm) (listed document_says) -> stage_name s <> None) /\
  lists_last document_says 6 plain_minor.
Proof.
  cbv zeta. splits.
  - split; [exists (s2l "2021-03-09"); apply attr_ok; reflexivity|].
    repeat (apply Forall2_cons || apply Forall2_nil).
    + eexists _, (FullClass false false false Bob). splits; [apply get_child_ok; reflexivity| |].
      * eexists _, _. splits; [apply get_child_ok; reflexivity|apply (parse_usize_ok _ 6%N); reflexivity|cbn; lia|
          apply get_child_ok; reflexivity|apply class_of_word_iff; reflexivity|reflexivity|rewrite <- attr_true_ok; apply iff_refl|rewrite <- attr_true_ok; apply iff_refl].
      * repeat (apply Forall2_cons || apply Forall2_nil);
          (split; [reflexivity|]; splits; eexists; (split; [apply get_child_ok; reflexivity|reflexivity])).
    + eexists _, (FullClass false true false TreblePlace). splits; [apply get_child_ok; reflexivity| |].
      * eexists _, _. splits; [apply get_child_ok; reflexivity|apply (parse_usize_ok _ 5%N); reflexivity|cbn; lia|
          apply get_child_ok; reflexivity|apply class_of_word_iff; reflexivity|reflexivity|rewrite <- attr_true_ok; apply iff_refl|rewrite <- attr_true_ok; apply iff_refl].
      * repeat (apply Forall2_cons || apply Forall2_nil);
          (split; [reflexivity|]; splits; eexists; (split; [apply get_child_ok; reflexivity|reflexivity])).
  - eexists. splits; [vm_compute; reflexivity|reflexivity|vm_compute; reflexivity|].
    do 3 eexists. split; [vm_compute; reflexivity|]. split; vm_compute; reflexivity.
  - intros s cm [[= <- <-]|[[= <- <-]|[[= <- <-]|[]]]]; vm_compute; discriminate.
  - intros s cm [[= <- <-]|[[= <- <-]|[[= <- <-]|[]]]]; vm_compute; discriminate.
  - exists [], [(5, twice (s2l "5.1")); (5, twice (s2l "3.1"))]. split; [reflexivity|]. intros cm' [[=]|[[=]|[]]].
Qed.

(** Documents which are refused: a stage of 0 bells, an unknown class, a method without a notation. *)
Example C95_refused :
  let doc stage cls m := Element (s2l "collection") council [(s2l "date", s2l "")]
    [inl (el (s2l "methodSet") [inl (el (s2l "properties")
       [inl (leaf (s2l "stage") stage); inl (leaf (s2l "classification") cls)]); m])] in
  let ok := method_el (s2l "A") (s2l "B") (s2l "-") in
  let no_notation := inl (el (s2l "method") [inl (leaf (s2l "title") (s2l "A")); inl (leaf (s2l "name") (s2l "B"))]) in
  let parse d := parse_cc_lib (fun _ => Some d) [] in
  (exists lib, parse (doc (s2l "+06") (s2l "") ok) = Ret lib) /\
  parse (doc (s2l "0") (s2l "") ok) = Panic /\ parse (doc (s2l "-6") (s2l "") ok) = Panic /\
  parse (doc (s2l "6") (s2l "bob") ok) = Panic /\ parse (doc (s2l "6") (s2l "Bob") no_notation) = Panic.
Proof. cbv zeta. splits; try (vm_compute; reflexivity). eexists. vm_compute. reflexivity. Qed.
