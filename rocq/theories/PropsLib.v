(** Properties C64, C65 and C66: method libraries and serialisation. *)

(* Generated from tools/props/Lib.src; the proofs are in LibThms.v. *)
From Verif Require Import Base Spec ListFacts Bell Stage Row RowFacts MulFacts Utils SameStageVec Block SpecBlock
  PlaceNot SpecPn PropsBell PropsPn Class Method Library Serde SpecLib LibFacts.
Local Open Scope list_scope.
From Verif Require Import LibThms.

(** C64: what a search by title returns.  There is at most one method it should find.  If its stored
    notation is correct the result is the stored title, name and class with the lead which the
    notation describes, rung from rounds and without labels; if it is not, the result is the parse
    error with the stored notation; if there is no such method, the result is [NotFound].  Nothing
    panics. *)
Theorem C64_get_by_title :
  forall to_lowercase lib title, keys_differ lib ->
    (forall s cm s' cm', found to_lowercase lib title s cm -> found to_lowercase lib title s' cm' ->
       s = s' /\ cm = cm') /\
    (forall s cm pns, found to_lowercase lib title s cm ->
       block_changes s (cm_place_notation cm) pns -> pns <> [] ->
       exists lead rs head, rung (seq 0 s) pns rs head /\
         block_holds lead s (map (fun r => (r, None)) (removelast (seq 0 s :: rs))) head /\
         get_by_title to_lowercase lib title =
           Ret (Ok (Method (cm_title cm) (cm_name cm) (cm_full_class cm) lead))) /\
    (forall s cm, found to_lowercase lib title s cm ->
       (forall pns, block_changes s (cm_place_notation cm) pns -> pns = []) ->
       exists e, pn_block_parse (cm_place_notation cm) s = Ret (Err e) /\
         get_by_title to_lowercase lib title = Ret (Err (PnParseErr (cm_place_notation cm) e))) /\
    ((forall s cm, ~ found to_lowercase lib title s cm) ->
       get_by_title to_lowercase lib title = Ret (Err (NotFound tt))).
Proof. exact pf_C64_get_by_title. Qed.
Print Assumptions C64_get_by_title.

(** C64: the case of the letters of the title does not matter. *)
Theorem C64_case_does_not_matter :
  forall to_lowercase lib t t', to_lowercase t = to_lowercase t' ->
    get_by_title to_lowercase lib t = get_by_title to_lowercase lib t'.
Proof. exact pf_C64_case_does_not_matter. Qed.
Print Assumptions C64_case_does_not_matter.

(** C64: the variant with suggestions returns the same method or the same parse error, and the
    suggestions in place of [NotFound].  (Lower-casing twice is assumed to be lower-casing once.) *)
Theorem C64_suggestions_variant_agrees :
  forall to_lowercase edit_distance shortlist lib_order stage_order lib title n,
    (forall t, to_lowercase (to_lowercase t) = to_lowercase t) -> keys_differ lib ->
    exists r, get_by_title to_lowercase lib title = Ret r /\
      get_by_title_with_suggestions to_lowercase edit_distance shortlist lib_order stage_order lib title n =
      Ret (match r with
           | Ok m => Ok m
           | Err (PnParseErr pn e) => Err (PnParseErr pn e)
           | Err (NotFound _) =>
               Err (NotFound (generate_suggestions edit_distance shortlist lib_order stage_order lib
                                (to_lowercase title) n))
           end).
Proof. exact pf_C64_suggestions_variant_agrees. Qed.
Print Assumptions C64_suggestions_variant_agrees.

(** C64: the suggestions are stored titles with the edit distance of their keys from the title asked
    for, the closest first; [n] of them (or all, if the library is smaller), and no method that is
    left out is closer than one that is suggested. *)
Theorem C64_suggestions_are_the_closest :
  forall edit_distance shortlist lib_order stage_order lib title n,
    (forall l, Permutation l (lib_order l)) -> (forall l, Permutation l (stage_order l)) ->
    (forall items, keeps_closest n items (shortlist n items)) ->
    let sugg := generate_suggestions edit_distance shortlist lib_order stage_order lib title n in
    let all := flat_map snd lib in
    length sugg = Nat.min n (length all) /\
    (forall i j x y, i < j -> nth_error sugg i = Some x -> nth_error sugg j = Some y -> snd x <= snd y) /\
    exists shown hidden, Permutation all (shown ++ hidden) /\
      map (fun e => (cm_title (snd e), edit_distance title (fst e))) shown = sugg /\
      forall e e', In e shown -> In e' hidden -> edit_distance title (fst e) <= edit_distance title (fst e').
Proof. exact pf_C64_suggestions_are_the_closest. Qed.
Print Assumptions C64_suggestions_are_the_closest.

(** C64: when a search fails, [unwrap_parse_err] of the error panics exactly when the method is stored with a place notation
    which cannot be parsed; otherwise the method is not stored, and it gives back what [NotFound] holds, also after
    [map_not_found]. *)
Theorem C64_unwrap_parse_err :
  forall to_lowercase lib title e, keys_differ lib -> get_by_title to_lowercase lib title = Ret (Err e) ->
    (unwrap_parse_err e = Panic <-> exists s cm, found to_lowercase lib title s cm) /\
    (unwrap_parse_err e = Panic ->
       forall s cm pns, found to_lowercase lib title s cm -> block_changes s (cm_place_notation cm) pns -> pns = []) /\
    (unwrap_parse_err e = Ret (Err tt) <-> forall s cm, ~ found to_lowercase lib title s cm) /\
    forall U (f : unit -> U),
      (unwrap_parse_err (map_not_found e f) = Ret (Err (f tt)) <-> forall s cm, ~ found to_lowercase lib title s cm).
Proof. exact pf_C64_unwrap_parse_err. Qed.
Print Assumptions C64_unwrap_parse_err.

Definition pb_minor : compact_method := CompactMethod (s2l "Plain") (s2l "Plain Bob Minor") (FullClass false false false Bob) (s2l "-16-16-16,12").
Definition dbl : compact_method := CompactMethod (s2l "Bad") (s2l "Bad Bob Doubles") (FullClass false false false Bob) (s2l "-16,12").
Definition grandsire : compact_method := CompactMethod (s2l "Grandsire") (s2l "Grandsire Doubles") (FullClass false false false Bob) (s2l "3,1.5.1.5.1").
Definition example_lib : method_lib :=
  [(6, [(s2l "plain bob minor", pb_minor)]); (5, [(s2l "bad bob doubles", dbl); (s2l "grandsire doubles", grandsire)])].
Example C64_example :
  let find := get_by_title (map ascii_lower) example_lib in
  keys_differ example_lib /\
  (exists lead, find (s2l "Plain BOB Minor") = Ret (Ok (Method (s2l "Plain Bob Minor") (s2l "Plain") (FullClass false false false Bob) lead)) /\
     block_leftover_row lead = Ret [0; 2; 4; 1; 5; 3]) /\
  find (s2l "Bad Bob Doubles") = Ret (Err (PnParseErr (s2l "-16,12") (PnError 0 1 (OddStageCross 5)))) /\
  find (s2l "Plain Bob Doubles") = Ret (Err (NotFound tt)) /\
  find (s2l "Plain") = Ret (Err (NotFound tt)).
Proof.
  cbv zeta. splits.
  - split; [cbn; repeat constructor; cbn; intuition discriminate|]. intros s ms [E|[E|[]]]; injection E as <- <-; cbn; repeat constructor; cbn; intuition discriminate.
  - eexists. split; vm_compute; reflexivity.
  - vm_compute. reflexivity.
  - vm_compute. reflexivity.
  - vm_compute. reflexivity.
Qed.

(** A shortlist as required exists: sort all items, and keep the last [n]. *)
Example C64_shortlist_example :
  keeps_closest 2 [(s2l "a", 5); (s2l "b", 1); (s2l "c", 3)] [(s2l "c", 3); (s2l "b", 1)].
Proof.
  split; [|split].
  - exists [(s2l "a", 5)]. split.
    + apply Permutation_sym. apply perm_trans with [(s2l "b", 1); (s2l "c", 3); (s2l "a", 5)]; [apply perm_swap|].
      apply (Permutation_cons_append [(s2l "b", 1); (s2l "c", 3)] (s2l "a", 5)) || apply Permutation_sym, (Permutation_cons_append [(s2l "b", 1); (s2l "c", 3)] (s2l "a", 5)).
    + intros x y [<-|[<-|[]]] [<-|[]]; cbn; lia.
  - reflexivity.
  - intros [|[|i]] [|[|j]] x y H E1 E2; try lia; cbn in E1, E2; try (destruct j; discriminate); try (destruct i; discriminate);
      injection E1 as <-; injection E2 as <-; cbn; lia.
Qed.

(** C65: the compact form stands for exactly the entries of the library, so unpacking it gives a
    library with exactly the same entries (and the same result for every search), in whatever order
    the hash maps are iterated over.  The library must store each method under its title in lower
    case, and its stages must have names. *)
Theorem C65_round_trip :
  forall to_lowercase lib_order stage_order group_order lib,
    (forall l, Permutation l (lib_order l)) -> (forall l, Permutation l (stage_order l)) ->
    (forall l, Permutation l (group_order l)) ->
    keys_differ lib -> proper to_lowercase lib ->
    exists compact lib', lib_to_serde lib_order stage_order group_order lib = Ret compact /\
      lib_from_serde to_lowercase compact = Ret lib' /\ keys_differ lib' /\
      (forall s k cm, entry lib' s k cm <-> entry lib s k cm) /\
      forall title, get_by_title to_lowercase lib' title = get_by_title to_lowercase lib title.
Proof. exact pf_C65_round_trip. Qed.
Print Assumptions C65_round_trip.

(** C65: the same with the JSON form in between. *)
Theorem C65_json_round_trip :
  forall to_lowercase lib_order stage_order group_order lib,
    (forall l, Permutation l (lib_order l)) -> (forall l, Permutation l (stage_order l)) ->
    (forall l, Permutation l (group_order l)) ->
    keys_differ lib -> proper to_lowercase lib ->
    exists compact, lib_to_serde lib_order stage_order group_order lib = Ret compact /\
      lib_from_json (lib_to_json compact) = Some compact.
Proof. exact pf_C65_json_round_trip. Qed.
Print Assumptions C65_json_round_trip.

(** C65: converting a library panics exactly when it holds a method on a stage which has no name. *)
Theorem C65_to_compact_panics :
  forall lib_order stage_order group_order lib,
    (forall l, Permutation l (lib_order l)) -> (forall l, Permutation l (stage_order l)) ->
    (forall l, Permutation l (group_order l)) ->
    ((exists s k cm, entry lib s k cm /\ stage_name s = None) ->
       lib_to_serde lib_order stage_order group_order lib = Panic) /\
    ((forall s k cm, entry lib s k cm -> stage_name s <> None) ->
       exists compact, lib_to_serde lib_order stage_order group_order lib = Ret compact).
Proof. exact pf_C65_to_compact_panics. Qed.
Print Assumptions C65_to_compact_panics.

(** C65: what unpacking any compact form gives: under each stage and key the last method which stands
    for it; it panics exactly when some group has no bells, an unknown class number, or a method
    without a title on a stage without a name.  So every library which was unpacked stores its
    methods under their titles in lower case. *)
Theorem C65_unpacking :
  forall to_lowercase compact,
    let bad g := g_stage g = 0 \/ 8 < g_class_id g \/
      exists cs, In cs (g_methods g) /\ cs_title cs = None /\ stage_name (g_stage g) = None in
    ((exists g, In g compact /\ bad g) -> lib_from_serde to_lowercase compact = Panic) /\
    ((forall g, In g compact -> ~ bad g) ->
       exists lib, lib_from_serde to_lowercase compact = Ret lib /\ keys_differ lib /\
         (forall s k cm, entry lib s k cm -> k = to_lowercase (cm_title cm)) /\
         forall s k cm, entry lib s k cm <->
           exists before gc after, methods_of compact = before ++ gc :: after /\
             stands_for to_lowercase gc s k cm /\
             forall gc' cm', In gc' after -> ~ stands_for to_lowercase gc' s k cm').
Proof. exact pf_C65_unpacking. Qed.
Print Assumptions C65_unpacking.

Example C65_example :
  exists compact lib', keys_differ example_lib /\ proper (map ascii_lower) example_lib /\
    lib_to_serde (fun l => l) (fun l => l) (@rev _) example_lib = Ret compact /\
    length compact = 2 /\
    lib_from_json (lib_to_json compact) = Some compact /\
    lib_from_serde (map ascii_lower) compact = Ret lib' /\
    map fst lib' = [5; 6] /\
    map cs_title (flat_map g_methods compact) = [None; Some (s2l "Grandsire Doubles"); None].
Proof.
  do 2 eexists. split; [apply C64_example|]. split.
  { intros s k cm (ms & [E|[E|[]]] & H); injection E as <- <-; cbn in H.
    - destruct H as [E|[]]; injection E as <- <-. split; [reflexivity|eexists; reflexivity].
    - destruct H as [E|[E|[]]]; injection E as <- <-; (split; [reflexivity|eexists; reflexivity]). }
  split; [vm_compute; reflexivity|]. split; [reflexivity|]. split; [reflexivity|]. split; [vm_compute; reflexivity|].
  split; reflexivity.
Qed.

(** The conditions are needed: a key which is not the title in lower case is lost, and a stage
    without a name makes the conversion panic. *)
Example C65_needs_proper :
  let lib := [(6, [(s2l "x", pb_minor)])] in
  (exists compact, lib_to_serde (fun l => l) (fun l => l) (fun l => l) lib = Ret compact /\
     lib_from_serde (map ascii_lower) compact = Ret [(6, [(s2l "plain bob minor", pb_minor)])]) /\
  lib_to_serde (fun l => l) (fun l => l) (fun l => l) [(23, [(s2l "x", pb_minor)])] = Panic.
Proof. cbv zeta. split; [eexists; split|]; vm_compute; reflexivity. Qed.

(** C66: a stage which is serialised and deserialised is unchanged. *)
Theorem C66_stage_round_trip :
  forall to_lowercase s, 0 < s -> stage_visit to_lowercase (stage_serialize s) = Ret (Ok s).
Proof. exact pf_C66_stage_round_trip. Qed.
Print Assumptions C66_stage_round_trip.

(** C66: deserialising a stage from the number 0 panics instead of reporting an error. *)
Theorem C66_stage_from_bad_input_is_an_error_refuted :
  forall to_lowercase v, number_of v = Some 0%Z -> stage_visit to_lowercase v = Panic.
Proof. exact pf_C66_stage_from_bad_input_is_an_error_refuted. Qed.
Print Assumptions C66_stage_from_bad_input_is_an_error_refuted.

(** C66, for all other values (missing: 0): deserialising a stage does not panic, and gives a stage
    exactly when the value is its number of bells or its name in any case; otherwise an error. *)
Theorem C66_stage_from_any_input_partial :
  forall to_lowercase v, number_of v <> Some 0%Z ->
    exists r, stage_visit to_lowercase v = Ret r /\ forall s, r = Ok s <-> gives_stage to_lowercase v s.
Proof. exact pf_C66_stage_from_any_input_partial. Qed.
Print Assumptions C66_stage_from_any_input_partial.

(** C66: a bell which is serialised and deserialised does not come back: the treble is refused, and
    every other bell becomes the one before it, because bells are written counting from 0 and read
    counting from 1. *)
Theorem C66_bell_round_trip_refuted :
  forall b, bell_visit (bell_serialize b) = Ret (match b with 0 => Err InvalidValue | S b' => Ok b' end) /\
    bell_visit (bell_serialize b) <> Ret (Ok b).
Proof. exact pf_C66_bell_round_trip_refuted. Qed.
Print Assumptions C66_bell_round_trip_refuted.

(** C66: deserialising a bell never panics; it gives a bell exactly when the value is its number,
    counted from 1, or its name; otherwise an error. *)
Theorem C66_bell_from_any_input :
  forall v, exists r, bell_visit v = Ret r /\ forall b, r = Ok b <-> gives_bell v b.
Proof. exact pf_C66_bell_from_any_input. Qed.
Print Assumptions C66_bell_from_any_input.

Example C66_examples :
  stage_visit (map ascii_lower) (VStr (s2l "MaJOR")) = Ret (Ok 8) /\
  stage_visit (map ascii_lower) (VI8 (-3)) = Ret (Err InvalidValue) /\
  stage_visit (map ascii_lower) VOther = Ret (Err InvalidType) /\
  bell_visit (VStr (s2l "E")) = Ret (Ok 10) /\ bell_visit (VI16 3) = Ret (Ok 2) /\
  bell_visit (VU64 0) = Ret (Err InvalidValue) /\ bell_visit (VStr (s2l "12")) = Ret (Err InvalidValue).
Proof. repeat split. Qed.
