(** Property theorems C109: what the random order of hash maps may change. *)

(* Generated from tools/props/Order.src; the proofs are in OrderThms.v. *)
From Verif Require Import Utf8 Cache SpecCache CacheThms.
From Verif Require Import Base Spec ListFacts Bell Stage Row RowFacts Utils SameStageVec Block PlaceNot Mask Class Method Library Serde Json
  Program Machine Release Unwind Unsafe SpecLib SpecOrder LibFacts LibThms GroupThms MulFacts OrderFacts.
Local Open Scope string_scope.
Local Open Scope list_scope.
From Verif Require Import OrderThms.

(** C109: every program gives the same values, and panics or not, whatever the order in which hash sets are iterated over:
    also on a machine with words, in every build, with caught panics, and with calls of the unsafe functions. *)
Theorem C109_programs :
  forall o1 o2, (forall l, collected_set l (o1 l)) -> (forall l, collected_set l (o2 l)) ->
    (forall prog, run o1 prog = run o2 prog) /\
    (forall bd prog, m_run bd o1 prog = m_run bd o2 prog) /\
    (forall bd limit prog, r_run bd limit o1 prog = r_run bd limit o2 prog) /\
    (forall prog, run_caught o1 prog = run_caught o2 prog) /\
    (forall prog, urun o1 prog = urun o2 prog).
Proof. exact pf_C109_programs. Qed.
Print Assumptions C109_programs.

(** C109: a group test of the same rows answers the same, or fails, in every order; [set1] and [set2] are the sets of the
    rows in two orders. *)
Theorem C109_group_tests :
  forall rows set1 set2, Forall valid_row rows -> collected_set rows set1 -> collected_set rows set2 ->
    (forall ok, is_group_set set1 = Ret (Ok ok) <-> is_group_set set2 = Ret (Ok ok)) /\
    ((exists e, is_group_set set1 = Ret (Err e)) <-> (exists e, is_group_set set2 = Ret (Err e))).
Proof. exact pf_C109_group_tests. Qed.
Print Assumptions C109_group_tests.

(** C109: the suggestions have the same distances in every order; those which are closer than another one are the same, up
    to the order of equally close ones; and all are the same when they are all the methods. *)
Theorem C109_suggestions :
  forall edit_distance shortlist1 shortlist2 lib_order1 stage_order1 lib_order2 stage_order2 lib title n,
    (forall l, Permutation l (lib_order1 l)) -> (forall l, Permutation l (stage_order1 l)) ->
    (forall l, Permutation l (lib_order2 l)) -> (forall l, Permutation l (stage_order2 l)) ->
    (forall items, keeps_closest n items (shortlist1 n items)) ->
    (forall items, keeps_closest n items (shortlist2 n items)) ->
    let s1 := generate_suggestions edit_distance shortlist1 lib_order1 stage_order1 lib title n in
    let s2 := generate_suggestions edit_distance shortlist2 lib_order2 stage_order2 lib title n in
    map snd s1 = map snd s2 /\
    (forall d x, In x s1 -> d < snd x ->
       Permutation (filter (fun y => Nat.eqb (snd y) d) s1) (filter (fun y => Nat.eqb (snd y) d) s2)) /\
    (length (flat_map snd lib) <= n -> Permutation s1 s2).
Proof. exact pf_C109_suggestions. Qed.
Print Assumptions C109_suggestions.

(** C109: what is written for a library has the same groups with the same methods in every order, and the texts have the
    same length; or writing panics in every order. *)
Theorem C109_written_libraries :
  forall lib_order1 stage_order1 group_order1 lib_order2 stage_order2 group_order2 lib,
    (forall l, Permutation l (lib_order1 l)) -> (forall l, Permutation l (stage_order1 l)) ->
    (forall l, Permutation l (group_order1 l)) ->
    (forall l, Permutation l (lib_order2 l)) -> (forall l, Permutation l (stage_order2 l)) ->
    (forall l, Permutation l (group_order2 l)) ->
    (to_json lib_order1 stage_order1 group_order1 lib = Panic /\ to_json lib_order2 stage_order2 group_order2 lib = Panic) \/
    exists c1 c2, same_but_for_order c1 c2 /\
      lib_to_serde lib_order1 stage_order1 group_order1 lib = Ret c1 /\
      lib_to_serde lib_order2 stage_order2 group_order2 lib = Ret c2 /\
      exists t1 t2, to_json lib_order1 stage_order1 group_order1 lib = Ret t1 /\
        to_json lib_order2 stage_order2 group_order2 lib = Ret t2 /\ length t1 = length t2.
Proof. exact pf_C109_written_libraries. Qed.
Print Assumptions C109_written_libraries.

(** C109: searches depend on the entries of a library alone, so a library which was written in one order and one which was
    written in another one are the same after they were read, and so are libraries with the same entries. *)
Theorem C109_searches :
  (forall to_lowercase lib1 lib2, keys_differ lib1 -> keys_differ lib2 ->
     (forall s k cm, entry lib1 s k cm <-> entry lib2 s k cm) ->
     forall title, get_by_title to_lowercase lib1 title = get_by_title to_lowercase lib2 title) /\
  (forall to_lowercase lib_order1 stage_order1 group_order1 lib_order2 stage_order2 group_order2 lib,
     (forall l, Permutation l (lib_order1 l)) -> (forall l, Permutation l (stage_order1 l)) ->
     (forall l, Permutation l (group_order1 l)) ->
     (forall l, Permutation l (lib_order2 l)) -> (forall l, Permutation l (stage_order2 l)) ->
     (forall l, Permutation l (group_order2 l)) ->
     keys_differ lib -> proper to_lowercase lib ->
     exists t1 t2 lib1 lib2,
       to_json lib_order1 stage_order1 group_order1 lib = Ret t1 /\ from_json to_lowercase t1 = Ret (Some lib1) /\
       to_json lib_order2 stage_order2 group_order2 lib = Ret t2 /\ from_json to_lowercase t2 = Ret (Some lib2) /\
       keys_differ lib1 /\ keys_differ lib2 /\ (forall s k cm, entry lib1 s k cm <-> entry lib2 s k cm)).
Proof. exact pf_C109_searches. Qed.
Print Assumptions C109_searches.

(** C109: the order does show in these places: the stages which a failed group test names, which of equally close methods
    are suggested, and the text which is written. *)
Theorem C109_where_the_order_shows :
  (exists rows set1 set2 e1 e2, Forall valid_row rows /\ collected_set rows set1 /\ collected_set rows set2 /\
     is_group_set set1 = Ret (Err e1) /\ is_group_set set2 = Ret (Err e2) /\ e1 <> e2) /\
  (exists lib order title, keys_differ lib /\ (forall l, Permutation l (order l)) /\
     generate_suggestions (fun a b => 1) (fun n l => rev (firstn n l)) (fun l => l) (fun l => l) lib title 1 <>
     generate_suggestions (fun a b => 1) (fun n l => rev (firstn n l)) order (fun l => l) lib title 1) /\
  (exists lib order t1 t2, keys_differ lib /\ (forall l, Permutation l (order l)) /\
     to_json (fun l => l) (fun l => l) (fun l => l) lib = Ret t1 /\
     to_json (fun l => l) (fun l => l) order lib = Ret t2 /\ t1 <> t2).
Proof. exact pf_C109_where_the_order_shows. Qed.
Print Assumptions C109_where_the_order_shows.

(** Two orders, and a program which classifies a method by the set of the crossings of its treble: it is Surprise. *)
Example C109_example :
  let o1 := nodup Nat.eq_dec in let o2 := fun l => rev (nodup Nat.eq_dec l) in
  (forall l, collected_set l (o1 l)) /\ (forall l, collected_set l (o2 l)) /\ o1 [3; 7; 3] <> o2 [3; 7; 3] /\
  let prog := [MethodFromString (s2l "Cambridge") 6 (s2l "-36-14-12-36-14-56,12")] in
  run o1 prog = run o2 prog /\
  exists m, run o1 prog = Ret [VMethod m] /\ m_title m = s2l "Cambridge Surprise Minor".
Proof.
  cbv zeta. split; [|split; [|split; [|split]]].
  - intros l. split; [apply NoDup_nodup|apply nodup_In].
  - intros l. split; [apply NoDup_rev, NoDup_nodup|]. intros x. rewrite <- in_rev. apply nodup_In.
  - discriminate.
  - vm_compute. reflexivity.
  - eexists. split; vm_compute; reflexivity.
Qed.

Example C109_example_suggestions :
  let lib := [(6, [(s2l "a minor", CompactMethod [] (s2l "A Minor") (FullClass false false false Bob) []);
                   (s2l "bb minor", CompactMethod [] (s2l "Bb Minor") (FullClass false false false Bob) [])]);
              (8, [(s2l "c major", CompactMethod [] (s2l "C Major") (FullClass false false false Bob) [])])] in
  let closest n items := rev (firstn n (filter (fun x => Nat.eqb (snd x) 7) items ++ filter (fun x => Nat.eqb (snd x) 8) items)) in
  generate_suggestions (fun _ t => length t) closest (fun l => l) (fun l => l) lib [] 2 = [(s2l "A Minor", 7); (s2l "C Major", 7)] /\
  generate_suggestions (fun _ t => length t) closest (@rev _) (@rev _) lib [] 2 = [(s2l "C Major", 7); (s2l "A Minor", 7)].
Proof. split; vm_compute; reflexivity. Qed.
