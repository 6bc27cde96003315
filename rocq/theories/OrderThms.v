(** Property theorems C109: what the random order of hash maps may change. *)

(* Generated from tools/props/Order.src: the proofs behind PropsOrder.v. *)
From Verif Require Import Utf8 Cache SpecCache CacheThms.
From Verif Require Import Base Spec ListFacts Bell Stage Row RowFacts Utils SameStageVec Block PlaceNot Mask Class Method Library Serde Json
  Program Machine Release Unwind Unsafe SpecLib SpecOrder LibFacts LibThms GroupThms MulFacts OrderFacts.
Local Open Scope string_scope.
Local Open Scope list_scope.

Lemma pf_C109_programs :
  forall o1 o2, (forall l, collected_set l (o1 l)) -> (forall l, collected_set l (o2 l)) ->
    (forall prog, run o1 prog = run o2 prog) /\
    (forall bd prog, m_run bd o1 prog = m_run bd o2 prog) /\
    (forall bd limit prog, r_run bd limit o1 prog = r_run bd limit o2 prog) /\
    (forall prog, run_caught o1 prog = run_caught o2 prog) /\
    (forall prog, urun o1 prog = urun o2 prog).
Proof.
  intros o1 o2 H1 H2.
  assert (W : forall name lead, with_name o1 name lead = with_name o2 name lead)
    by (intros; unfold with_name; rewrite (classify_same o1 o2 H1 H2); reflexivity).
  assert (Fp : forall name s t, from_place_not_string o1 name s t = from_place_not_string o2 name s t).
  { intros name s t. unfold from_place_not_string.
    destruct (pn_block_parse t s) as [[p|e]| | |]; cbn [bind]; auto.
    destruct (pn_block_to_block_from_rounds None p) as [lead| | |]; cbn [bind]; auto. rewrite W. reflexivity. }
  assert (L : forall name p, with_lead_end o1 name p = with_lead_end o2 name p).
  { intros name p. unfold with_lead_end.
    destruct (pn_block_to_block_from_rounds None p) as [lead| | |]; cbn [bind]; auto.
    destruct (usub (block_len lead) 1) as [i| | |]; cbn [bind]; auto.
    destruct (unwrap (block_set_annot lead i (Some LABEL_LEAD_END))) as [lead'| | |]; cbn [bind]; auto. }
  assert (S : forall st c, step o1 st c = step o2 st c).
  { intros st c. destruct c; try reflexivity; cbn [step]; unfold with_block, with_pn_block;
      try match goal with |- context [nth_error st ?i] => destruct (nth_error st i) as [[]|] end; auto; rewrite ?W, ?L; auto.
    destruct (stage_new _) as [s| | |]; cbn [bind]; auto. rewrite Fp. reflexivity. }
  assert (F : forall (St C : Type) (f g : St -> C -> exec St), (forall st c, f st c = g st c) -> forall prog st, Base.foldM f prog st = Base.foldM g prog st).
  { intros St C f g E. induction prog as [|c prog IH]; intros st; cbn [Base.foldM]; auto. rewrite E.
    destruct (g st c) as [st'| | |]; cbn [bind]; auto. }
  assert (M : forall w st c, m_step w o1 st c = m_step w o2 st c)
    by (intros w st c; destruct c; try reflexivity; cbn [m_step]; try apply S; destruct p; try reflexivity; apply S).
  splits; intros.
  - unfold run, run_from. apply F, S.
  - unfold m_run, m_run_from. apply F, M.
  - unfold r_run, r_run_from. apply F. intros st c. destruct c; try reflexivity; cbn [r_step]; try apply M; destruct p; try reflexivity; apply M.
  - unfold run_caught, run_caught_from. apply F. intros st c. unfold step_caught. rewrite S. reflexivity.
  - unfold urun, urun_from. apply F. intros st c. destruct c; try reflexivity. apply S.
Qed.

Lemma pf_C109_group_tests :
  forall rows set1 set2, Forall valid_row rows -> collected_set rows set1 -> collected_set rows set2 ->
    (forall ok, is_group_set set1 = Ret (Ok ok) <-> is_group_set set2 = Ret (Ok ok)) /\
    ((exists e, is_group_set set1 = Ret (Err e)) <-> (exists e, is_group_set set2 = Ret (Err e))).
Proof.
  intros rows set1 set2 V C1 C2.
  destruct (pf_C20_group_test rows set1 V C1) as [E1 T1]. destruct (pf_C20_group_test rows set2 V C2) as [E2 T2].
  split; [|rewrite E1, E2; reflexivity].
  destruct (same_or_not rows) as [(n & F)|(x & y & Hx & Hy & N)].
  - destruct (T1 n F) as (k1 & Ek1 & K1). destruct (T2 n F) as (k2 & Ek2 & K2).
    assert (k1 = k2) as ->. { apply eq_iff_eq_true. rewrite K1, K2. reflexivity. }
    intros ok. rewrite Ek1, Ek2. reflexivity.
  - destruct (proj2 E1) as (e1 & X1); [eauto|]. destruct (proj2 E2) as (e2 & X2); [eauto|].
    intros ok. rewrite X1, X2. split; discriminate.
Qed.

Lemma pf_C109_suggestions :
  forall edit_distance shortlist1 shortlist2 lib_order1 stage_order1 lib_order2 stage_order2 lib title n,
    (forall l, Permutation l (lib_order1 l)) -> (forall l, Permutation l (stage_order1 l)) ->
    (forall l, Permutation l (lib_order2 l)) -> (forall l, Permutation l (stage_order2 l)) ->
    (forall items, keeps_closest n items (shortlist1 n items)) ->
    (forall items, keeps_closest n items (shortlist2 n items)) ->
    let s1 := generate_suggestions edit_distance shortlist1 lib_order1 stage_order1 lib title n in
    let s2 := generate_suggestions edit_distance shortlist2 lib_order2 stage_order2 lib title n in
    map snd s1 = map snd s2 /\
    (forall d x, In x s1 -> d < snd x ->
       Permutation (filter (fun y => Nat.eqb (snd y) d) s1) (filter (fun y => Nat.eqb (snd y) d) s2)) /\
    (length (flat_map snd lib) <= n -> Permutation s1 s2).
Proof.
  intros ed sl1 sl2 lo1 so1 lo2 so2 lib title n PL1 PS1 PL2 PS2 K1 K2 s1 s2. unfold s1, s2, generate_suggestions.
  set (f1 := fun '(_, methods) => map (fun '(stored_title, cm) => (cm_title cm, ed title stored_title)) (so1 methods)).
  set (f2 := fun '(_, methods) => map (fun '(stored_title, cm) => (cm_title cm, ed title stored_title)) (so2 methods)).
  assert (P : Permutation (flat_map f1 (lo1 lib)) (flat_map f2 (lo2 lib))).
  { apply flat_map_perm.
    - eapply perm_trans; [apply Permutation_sym, PL1|apply PL2].
    - intros (s, ms). apply Permutation_map. eapply perm_trans; [apply Permutation_sym, PS1|apply PS2]. }
  destruct (kept_same n _ _ _ _ P (K1 _) (K2 _)) as (E & C & A). splits; auto. intros L. apply A.
  assert (X : length (flat_map f1 (lo1 lib)) = length (flat_map snd lib)); [|lia].
  rewrite (Permutation_length (flat_map_perm f1 (fun '(_, ms) => map (fun '(t, cm) => (cm_title cm, ed title t)) ms) (lo1 lib) lib
    (Permutation_sym (PL1 lib)) ltac:(intros (s, ms); apply Permutation_map, Permutation_sym, PS1))).
  clear. induction lib as [|(s, ms) lib IH]; cbn [flat_map snd]; auto. rewrite !app_length, map_length, IH. reflexivity.
Qed.

Lemma pf_C109_written_libraries :
  forall lib_order1 stage_order1 group_order1 lib_order2 stage_order2 group_order2 lib,
    (forall l, Permutation l (lib_order1 l)) -> (forall l, Permutation l (stage_order1 l)) ->
    (forall l, Permutation l (group_order1 l)) ->
    (forall l, Permutation l (lib_order2 l)) -> (forall l, Permutation l (stage_order2 l)) ->
    (forall l, Permutation l (group_order2 l)) ->
    (to_json lib_order1 stage_order1 group_order1 lib = Panic /\ to_json lib_order2 stage_order2 group_order2 lib = Panic) \/
    exists c1 c2, same_but_for_order c1 c2 /\
      lib_to_serde lib_order1 stage_order1 group_order1 lib = Ret c1 /\
      lib_to_serde lib_order2 stage_order2 group_order2 lib = Ret c2 /\
      exists t1 t2, to_json lib_order1 stage_order1 group_order1 lib = Ret t1 /\
        to_json lib_order2 stage_order2 group_order2 lib = Ret t2 /\ length t1 = length t2.
Proof.
  intros lo1 so1 go1 lo2 so2 go2 lib PL1 PS1 PG1 PL2 PS2 PG2. unfold to_json.
  destruct (to_serde_same lo1 so1 go1 lo2 so2 go2 lib PL1 PS1 PG1 PL2 PS2 PG2) as [[-> ->]|(c1 & c2 & -> & -> & S)]; [left; auto|].
  right. exists c1, c2. splits; auto. do 2 eexists. split; [reflexivity|]. split; [reflexivity|]. apply json_length_same, S.
Qed.

Lemma pf_C109_searches :
  (forall to_lowercase lib1 lib2, keys_differ lib1 -> keys_differ lib2 ->
     (forall s k cm, entry lib1 s k cm <-> entry lib2 s k cm) ->
     forall title, get_by_title to_lowercase lib1 title = get_by_title to_lowercase lib2 title) /\
  (forall to_lowercase lib_order1 stage_order1 group_order1 lib_order2 stage_order2 group_order2 lib,
     (forall l, Permutation l (lib_order1 l)) -> (forall l, Permutation l (stage_order1 l)) ->
     (forall l, Permutation l (group_order1 l)) ->
     (forall l, Permutation l (lib_order2 l)) -> (forall l, Permutation l (stage_order2 l)) ->
     (forall l, Permutation l (group_order2 l)) ->
     keys_differ lib -> proper to_lowercase lib ->
     exists t1 t2 lib1 lib2,
       to_json lib_order1 stage_order1 group_order1 lib = Ret t1 /\ from_json to_lowercase t1 = Ret (Some lib1) /\
       to_json lib_order2 stage_order2 group_order2 lib = Ret t2 /\ from_json to_lowercase t2 = Ret (Some lib2) /\
       keys_differ lib1 /\ keys_differ lib2 /\ (forall s k cm, entry lib1 s k cm <-> entry lib2 s k cm)).
Proof.
  split.
  - intros lower lib1 lib2 D1 D2 E title. unfold get_by_title. rewrite !get_option_ok.
    destruct (stage_from_lower_case_name _) as [s|]; auto.
    assert (X : lookup lib1 s (lower title) = lookup lib2 s (lower title)).
    { destruct (lookup lib1 s (lower title)) as [cm|] eqn:L1.
      - apply (lookup_entry lib1 _ _ _ D1), E, (lookup_entry lib2 _ _ _ D2) in L1. auto.
      - destruct (lookup lib2 s (lower title)) as [cm|] eqn:L2; auto.
        apply (lookup_entry lib2 _ _ _ D2), E, (lookup_entry lib1 _ _ _ D1) in L2. congruence. }
    rewrite X. reflexivity.
  - intros lower lo1 so1 go1 lo2 so2 go2 lib PL1 PS1 PG1 PL2 PS2 PG2 D P.
    destruct (pf_C86_text_round_trip lower lo1 so1 go1 lib PL1 PS1 PG1 D P) as (t1 & l1 & W1 & R1 & D1 & E1 & _).
    destruct (pf_C86_text_round_trip lower lo2 so2 go2 lib PL2 PS2 PG2 D P) as (t2 & l2 & W2 & R2 & D2 & E2 & _).
    exists t1, t2, l1, l2. splits; auto. intros s k cm. rewrite E1, E2. reflexivity.
Qed.

Lemma pf_C109_where_the_order_shows :
  (exists rows set1 set2 e1 e2, Forall valid_row rows /\ collected_set rows set1 /\ collected_set rows set2 /\
     is_group_set set1 = Ret (Err e1) /\ is_group_set set2 = Ret (Err e2) /\ e1 <> e2) /\
  (exists lib order title, keys_differ lib /\ (forall l, Permutation l (order l)) /\
     generate_suggestions (fun a b => 1) (fun n l => rev (firstn n l)) (fun l => l) (fun l => l) lib title 1 <>
     generate_suggestions (fun a b => 1) (fun n l => rev (firstn n l)) order (fun l => l) lib title 1) /\
  (exists lib order t1 t2, keys_differ lib /\ (forall l, Permutation l (order l)) /\
     to_json (fun l => l) (fun l => l) (fun l => l) lib = Ret t1 /\
     to_json (fun l => l) (fun l => l) order lib = Ret t2 /\ t1 <> t2).
Proof.
  assert (K : keys_differ [(6, [(s2l "a minor", CompactMethod [] (s2l "A Minor") (FullClass false false false Bob) [])]);
                           (8, [(s2l "b major", CompactMethod [] (s2l "B Major") (FullClass false false false Bob) [])])]).
  { split; [cbn; repeat constructor; cbn; intuition discriminate|].
    intros s ms [E|[E|[]]]; injection E as <- <-; cbn; repeat constructor; cbn; intuition discriminate. }
  split; [|split].
  - exists [[0; 1]; [0; 1; 2]], [[0; 1]; [0; 1; 2]], [[0; 1; 2]; [0; 1]]. do 2 eexists. splits; try reflexivity.
    + apply Forall_cons; [apply (valid_rounds 2); lia|]. apply Forall_cons; [apply (valid_rounds 3); lia|]. apply Forall_nil.
    + split; [repeat constructor; cbn; intuition discriminate|intros; reflexivity].
    + split; [repeat constructor; cbn; intuition discriminate|intros x; cbn; tauto].
    + discriminate.
  - exists [(6, [(s2l "a minor", CompactMethod [] (s2l "A Minor") (FullClass false false false Bob) [])]);
            (8, [(s2l "b major", CompactMethod [] (s2l "B Major") (FullClass false false false Bob) [])])], (@rev _), [].
    splits; auto using Permutation_rev. vm_compute. discriminate.
  - exists [(6, [(s2l "a minor", CompactMethod [] (s2l "A Minor") (FullClass false false false Bob) [])]);
            (8, [(s2l "b major", CompactMethod [] (s2l "B Major") (FullClass false false false Bob) [])])], (@rev _).
    do 2 eexists. splits; auto using Permutation_rev; try (vm_compute; reflexivity). vm_compute. discriminate.
Qed.
