(** Properties C64, C65 and C66: method libraries and serialisation. *)
(*IMPORTS*)
From Verif Require Import Base Spec ListFacts Bell Stage Row RowFacts MulFacts Utils SameStageVec Block SpecBlock
  PlaceNot SpecPn PropsBell PropsPn Class Method Library Serde SpecLib LibFacts.
Local Open Scope list_scope.
(*BODY*)
(** C64: what a search by title returns.  There is at most one method it should find.  If its stored
    notation is correct the result is the stored title, name and class with the lead which the
    notation describes, rung from rounds and without labels; if it is not, the result is the parse
    error with the stored notation; if there is no such method, the result is [NotFound].  Nothing
    panics. *)
Theorem C64_get_by_title :
  forall to_lowercase lib title, keys_differ lib ->
    (forall s cm s' cm', found to_lowercase lib title s cm -> found to_lowercase lib title s' cm' ->
       s = s' /\ cm = cm') /\
    (forall s cm pns, found to_lowercase lib title s cm ->
       block_changes s (cm_place_notation cm) pns -> pns <> [] ->
       exists lead rs head, rung (seq 0 s) pns rs head /\
         block_holds lead s (map (fun r => (r, None)) (removelast (seq 0 s :: rs))) head /\
         get_by_title to_lowercase lib title =
           Ret (Ok (Method (cm_title cm) (cm_name cm) (cm_full_class cm) lead))) /\
    (forall s cm, found to_lowercase lib title s cm ->
       (forall pns, block_changes s (cm_place_notation cm) pns -> pns = []) ->
       exists e, pn_block_parse (cm_place_notation cm) s = Ret (Err e) /\
         get_by_title to_lowercase lib title = Ret (Err (PnParseErr (cm_place_notation cm) e))) /\
    ((forall s cm, ~ found to_lowercase lib title s cm) ->
       get_by_title to_lowercase lib title = Ret (Err (NotFound tt))).
Proof.
  intros lower lib title D. unfold get_by_title. rewrite get_option_ok.
  assert (P : forall w s, stage_from_lower_case_name w = Some s -> 0 < s).
  { intros w s E. apply C03_stage_names_round_trip in E as (n & E & _).
    assert (1 <= s <= 22) by (apply C03_stage_names_round_trip; eauto). lia. }
  split; [|split; [|split]].
  - intros s cm s' cm' H H'. apply (found_lookup _ _ _ _ _ D) in H as [H1 H2], H' as [H3 H4].
    rewrite H1 in H3. injection H3 as <-. split; congruence.
  - intros s cm pns H Hc Np. apply (found_lookup _ _ _ _ _ D) in H as [H1 H2]. rewrite H1, H2. pose proof (P _ _ H1) as Hs.
    destruct (C43_parse_block (cm_place_notation cm) s Hs) as (r & Er & Hr & _).
    assert (r = Ok pns) as -> by (apply Hr; auto).
    destruct (C43_parsed_changes_are_legal _ _ _ Hs Er) as [_ F].
    assert (V : vrow s (seq 0 s)) by (rewrite <- rounds_seq; apply valid_rounds; auto).
    destruct (C45_to_block (option str) None pns (seq 0 s) s Np F (proj1 V) (proj2 V)) as (lead & rs & head & _ & R & Hb & E).
    exists lead, rs, head. splits; auto. unfold to_method. rewrite Er. cbn [bind]. rewrite (E eq_refl). reflexivity.
  - intros s cm H Hn. apply (found_lookup _ _ _ _ _ D) in H as [H1 H2]. rewrite H1, H2. pose proof (P _ _ H1) as Hs.
    destruct (C43_parse_block (cm_place_notation cm) s Hs) as (r & Er & Hr & _).
    destruct r as [l|e].
    + exfalso. destruct (proj1 (Hr l) eq_refl) as [N C]. apply N. auto.
    + exists e. split; auto. unfold to_method. rewrite Er. reflexivity.
  - intros N. destruct (stage_from_lower_case_name (rsplit_space_next (lower title))) as [s|] eqn:E; [|reflexivity].
    destruct (lookup lib s (lower title)) as [cm|] eqn:E2; [|reflexivity]. exfalso. apply (N s cm).
    apply (found_lookup _ _ _ _ _ D). auto.
Qed.

(** C64: the case of the letters of the title does not matter. *)
Theorem C64_case_does_not_matter :
  forall to_lowercase lib t t', to_lowercase t = to_lowercase t' ->
    get_by_title to_lowercase lib t = get_by_title to_lowercase lib t'.
Proof. intros lower lib t t' E. unfold get_by_title. rewrite E. reflexivity. Qed.

(** C64: the variant with suggestions returns the same method or the same parse error, and the
    suggestions in place of [NotFound].  (Lower-casing twice is assumed to be lower-casing once.) *)
Theorem C64_suggestions_variant_agrees :
  forall to_lowercase edit_distance shortlist lib_order stage_order lib title n,
    (forall t, to_lowercase (to_lowercase t) = to_lowercase t) -> keys_differ lib ->
    exists r, get_by_title to_lowercase lib title = Ret r /\
      get_by_title_with_suggestions to_lowercase edit_distance shortlist lib_order stage_order lib title n =
      Ret (match r with
           | Ok m => Ok m
           | Err (PnParseErr pn e) => Err (PnParseErr pn e)
           | Err (NotFound _) =>
               Err (NotFound (generate_suggestions edit_distance shortlist lib_order stage_order lib
                                (to_lowercase title) n))
           end).
Proof.
  intros lower ed sl lo so lib title n Id D.
  destruct (pf_C64_get_by_title lower lib title D) as (_ & H1 & H2 & H3).
  assert (exists r, get_by_title lower lib title = Ret r) as (r & E).
  { destruct (stage_from_lower_case_name (rsplit_space_next (lower title))) as [s|] eqn:Es.
    - destruct (lookup lib s (lower title)) as [cm|] eqn:Ec.
      + assert (Fd : found lower lib title s cm) by (apply (found_lookup _ _ _ _ _ D); auto).
        assert (Hs : 0 < s).
        { apply C03_stage_names_round_trip in Es as (nm & En & _).
          assert (1 <= s <= 22) by (apply C03_stage_names_round_trip; eauto). lia. }
        destruct (C43_parse_block (cm_place_notation cm) s Hs) as (r & Er & Hr & _). destruct r as [l|e].
        * destruct (proj1 (Hr l) eq_refl) as [Nl Cl]. destruct (H1 s cm l Fd Cl Nl) as (a & b & c & _ & _ & ->). eauto.
        * destruct (H2 s cm Fd) as (e' & _ & ->); [|eauto]. intros pns C. destruct pns as [|p pns]; auto.
          exfalso. assert (Err e = Ok (p :: pns)) as X by (apply Hr; split; [discriminate|auto]). discriminate.
      + rewrite H3; eauto. intros s' cm' Fd. apply (found_lookup _ _ _ _ _ D) in Fd as [F1 F2]. congruence.
    - rewrite H3; eauto. intros s' cm' Fd. apply (found_lookup _ _ _ _ _ D) in Fd as [F1 F2]. congruence. }
  exists r. split; auto. unfold get_by_title_with_suggestions.
  rewrite (pf_C64_case_does_not_matter lower lib (lower title) title (Id title)), E. cbn [bind].
  destruct r as [m|[pn e|[]]]; reflexivity.
Qed.

(** C64: the suggestions are stored titles with the edit distance of their keys from the title asked
    for, the closest first; [n] of them (or all, if the library is smaller), and no method that is
    left out is closer than one that is suggested. *)
Theorem C64_suggestions_are_the_closest :
  forall edit_distance shortlist lib_order stage_order lib title n,
    (forall l, Permutation l (lib_order l)) -> (forall l, Permutation l (stage_order l)) ->
    (forall items, keeps_closest n items (shortlist n items)) ->
    let sugg := generate_suggestions edit_distance shortlist lib_order stage_order lib title n in
    let all := flat_map snd lib in
    length sugg = Nat.min n (length all) /\
    (forall i j x y, i < j -> nth_error sugg i = Some x -> nth_error sugg j = Some y -> snd x <= snd y) /\
    exists shown hidden, Permutation all (shown ++ hidden) /\
      map (fun e => (cm_title (snd e), edit_distance title (fst e))) shown = sugg /\
      forall e e', In e shown -> In e' hidden -> edit_distance title (fst e) <= edit_distance title (fst e').
Proof.
  intros ed sl lo so lib title n Pl Ps Hk sugg all.
  set (f := fun e : str * compact_method => (cm_title (snd e), ed title (fst e))).
  assert (Pa : Permutation (map f all) (flat_map (fun '(_, methods) => map (fun '(k, cm) => (cm_title cm, ed title k)) (so methods)) (lo lib))).
  { unfold all. transitivity (flat_map (fun x : nat * list (str * compact_method) => map f (snd x)) (lo lib)).
    - rewrite <- (Permutation_flat_map (fun x : nat * list (str * compact_method) => map f (snd x)) (Pl lib)).
      rewrite !flat_map_concat_map, concat_map, map_map. apply Permutation_refl.
    - generalize (lo lib). induction l as [|(s0, ms) l IH]; cbn [flat_map snd]; auto. apply Permutation_app; auto.
      rewrite (map_ext (fun '(k, cm) => (cm_title cm, ed title k)) f) by (intros []; reflexivity). apply Permutation_map, Ps. }
  set (items := flat_map _ (lo lib)) in Pa.
  assert (Es : sugg = rev (sl n items)) by reflexivity.
  destruct (Hk items) as ((dropped & Pd & Hd) & Hl & Hs).
  split; [|split].
  - rewrite Es, rev_length, Hl. rewrite <- (Permutation_length Pa), map_length. reflexivity.
  - intros i j x y Hij Hi Hj. rewrite Es in Hi, Hj.
    assert (Li : i < length (sl n items)) by (rewrite <- rev_length; apply nth_error_Some; congruence).
    assert (Lj : j < length (sl n items)) by (rewrite <- rev_length; apply nth_error_Some; congruence).
    rewrite nth_error_rev in Hi, Hj by auto.
    eapply Hs; [|exact Hj|exact Hi]. lia.
  - assert (Pm : Permutation (map f all) (sugg ++ dropped)).
    { rewrite Pa, Pd. apply Permutation_app_tail. rewrite Es. apply Permutation_rev. }
    apply Permutation_sym, Permutation_map_inv in Pm as (l3 & E3 & P3).
    symmetry in E3. apply map_eq_app in E3 as (shown & hidden & -> & E1 & E2).
    exists shown, hidden. splits; auto.
    intros e e' He He'. change (snd (f e) <= snd (f e')). apply Hd.
    + apply in_rev. rewrite <- Es, <- E1. apply in_map. auto.
    + rewrite <- E2. apply in_map. auto.
Qed.

(** C64: when a search fails, [unwrap_parse_err] of the error panics exactly when the method is stored with a place notation
    which cannot be parsed; otherwise the method is not stored, and it gives back what [NotFound] holds, also after
    [map_not_found]. *)
Theorem C64_unwrap_parse_err :
  forall to_lowercase lib title e, keys_differ lib -> get_by_title to_lowercase lib title = Ret (Err e) ->
    (unwrap_parse_err e = Panic <-> exists s cm, found to_lowercase lib title s cm) /\
    (unwrap_parse_err e = Panic ->
       forall s cm pns, found to_lowercase lib title s cm -> block_changes s (cm_place_notation cm) pns -> pns = []) /\
    (unwrap_parse_err e = Ret (Err tt) <-> forall s cm, ~ found to_lowercase lib title s cm) /\
    forall U (f : unit -> U),
      (unwrap_parse_err (map_not_found e f) = Ret (Err (f tt)) <-> forall s cm, ~ found to_lowercase lib title s cm).
Proof.
  intros lower lib title e D E. destruct (pf_C64_get_by_title lower lib title D) as (_ & H1 & H2 & H3).
  assert (K : match e with PnParseErr _ _ => exists s cm, found lower lib title s cm | NotFound _ => forall s cm, ~ found lower lib title s cm end).
  { unfold get_by_title in E. rewrite get_option_ok in E.
    assert (Z : (forall s, stage_from_lower_case_name (rsplit_space_next (lower title)) = Some s -> lookup lib s (lower title) = None) ->
              forall s cm, ~ found lower lib title s cm).
    { intros N s cm F. apply (found_lookup _ _ _ _ _ D) in F as [F1 F2]. rewrite (N s F1) in F2. discriminate. }
    destruct (stage_from_lower_case_name (rsplit_space_next (lower title))) as [s|] eqn:Es;
      [|injection E as <-; apply Z; intros s' F1; discriminate].
    destruct (lookup lib s (lower title)) as [cm|] eqn:Ec; [|injection E as <-; apply Z; intros s' F1; congruence].
    destruct (to_method cm s) as [[m|[pn err]]| | |]; cbn in E; try discriminate. injection E as <-. exists s, cm.
    apply (found_lookup _ _ _ _ _ D). auto. }
  assert (P : forall s cm pns, found lower lib title s cm -> block_changes s (cm_place_notation cm) pns -> pns = []).
  { intros s cm pns F C. destruct pns as [|p pns]; auto. destruct (H1 s cm _ F C) as (a & h & c & _ & _ & Q); [discriminate|]. rewrite E in Q. discriminate. }
  destruct e as [pn err|[]]; cbn [unwrap_parse_err map_not_found].
  - destruct K as (s & cm & F). splits; eauto; intros; split; intros X; try discriminate; eauto; exfalso; eapply X; eauto.
  - splits; auto; try discriminate; intros; split; auto; try discriminate. intros (s & cm & F). exfalso. eapply K; eauto.
Qed.

Definition pb_minor : compact_method := CompactMethod (s2l "Plain") (s2l "Plain Bob Minor") (FullClass false false false Bob) (s2l "-16-16-16,12").
Definition dbl : compact_method := CompactMethod (s2l "Bad") (s2l "Bad Bob Doubles") (FullClass false false false Bob) (s2l "-16,12").
Definition grandsire : compact_method := CompactMethod (s2l "Grandsire") (s2l "Grandsire Doubles") (FullClass false false false Bob) (s2l "3,1.5.1.5.1").
Definition example_lib : method_lib :=
  [(6, [(s2l "plain bob minor", pb_minor)]); (5, [(s2l "bad bob doubles", dbl); (s2l "grandsire doubles", grandsire)])].

Example C64_example :
  let find := get_by_title (map ascii_lower) example_lib in
  keys_differ example_lib /\
  (exists lead, find (s2l "Plain BOB Minor") = Ret (Ok (Method (s2l "Plain Bob Minor") (s2l "Plain") (FullClass false false false Bob) lead)) /\
     block_leftover_row lead = Ret [0; 2; 4; 1; 5; 3]) /\
  find (s2l "Bad Bob Doubles") = Ret (Err (PnParseErr (s2l "-16,12") (PnError 0 1 (OddStageCross 5)))) /\
  find (s2l "Plain Bob Doubles") = Ret (Err (NotFound tt)) /\
  find (s2l "Plain") = Ret (Err (NotFound tt)).
Proof.
  cbv zeta. splits.
  - split; [cbn; repeat constructor; cbn; intuition discriminate|]. intros s ms [E|[E|[]]]; injection E as <- <-; cbn; repeat constructor; cbn; intuition discriminate.
  - eexists. split; vm_compute; reflexivity.
  - vm_compute. reflexivity.
  - vm_compute. reflexivity.
  - vm_compute. reflexivity.
Qed.

(** A shortlist as required exists: sort all items, and keep the last [n]. *)
Example C64_shortlist_example :
  keeps_closest 2 [(s2l "a", 5); (s2l "b", 1); (s2l "c", 3)] [(s2l "c", 3); (s2l "b", 1)].
Proof.
  split; [|split].
  - exists [(s2l "a", 5)]. split.
    + apply Permutation_sym. apply perm_trans with [(s2l "b", 1); (s2l "c", 3); (s2l "a", 5)]; [apply perm_swap|].
      apply (Permutation_cons_append [(s2l "b", 1); (s2l "c", 3)] (s2l "a", 5)) || apply Permutation_sym, (Permutation_cons_append [(s2l "b", 1); (s2l "c", 3)] (s2l "a", 5)).
    + intros x y [<-|[<-|[]]] [<-|[]]; cbn; lia.
  - reflexivity.
  - intros [|[|i]] [|[|j]] x y H E1 E2; try lia; cbn in E1, E2; try (destruct j; discriminate); try (destruct i; discriminate);
      injection E1 as <-; injection E2 as <-; cbn; lia.
Qed.

(** C65: the compact form stands for exactly the entries of the library, so unpacking it gives a
    library with exactly the same entries (and the same result for every search), in whatever order
    the hash maps are iterated over.  The library must store each method under its title in lower
    case, and its stages must have names. *)
Theorem C65_round_trip :
  forall to_lowercase lib_order stage_order group_order lib,
    (forall l, Permutation l (lib_order l)) -> (forall l, Permutation l (stage_order l)) ->
    (forall l, Permutation l (group_order l)) ->
    keys_differ lib -> proper to_lowercase lib ->
    exists compact lib', lib_to_serde lib_order stage_order group_order lib = Ret compact /\
      lib_from_serde to_lowercase compact = Ret lib' /\ keys_differ lib' /\
      (forall s k cm, entry lib' s k cm <-> entry lib s k cm) /\
      forall title, get_by_title to_lowercase lib' title = get_by_title to_lowercase lib title.
Proof.
  intros lower lo so go lib P1 P2 P3 D Pr.
  destruct (to_serde_ok lo so P1 P2 go P3 lib) as (ser & E & He & Hc & Hs).
  { intros s k cm H. apply (Pr s k cm H). }
  assert (Hk : forall s k cm, entry lib s k cm -> k = lower (cm_title cm)) by (intros s k cm H; apply (Pr s k cm H)).
  specialize (He lower Hk).
  destruct (from_serde_gen lower ser [] keys_differ_nil) as [[(g & Hg & B) _]|(lib' & E' & D' & Hs' & F' & L')].
  - exfalso.
    destruct (Hs g Hg) as (k & cm & He0). destruct (Pr _ _ _ He0) as [_ (n & En)].
    destruct B as [B|[B|(cs & _ & _ & B)]].
    + rewrite B in En. discriminate.
    + specialize (Hc g Hg). lia.
    + congruence.
  - assert (Q : forall s k cm, entry lib' s k cm <-> entry lib s k cm).
    { intros s k cm. rewrite <- (lookup_entry lib' s k cm D'), L', fold_last. rewrite <- He. split.
      - intros [(pre & post & Em & _)|[X _]]; [|discriminate].
        assert (Hin : In (Some (s, k, cm)) (map (unpacked lower) (methods_of ser))) by (rewrite Em; apply in_or_app; right; left; auto).
        apply in_map_iff in Hin as (gc & U & Hin). eauto.
      - intros (gc & Hin & U). left.
        assert (Hin' : In (Some (s, k, cm)) (map (unpacked lower) (methods_of ser))) by (apply in_map_iff; eauto).
        (* the last one under this key *)
        destruct (last_in (fun o => exists cm', o = Some (s, k, cm')) (map (unpacked lower) (methods_of ser))) as (pre & o & post & Em & (cm' & ->) & N).
        { intros [[[s0 k0] cm0]|]; [|right; intros (? & [=])].
          destruct (Nat.eq_dec s0 s) as [->|Ns]; [|right; intros (? & [=]); congruence].
          destruct (list_eq_dec N.eq_dec k0 k) as [->|Nk]; [left; eauto|right; intros (? & [=]); congruence]. }
        { eauto. }
        assert (cm' = cm) as ->.
        { assert (Hin2 : In (Some (s, k, cm')) (map (unpacked lower) (methods_of ser))) by (rewrite Em; apply in_or_app; right; left; auto).
          apply in_map_iff in Hin2 as (gc2 & U2 & Hin2).
          assert (E1 : entry lib s k cm) by (apply He; eauto). assert (E2 : entry lib s k cm') by (apply He; eauto).
          apply (lookup_entry lib s k _ D) in E1, E2. congruence. }
        exists pre, post. split; auto. intros cm' Hin2. apply (N _ Hin2). eauto. }
    exists ser, lib'. splits; auto.
    intros title. unfold get_by_title. rewrite !get_option_ok. destruct (stage_from_lower_case_name _) as [s|]; auto.
    assert (lookup lib' s (lower title) = lookup lib s (lower title)) as ->; auto.
    destruct (lookup lib' s (lower title)) as [cm|] eqn:E1, (lookup lib s (lower title)) as [cm'|] eqn:E2; auto.
    + apply (lookup_entry _ _ _ _ D') in E1. apply Q in E1. apply (lookup_entry _ _ _ _ D) in E1. congruence.
    + apply (lookup_entry _ _ _ _ D') in E1. apply Q in E1. apply (lookup_entry _ _ _ _ D) in E1. congruence.
    + apply (lookup_entry _ _ _ _ D) in E2. apply Q in E2. apply (lookup_entry _ _ _ _ D') in E2. congruence.
Qed.

(** C65: the same with the JSON form in between. *)
Theorem C65_json_round_trip :
  forall to_lowercase lib_order stage_order group_order lib,
    (forall l, Permutation l (lib_order l)) -> (forall l, Permutation l (stage_order l)) ->
    (forall l, Permutation l (group_order l)) ->
    keys_differ lib -> proper to_lowercase lib ->
    exists compact, lib_to_serde lib_order stage_order group_order lib = Ret compact /\
      lib_from_json (lib_to_json compact) = Some compact.
Proof.
  intros lower lo so go lib P1 P2 P3 D Pr.
  destruct (to_serde_ok lo so P1 P2 go P3 lib) as (ser & E & He & Hc & Hs).
  { intros s k cm H. apply (Pr s k cm H). }
  exists ser. split; auto. apply lib_json. apply Forall_forall. intros g Hg. split.
  - destruct (Hs g Hg) as (k & cm & He0). destruct (Pr _ _ _ He0) as [_ Hn].
    apply C03_stage_names_round_trip in Hn. apply N.le_lt_trans with (N.of_nat 22); [lia|reflexivity].
  - specialize (Hc g Hg). apply N.le_lt_trans with (N.of_nat 8); [lia|reflexivity].
Qed.

(** C65: converting a library panics exactly when it holds a method on a stage which has no name. *)
Theorem C65_to_compact_panics :
  forall lib_order stage_order group_order lib,
    (forall l, Permutation l (lib_order l)) -> (forall l, Permutation l (stage_order l)) ->
    (forall l, Permutation l (group_order l)) ->
    ((exists s k cm, entry lib s k cm /\ stage_name s = None) ->
       lib_to_serde lib_order stage_order group_order lib = Panic) /\
    ((forall s k cm, entry lib s k cm -> stage_name s <> None) ->
       exists compact, lib_to_serde lib_order stage_order group_order lib = Ret compact).
Proof.
  intros lo so go lib P1 P2 P3. split.
  - intros (s & k & cm & He & Hn). eapply to_serde_panic; eauto.
  - intros H. destruct (to_serde_ok lo so P1 P2 go P3 lib) as (ser & E & _); eauto.
    intros s k cm He. specialize (H s k cm He). destruct (stage_name s); [eauto|congruence].
Qed.

(** C65: what unpacking any compact form gives: under each stage and key the last method which stands
    for it; it panics exactly when some group has no bells, an unknown class number, or a method
    without a title on a stage without a name.  So every library which was unpacked stores its
    methods under their titles in lower case. *)
Theorem C65_unpacking :
  forall to_lowercase compact,
    let bad g := g_stage g = 0 \/ 8 < g_class_id g \/
      exists cs, In cs (g_methods g) /\ cs_title cs = None /\ stage_name (g_stage g) = None in
    ((exists g, In g compact /\ bad g) -> lib_from_serde to_lowercase compact = Panic) /\
    ((forall g, In g compact -> ~ bad g) ->
       exists lib, lib_from_serde to_lowercase compact = Ret lib /\ keys_differ lib /\
         (forall s k cm, entry lib s k cm -> k = to_lowercase (cm_title cm)) /\
         forall s k cm, entry lib s k cm <->
           exists before gc after, methods_of compact = before ++ gc :: after /\
             stands_for to_lowercase gc s k cm /\
             forall gc' cm', In gc' after -> ~ stands_for to_lowercase gc' s k cm').
Proof.
  intros lower l bad. unfold lib_from_serde.
  destruct (from_serde_gen lower l [] keys_differ_nil) as [[B E]|(lib & E & D & Hs & F & L)].
  - split; auto. intros N. exfalso. destruct B as (g & Hg & B). apply (N g Hg B).
  - split.
    + intros (g & Hg & B). exfalso. rewrite Forall_forall in Hs. apply (Hs g Hg B).
    + intros _. exists lib.
      assert (Q : forall s k cm, entry lib s k cm <->
           exists before gc after, methods_of l = before ++ gc :: after /\
             stands_for lower gc s k cm /\ forall gc' cm', In gc' after -> ~ stands_for lower gc' s k cm').
      { intros s k cm. rewrite <- (lookup_entry lib s k cm D), L, fold_last. split.
        - intros [(pre & post & Em & N)|[X _]]; [|discriminate].
          apply map_eq_app in Em as (before & r & -> & _ & Em2). destruct r as [|gc after]; [discriminate|].
          cbn in Em2. injection Em2 as U <-. exists before, gc, after. splits; auto; [apply unpacked_stands; auto|].
          intros gc' cm' Hin St. apply unpacked_stands in St. apply (N cm'). rewrite <- St. apply in_map. auto.
        - intros (before & gc & after & -> & St & N). left. apply unpacked_stands in St.
          exists (map (unpacked lower) before), (map (unpacked lower) after). rewrite map_app. cbn [map]. rewrite St. split; auto.
          intros cm' Hin. apply in_map_iff in Hin as (gc' & U & Hin). apply unpacked_stands in U. eapply N; eauto. }
      splits; auto. intros s k cm He. apply Q in He as (_ & [g cs] & _ & _ & St & _). apply St.
Qed.

Example C65_example :
  exists compact lib', keys_differ example_lib /\ proper (map ascii_lower) example_lib /\
    lib_to_serde (fun l => l) (fun l => l) (@rev _) example_lib = Ret compact /\
    length compact = 2 /\
    lib_from_json (lib_to_json compact) = Some compact /\
    lib_from_serde (map ascii_lower) compact = Ret lib' /\
    map fst lib' = [5; 6] /\
    map cs_title (flat_map g_methods compact) = [None; Some (s2l "Grandsire Doubles"); None].
Proof.
  do 2 eexists. split; [apply C64_example|]. split.
  { intros s k cm (ms & [E|[E|[]]] & H); injection E as <- <-; cbn in H.
    - destruct H as [E|[]]; injection E as <- <-. split; [reflexivity|eexists; reflexivity].
    - destruct H as [E|[E|[]]]; injection E as <- <-; (split; [reflexivity|eexists; reflexivity]). }
  split; [vm_compute; reflexivity|]. split; [reflexivity|]. split; [reflexivity|]. split; [vm_compute; reflexivity|].
  split; reflexivity.
Qed.

(** The conditions are needed: a key which is not the title in lower case is lost, and a stage
    without a name makes the conversion panic. *)
Example C65_needs_proper :
  let lib := [(6, [(s2l "x", pb_minor)])] in
  (exists compact, lib_to_serde (fun l => l) (fun l => l) (fun l => l) lib = Ret compact /\
     lib_from_serde (map ascii_lower) compact = Ret [(6, [(s2l "plain bob minor", pb_minor)])]) /\
  lib_to_serde (fun l => l) (fun l => l) (fun l => l) [(23, [(s2l "x", pb_minor)])] = Panic.
Proof. cbv zeta. split; [eexists; split|]; vm_compute; reflexivity. Qed.

(** C66: a stage which is serialised and deserialised is unchanged. *)
Theorem C66_stage_round_trip :
  forall to_lowercase s, 0 < s -> stage_visit to_lowercase (stage_serialize s) = Ret (Ok s).
Proof.
  intros lower s Hs. unfold stage_serialize, stage_visit. rewrite Nat2N.id.
  rewrite (proj1 (proj2 (proj2 C03_stages_are_never_zero))) by lia. reflexivity.
Qed.

(** C66: deserialising a stage from the number 0 panics instead of reporting an error. *)
Theorem C66_stage_from_bad_input_is_an_error_refuted :
  forall to_lowercase v, number_of v = Some 0%Z -> stage_visit to_lowercase v = Panic.
Proof.
  intros lower v H. destruct v; cbn in H; try discriminate; injection H as H; unfold stage_visit, try_parse_stage.
  1-4: subst; reflexivity.
  all: assert (v = 0%N) as -> by lia; reflexivity.
Qed.

(** C66, for all other values (missing: 0): deserialising a stage does not panic, and gives a stage
    exactly when the value is its number of bells or its name in any case; otherwise an error. *)
Theorem C66_stage_from_any_input_partial :
  forall to_lowercase v, number_of v <> Some 0%Z ->
    exists r, stage_visit to_lowercase v = Ret r /\ forall s, r = Ok s <-> gives_stage to_lowercase v s.
Proof.
  intros lower v Hv. unfold gives_stage.
  assert (Z1 : forall z, z <> 0%Z -> exists r, try_parse_stage z = Ret r /\ forall s, r = Ok s <-> 0 < s /\ z = Z.of_nat s).
  { intros z Hz. unfold try_parse_stage. destruct (Z.leb_spec 0 z).
    - rewrite (proj1 (proj2 (proj2 C03_stages_are_never_zero))) by lia. cbn [bind]. eexists. split; [reflexivity|].
      intros s. split; [intros [= <-]; lia|]. intros [_ ->]. rewrite Nat2Z.id. reflexivity.
    - eexists. split; [reflexivity|]. intros s. split; [discriminate|lia]. }
  assert (N1 : forall n, Z.of_N n <> 0%Z -> exists r : result stage serde_error, Base.bind (stage_new (N.to_nat n)) (fun s => Ret (Ok s)) = Ret r /\ forall s, r = @Ok stage serde_error s <-> 0 < s /\ Z.of_N n = Z.of_nat s).
  { intros n Hn. rewrite (proj1 (proj2 (proj2 C03_stages_are_never_zero))) by lia. cbn [bind]. eexists. split; [reflexivity|].
    intros s. split; [intros [= <-]; lia|]. intros [_ H]. f_equal. lia. }
  assert (T1 : forall t, exists r, stage_visit_str lower t = Ret r /\ forall s, r = Ok s <-> 0 < s /\ exists n, stage_name s = Some n /\ lower t = map ascii_lower n).
  { intros t. unfold stage_visit_str. eexists. split; [reflexivity|]. intros s.
    destruct C03_stage_names_round_trip as (C1 & C2 & _).
    destruct (stage_from_lower_case_name (lower t)) as [s'|] eqn:E.
    - split.
      + intros [= <-]. apply C2 in E as (n & En & Et). assert (1 <= s' <= 22) by (apply C1; eauto). split; [lia|eauto].
      + intros (_ & n & En & Et). assert (X : stage_from_lower_case_name (lower t) = Some s) by (apply C2; eauto). congruence.
    - split; [discriminate|]. intros (_ & n & En & Et). assert (X : stage_from_lower_case_name (lower t) = Some s) by (apply C2; eauto). congruence. }
  assert (HZ : forall z (P : Prop), ~ P -> forall s, (0 < s /\ (Some z = Some (Z.of_nat s) \/ P)) <-> (0 < s /\ z = Z.of_nat s)).
  { intros z P HP s. split; [intros (A & [[= ->]|B]); [auto|tauto]|intros (A & ->); auto]. }
  assert (HT : forall t, (forall s, (0 < s /\ (None = Some (Z.of_nat s) \/ exists t0 n, Some t = Some t0 /\ stage_name s = Some n /\ lower t0 = map ascii_lower n)) <->
     (0 < s /\ exists n, stage_name s = Some n /\ lower t = map ascii_lower n))).
  { intros t s. split; [intros (A & [[=]|(t0 & n & [= <-] & B)]); eauto|intros (A & n & B); split; auto; right; eauto]. }
  destruct v; cbn [number_of text_of stage_visit] in *.
  1-8: (destruct (Z1 v) as (r & E & H) || destruct (N1 v) as (r & E & H)); [congruence|]; exists r; split; auto;
    intros s; rewrite H, HZ; [reflexivity|intros (? & ? & [=] & _)].
  1-2: (destruct (T1 [c]) as (r & E & H) || destruct (T1 t) as (r & E & H)); exists r; split; auto; intros s; rewrite H, HT; reflexivity.
  eexists. split; [reflexivity|]. intros s. split; [discriminate|]. intros (_ & [[=]|(? & ? & [=] & _)]).
Qed.

(** C66: a bell which is serialised and deserialised does not come back: the treble is refused, and
    every other bell becomes the one before it, because bells are written counting from 0 and read
    counting from 1. *)
Theorem C66_bell_round_trip_refuted :
  forall b, bell_visit (bell_serialize b) = Ret (match b with 0 => Err InvalidValue | S b' => Ok b' end) /\
    bell_visit (bell_serialize b) <> Ret (Ok b).
Proof.
  intros b. unfold bell_serialize, bell_visit. rewrite Nat2N.id. split; destruct b as [|b]; cbn; auto; try discriminate.
  intros [= H]. lia.
Qed.

(** C66: deserialising a bell never panics; it gives a bell exactly when the value is its number,
    counted from 1, or its name; otherwise an error. *)
Theorem C66_bell_from_any_input :
  forall v, exists r, bell_visit v = Ret r /\ forall b, r = Ok b <-> gives_bell v b.
Proof.
  intros v. unfold gives_bell. destruct C02_bell_numbers_and_tenor as (N0 & N1 & N2 & _). destruct C01_bell_names_are_a_bijection as (B0 & _).
  assert (Z1 : forall z, exists r, try_parse_bell z = Ret r /\ forall b, r = Ok b <-> z = (Z.of_nat b + 1)%Z).
  { intros z. unfold try_parse_bell. destruct (Z.ltb_spec 0 z).
    - destruct (bell_from_number (Z.to_nat z)) as [b0|] eqn:E; [|apply N0 in E; lia]. cbn. eexists. split; [reflexivity|].
      apply N1 in E. rewrite N2 in E. intros b. split; [intros [= <-]; lia|intros ->; f_equal; lia].
    - eexists. split; [reflexivity|]. intros b. split; [discriminate|lia]. }
  assert (HZ : forall z (P : Prop), ~ P -> forall b, (Some z = Some (Z.of_nat b + 1)%Z \/ P) <-> z = (Z.of_nat b + 1)%Z).
  { intros z P HP b. split; [intros [[= ->]|B]; [auto|tauto]|intros ->; auto]. }
  assert (X : forall t, ~ exists c, @None (list N) = Some [c] /\ bell_to_char t = Some c) by (intros t (? & [=] & _)).
  assert (CH : forall c b, ok_or_invalid (bell_from_name c) = Ok b <-> bell_to_char b = Some c).
  { intros c b. rewrite <- B0. destruct (bell_from_name c) as [b0|]; cbn; split; congruence. }
  destruct v; cbn [number_of text_of bell_visit] in *.
  1-4: destruct (Z1 v) as (r & E & H); exists r; split; auto; intros b; rewrite H, HZ; [reflexivity|auto].
  1-3: destruct (Z1 (Z.of_N v)) as (r & E & H); exists r; split; auto; intros b; rewrite H, HZ; [reflexivity|auto].
  - eexists. split; [reflexivity|]. intros b. rewrite HZ by auto.
    destruct (bell_from_number (N.to_nat v)) as [b0|] eqn:E; cbn.
    + apply N1 in E. rewrite N2 in E. split; [intros [= <-]; lia|intros H; f_equal; lia].
    + apply N0 in E. split; [discriminate|lia].
  - eexists. split; [reflexivity|]. intros b. rewrite CH. split; [intros H; right; eauto|intros [[=]|(c' & [= <-] & H)]; auto].
  - destruct (Nat.eqb_spec (byte_len t) 1) as [L|L]; cbn [negb]; (eexists; split; [reflexivity|]); intros b.
    + destruct t as [|c t]; [discriminate|]. assert (t = []) as ->.
      { destruct t as [|c2 t]; auto. exfalso. unfold byte_len in L. cbn in L. pose proof (char_len_pos c). pose proof (char_len_pos c2). lia. }
      rewrite CH. split; [intros H; right; eauto|intros [[=]|(c' & [= <-] & H)]; auto].
    + split; [discriminate|]. intros [[=]|(c & [= ->] & H)]. exfalso. apply L.
      apply bell_chars_are_ascii in H. auto.
  - eexists. split; [reflexivity|]. intros b. split; [discriminate|]. intros [[=]|H]. exfalso. eapply X; eauto.
Qed.

Example C66_examples :
  stage_visit (map ascii_lower) (VStr (s2l "MaJOR")) = Ret (Ok 8) /\
  stage_visit (map ascii_lower) (VI8 (-3)) = Ret (Err InvalidValue) /\
  stage_visit (map ascii_lower) VOther = Ret (Err InvalidType) /\
  bell_visit (VStr (s2l "E")) = Ret (Ok 10) /\ bell_visit (VI16 3) = Ret (Ok 2) /\
  bell_visit (VU64 0) = Ret (Err InvalidValue) /\ bell_visit (VStr (s2l "12")) = Ret (Err InvalidValue).
Proof. repeat split. Qed.
