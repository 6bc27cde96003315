(** Properties C86 to C89: the JSON text of a library, and the cached library of the Central Council. *)

(* Generated from tools/props/Cache.src: the proofs behind PropsCache.v. *)
From Verif Require Import Base Spec ListFacts Bell Stage Class Method Library Serde Json JsonFacts Utf8 Cache SpecLib
  SpecJson SpecCache Utf8Facts FormFacts CacheFacts LibFacts PropsBell LibThms PropsLib.
Local Open Scope string_scope.
Local Open Scope list_scope.

Lemma pf_C86_text_round_trip :
  forall to_lowercase lib_order stage_order group_order lib,
    (forall l, Permutation l (lib_order l)) -> (forall l, Permutation l (stage_order l)) ->
    (forall l, Permutation l (group_order l)) ->
    keys_differ lib -> proper to_lowercase lib ->
    exists text lib', to_json lib_order stage_order group_order lib = Ret text /\
      from_json to_lowercase text = Ret (Some lib') /\ keys_differ lib' /\
      (forall s k cm, entry lib' s k cm <-> entry lib s k cm) /\
      forall title, get_by_title to_lowercase lib' title = get_by_title to_lowercase lib title.
Proof.
  intros lower lo so go lib P1 P2 P3 D Pr.
  destruct (pf_C65_round_trip lower lo so go lib P1 P2 P3 D Pr) as (compact & lib' & E & E' & D' & He & Hg).
  destruct (pf_C65_json_round_trip lower lo so go lib P1 P2 P3 D Pr) as (compact2 & E2 & J).
  rewrite E in E2. injection E2 as <-.
  exists (json_write (lib_to_json compact)), lib'. unfold to_json, from_json. rewrite E. cbn [bind].
  rewrite json_read_write by apply lib_to_json_plain. cbn [bind]. rewrite J, E'. splits; auto.
Qed.

Lemma pf_C86_reading_any_text :
  forall to_lowercase text,
    ((exists compact, text_form text compact /\ exists g, In g compact /\ bad_group g) ->
       from_json to_lowercase text = Panic) /\
    (forall compact, text_form text compact -> (forall g, In g compact -> ~ bad_group g) ->
       exists lib, from_json to_lowercase text = Ret (Some lib) /\ keys_differ lib /\
         forall s k cm, entry lib s k cm <->
           exists before gc after, methods_of compact = before ++ gc :: after /\
             stands_for to_lowercase gc s k cm /\
             forall gc' cm', In gc' after -> ~ stands_for to_lowercase gc' s k cm') /\
    ((forall compact, ~ text_form text compact) -> from_json to_lowercase text = Ret None).
Proof.
  intros lower text.
  assert (U : forall compact, text_form text compact ->
    from_json lower text = (lib <- lib_from_serde lower compact;; Ret (Some lib))).
  { intros compact T. apply text_form_iff in T as (j & R & J). unfold from_json. rewrite R. cbn [bind]. rewrite J. auto. }
  splits.
  - intros (compact & T & B). rewrite (U _ T). destruct (pf_C65_unpacking lower compact) as [H _]. rewrite H; auto.
  - intros compact T B. rewrite (U _ T). destruct (pf_C65_unpacking lower compact) as [_ H].
    destruct H as (lib & E & D & _ & En); auto. exists lib. rewrite E. auto.
  - intros N. unfold from_json. destruct (json_read_total text) as [[j|] R]; rewrite R; cbn [bind]; auto.
    destruct (lib_from_json j) as [compact|] eqn:J; auto. exfalso. apply (N compact). apply text_form_iff. exists j. auto.
Qed.

Lemma pf_C86_values_round_trip :
  forall j, plain j = true -> json_read (json_write j) = Ret (Some j).
Proof. exact json_read_write. Qed.

Lemma pf_C87_good_cache_is_used :
  forall to_lowercase text lib, rust_text text -> from_json to_lowercase text = Ret (Some lib) ->
    forall history,
      run_history to_lowercase true history (Some (utf8_encode text)) =
        Ret (map (fun e => match e with
                           | Call _ _ => Returned (Some lib) false
                           | Killed _ _ _ => Stopped
                           end) history, Some (utf8_encode text)).
Proof.
  intros lower text lib S H history. apply run_history_good; auto. apply load_full; auto. apply rust_text_scalar; auto.
Qed.

Lemma pf_C87_bytes_of_texts :
  forall text bytes,
    (utf8_decode bytes = Some text <-> utf8 text bytes) /\
    (utf8 text bytes <-> rust_text text /\ bytes = utf8_encode text).
Proof.
  assert (I : forall t b, utf8 t b <-> rust_text t /\ b = utf8_encode t).
  { intros t b. split.
    - intros H. split; [eapply utf8_text; eauto|apply utf8_encode_unique; auto].
    - intros [H ->]. apply encode_utf8; auto. }
  intros text bytes. split; auto. split; [apply decode_utf8|]. intros H. apply I in H as [H ->].
  apply utf8_round_trip. apply rust_text_scalar; auto.
Qed.

Lemma pf_C87_fetch_saves :
  forall to_lowercase text lib, rust_text text -> from_json to_lowercase text = Ret (Some lib) ->
    forall k, length (utf8_encode text) <= k ->
    cc_lib to_lowercase true (Some text) (Writes k) None = Ret (Some lib, Some (utf8_encode text), true) /\
    (forall history, exists endings,
       run_history to_lowercase true (Call (Some text) (Writes k) :: history) None =
         Ret (Returned (Some lib) true :: endings, Some (utf8_encode text)) /\
       forall r requested, In (Returned r requested) endings -> r = Some lib /\ requested = false) /\
    (forall net w, net = None \/ (exists bad, net = Some bad /\ from_json to_lowercase bad = Ret None) ->
       cc_lib to_lowercase true net w None = Ret (None, None, true)).
Proof.
  intros lower text lib S H k L.
  assert (E : cc_lib lower true (Some text) (Writes k) None = Ret (Some lib, Some (utf8_encode text), true)).
  { unfold cc_lib, load_cc_lib_from_cache, fetch_cc_lib. cbn [bind]. rewrite H. cbn [bind write_file]. rewrite firstn_all2; auto. }
  splits; auto.
  - intros history. eexists. split.
    + cbn [run_history run_event]. rewrite E. cbn [bind].
      rewrite (pf_C87_good_cache_is_used lower text lib S H). cbn [bind]. reflexivity.
    + intros r b Hin. apply in_map_iff in Hin as (e & E1 & _). destruct e; [injection E1 as <- <-; auto|discriminate].
  - intros net w [->|(bad & -> & B)]; unfold cc_lib, load_cc_lib_from_cache, fetch_cc_lib; cbn [bind]; [auto|].
    rewrite B. auto.
Qed.

Lemma pf_C87_histories :
  forall to_lowercase has_dir history,
    (forall i text, served history i text -> rust_text text) ->
    exists endings f, run_history to_lowercase has_dir history None = Ret (endings, f) /\
      length endings = length history /\
      (forall i lib requested, nth_error endings i = Some (Returned (Some lib) requested) ->
         exists j text, j <= i /\ served history j text /\ from_json to_lowercase text = Ret (Some lib) /\
           (requested = true -> j = i)) /\
      (forall i requested, nth_error endings i = Some (Returned None requested) ->
         requested = true /\
         ((exists w, nth_error history i = Some (Call None w)) \/
          exists text, served history i text /\ from_json to_lowercase text = Ret None)) /\
      (forall i, nth_error endings i = Some Panicked ->
         exists text, served history i text /\ from_json to_lowercase text = Panic).
Proof.
  intros lower dir es Hs.
  destruct (run_history_ok lower dir es [] None I) as (rs & f & E & L & _ & G).
  { intros i t H. apply rust_text_scalar. eapply Hs; eauto. }
  exists rs, f. splits; auto.
  - intros i lib b H.
    assert (Hi : i < length es) by (rewrite <- L; apply nth_error_Some; congruence).
    destruct (nth_error es i) as [e|] eqn:Ee; [|apply nth_error_None in Ee; lia].
    specialize (G i e _ Ee H). cbn [app] in G. destruct G as (j & t & Sv & F & Q).
    assert (Es : firstn i es ++ [e] = firstn (S i) es) by (apply firstn_snoc; auto).
    rewrite Es in Sv.
    assert (Hj : j <= i).
    { assert (j < length (firstn (S i) es)) by (destruct Sv as [(w & X)|(k & z & X)]; apply nth_error_Some; congruence).
      rewrite firstn_length in H0. lia. }
    exists j, t. splits; auto.
    + rewrite <- (firstn_skipn (S i) es). apply served_app. auto.
    + intros B. rewrite (Q B), firstn_length. lia.
  - intros i b H.
    assert (Hi : i < length es) by (rewrite <- L; apply nth_error_Some; congruence).
    destruct (nth_error es i) as [e|] eqn:Ee; [|apply nth_error_None in Ee; lia].
    destruct (G i e _ Ee H) as [B [(w & ->)|(w & t & -> & F)]]; split; auto; [left; eauto|].
    right. exists t. split; auto. left. eauto.
  - intros i H.
    assert (Hi : i < length es) by (rewrite <- L; apply nth_error_Some; congruence).
    destruct (nth_error es i) as [e|] eqn:Ee; [|apply nth_error_None in Ee; lia].
    destruct (G i e _ Ee H) as (w & t & -> & F). exists t. split; auto. left. eauto.
Qed.

Lemma pf_C88_bad_cache_refuted :
  exists text, forall to_lowercase history,
    run_history to_lowercase true history (Some (utf8_encode text)) =
      Ret (map (fun e => match e with Call _ _ => Panicked | Killed _ _ _ => Stopped end) history,
           Some (utf8_encode text)).
Proof.
  exists (s2l "{""groups"":[{""s"":6,""c"":9,""m"":[]}]}"). intros lower es. set (b := utf8_encode _).
  assert (E : load_bytes lower b = Panic) by (vm_compute; reflexivity). clearbody b.
  induction es as [|e es IH]; [reflexivity|]. cbn [run_history map].
  assert (X : run_event lower true e (Some b) = Ret (match e with Call _ _ => Panicked | Killed _ _ _ => Stopped end, Some b)).
  { destruct e; cbn [run_event]; unfold cc_lib, load_cc_lib_from_cache; rewrite E; reflexivity. }
  rewrite X. cbn [bind]. rewrite IH. reflexivity.
Qed.

Lemma pf_C88_bad_cache_partial :
  forall to_lowercase bytes,
    (forall text compact, utf8 text bytes -> ~ text_form text compact) ->
    forall net w,
      (cc_lib to_lowercase true net w None = Panic -> cc_lib to_lowercase true net w (Some bytes) = Panic) /\
      (forall r f requested, cc_lib to_lowercase true net w None = Ret (r, f, requested) ->
         cc_lib to_lowercase true net w (Some bytes) =
           Ret (r, match f with Some new => Some new | None => Some bytes end, true)).
Proof.
  intros lower bytes H net w.
  assert (E : load_bytes lower bytes = Ret None).
  { unfold load_bytes. destruct (utf8_decode bytes) as [text|] eqn:D; auto.
    destruct (pf_C86_reading_any_text lower text) as (_ & _ & X). apply X. intros compact. apply H. apply decode_utf8; auto. }
  unfold cc_lib, load_cc_lib_from_cache. rewrite E. cbn [bind]. unfold fetch_cc_lib. destruct net as [t|].
  - destruct (from_json_cases lower t) as [[o F]|F]; rewrite F; cbn [bind]; [|split; auto; discriminate].
    destruct o as [lib|]; cbn [bind]; (split; [discriminate|]); intros r f b [= <- <- <-]; auto.
    destruct w; auto.
  - cbn [bind]. split; [discriminate|]. intros r f b [= <- <- <-]. auto.
Qed.

Lemma pf_C89_different_texts_refuted :
  exists lib,
    (forall text, text = old_text \/ text = new_text -> from_json (map ascii_lower) text <> Ret (Some lib)) /\
    exists f calls,
      system_steps (map ascii_lower) true (fun a => a = Some old_text \/ a = Some new_text) (None, []) (f, calls) /\
      In (Done (Some lib)) calls.
Proof.
  destruct (from_json (map ascii_lower) mixed_text) as [[lib|]| | |] eqn:EM;
    [|exfalso; revert EM; vm_compute; discriminate ..].
  destruct (from_json (map ascii_lower) old_text) as [[lib1|]| | |] eqn:E1;
    [|exfalso; revert E1; vm_compute; discriminate ..].
  destruct (from_json (map ascii_lower) new_text) as [[lib2|]| | |] eqn:E2;
    [|exfalso; revert E2; vm_compute; discriminate ..].
  exists lib. split.
  { intros text [->| ->] H; rewrite <- EM in H; revert H; vm_compute; discriminate. }
  set (ans := fun a => a = Some old_text \/ a = Some new_text).
  pose (steps := system_steps (map ascii_lower) true ans (None, [])).
  assert (Add : forall f calls, steps (f, calls) -> steps (f, calls ++ [Starting]))
    by (intros f calls H; exact (OneStep _ _ _ _ _ _ H (NewCall _ _ _ f calls))).
  assert (Go : forall f before s after f' s', steps (f, before ++ s :: after) ->
            call_step (map ascii_lower) true ans f s f' s' -> steps (f', before ++ s' :: after))
    by (intros f before s after f' s' H S; exact (OneStep _ _ _ _ _ _ H (StepCall _ _ _ f f' before s s' after S))).
  assert (H0 : steps (None, [])) by apply NoStep.
  apply Add, Add in H0. cbn [app] in H0.
  eapply (Go _ [] _ _ None Fetching) in H0; [|apply OpenFails].
  eapply (Go _ [Fetching] _ _ None Fetching) in H0; [|apply OpenFails].
  eapply (Go _ [] _ _ None (Saving old_text lib1)) in H0; [|apply Answer; [left; auto|exact E1]].
  eapply (Go _ [_] _ _ None (Saving new_text lib2)) in H0; [|apply Answer; [right; auto|exact E2]].
  eapply (Go _ [] _ _ (Some []) (Writing old_text lib1 0)) in H0; [|apply Creates; auto].
  eapply (Go _ [] _ _ _ _) in H0; [|apply (WritesSome _ _ _ _ old_text lib1 0 40); discriminate].
  match type of H0 with steps (?f, _) => let x := eval vm_compute in f in change f with x in H0 end.
  eapply (Go _ [_] _ _ (Some []) (Writing new_text lib2 0)) in H0; [|apply Creates; auto].
  eapply (Go _ [_] _ _ _ _) in H0; [|apply (WritesSome _ _ _ _ new_text lib2 0 100); discriminate].
  eapply (Go _ [_] _ _ _ (Done (Some lib2))) in H0; [|apply WriteEnds].
  eapply (Go _ [] _ _ _ _) in H0; [|apply (WritesSome _ _ _ _ old_text lib1 (0 + 40) 100); discriminate].
  eapply (Go _ [] _ _ _ (Done (Some lib1))) in H0; [|apply WriteEnds].
  match type of H0 with steps (Some ?f, _) =>
    assert (EF : f = utf8_encode mixed_text) by (vm_compute; reflexivity); rewrite EF in H0; clear EF end.
  apply Add in H0. cbn [app] in H0.
  eapply (Go _ [_; _] _ _ _ (Reading [])) in H0; [|apply Opens; auto].
  eapply (Go _ [_; _] _ _ _ _) in H0; [|apply (Reads _ _ _ _ [] 100); discriminate].
  match type of H0 with steps (_, _ ++ [Reading ?f]) =>
    assert (EF : f = utf8_encode mixed_text) by (vm_compute; reflexivity); rewrite EF in H0; clear EF end.
  eapply (Go _ [_; _] _ _ _ (Done (Some lib))) in H0; [|apply Loads; [auto|]].
  - do 2 eexists. split; [exact H0|]. cbn. auto.
  - unfold load_bytes. rewrite utf8_round_trip by reflexivity. exact EM.
Qed.

Lemma pf_C89_overlapping_calls_partial :
  forall to_lowercase has_dir (answers : option (list N) -> Prop) text lib,
    rust_text text -> from_json to_lowercase text = Ret (Some lib) ->
    (forall a, answers a -> a = None \/ a = Some text) ->
    forall start f calls, (start = None \/ exists k, start = Some (firstn k (utf8_encode text))) ->
      system_steps to_lowercase has_dir answers (start, []) (f, calls) ->
      forall s, In s calls ->
        s <> Panicking /\
        (forall lib', s = Done (Some lib') -> lib' = lib) /\
        (s = Done None -> answers None).
Proof.
  intros lower dir answers text lib Ht Hlib Ha start f calls Hs H s Hin.
  destruct (system_steps_ok lower dir answers text lib (rust_text_scalar _ Ht) Hlib Ha _ _ H) as [_ F].
  { cbn. split; auto. destruct Hs as [->|(k & ->)]; cbn; auto. apply partly_firstn. }
  cbn [snd] in F. rewrite Forall_forall in F. specialize (F s Hin). splits.
  - intros ->. exact F.
  - intros lib' ->. exact F.
  - intros ->. exact F.
Qed.
