(** Properties C86 to C89: the JSON text of a library, and the cached library of the Central Council. *)

(* Generated from tools/props/Cache.src; the proofs are in CacheThms.v. *)
From Verif Require Import Base Spec ListFacts Bell Stage Class Method Library Serde Json JsonFacts Utf8 Cache SpecLib
  SpecJson SpecCache Utf8Facts FormFacts CacheFacts LibFacts PropsBell LibThms PropsLib.
Local Open Scope string_scope.
Local Open Scope list_scope.
From Verif Require Import CacheThms.

(** C86: a library which is written as a JSON text and read from it again has exactly the same entries,
    and the same result for every search, in whatever order the hash maps are iterated over. *)
Theorem C86_text_round_trip :
  forall to_lowercase lib_order stage_order group_order lib,
    (forall l, Permutation l (lib_order l)) -> (forall l, Permutation l (stage_order l)) ->
    (forall l, Permutation l (group_order l)) ->
    keys_differ lib -> proper to_lowercase lib ->
    exists text lib', to_json lib_order stage_order group_order lib = Ret text /\
      from_json to_lowercase text = Ret (Some lib') /\ keys_differ lib' /\
      (forall s k cm, entry lib' s k cm <-> entry lib s k cm) /\
      forall title, get_by_title to_lowercase lib' title = get_by_title to_lowercase lib title.
Proof. exact pf_C86_text_round_trip. Qed.
Print Assumptions C86_text_round_trip.

(** C86: reading any text ends, with a library, an error, or a panic; it panics exactly when the text
    is JSON with the fields of a library but with a group which has no bells, an unknown class number,
    or a method without a title on a stage without a name. *)
Theorem C86_reading_any_text :
  forall to_lowercase text,
    ((exists compact, text_form text compact /\ exists g, In g compact /\ bad_group g) ->
       from_json to_lowercase text = Panic) /\
    (forall compact, text_form text compact -> (forall g, In g compact -> ~ bad_group g) ->
       exists lib, from_json to_lowercase text = Ret (Some lib) /\ keys_differ lib /\
         forall s k cm, entry lib s k cm <->
           exists before gc after, methods_of compact = before ++ gc :: after /\
             stands_for to_lowercase gc s k cm /\
             forall gc' cm', In gc' after -> ~ stands_for to_lowercase gc' s k cm') /\
    ((forall compact, ~ text_form text compact) -> from_json to_lowercase text = Ret None).
Proof. exact pf_C86_reading_any_text. Qed.
Print Assumptions C86_reading_any_text.

(** C86: any JSON value without numbers which are not natural ones is read back as it was written,
    whatever its nesting and its texts. *)
Theorem C86_values_round_trip :
  forall j, plain j = true -> json_read (json_write j) = Ret (Some j).
Proof. exact pf_C86_values_round_trip. Qed.
Print Assumptions C86_values_round_trip.

(** A text as [to_json] makes it, and the library which is read from it: the title of the second
    method is not the one made from its name, so it is written out. *)
Definition example_text : list N :=
  s2l "{""groups"":[{""s"":6,""c"":3,""m"":[{""n"":""Plain"",""p"":""-16-16-16,12""},{""t"":""x\""\u0001 "
  ++ [233; 128276]%N ++ s2l """,""n"":"""",""p"":""-""}]}]}".
Example C86_example :
  exists lib, from_json (map ascii_lower) example_text = Ret (Some lib) /\ keys_differ lib /\
    map (fun '(s, ms) => (s, map fst ms)) lib =
      [(6, [s2l "plain treble bob minor"; s2l "x" ++ [34; 1; 32; 233; 128276]%N])] /\
    to_json (fun l => l) (fun l => l) (fun l => l) lib = Ret example_text /\
    (* spaces, other orders of fields, unknown fields and other escapes are accepted *)
    from_json (map ascii_lower)
      (s2l " { ""z"" : -1.5e3 , ""groups"": [ { ""m"":[],""c"" :3, ""s"": 6, ""j"":true, ""q"":{""\ud800"":[ ]} } ] } ") =
      Ret (Some [(6, [])]) /\
    from_json (map ascii_lower) (s2l "{""groups"":[],}") = Ret None /\
    from_json (map ascii_lower) (s2l "{""groups"":[{""s"":6,""c"":9,""m"":[]}]}") = Panic.
Proof.
  eexists. split; [vm_compute; reflexivity|]. splits; try (vm_compute; reflexivity).
  split.
  - apply NoDup_cons; [intros []|apply NoDup_nil].
  - intros s ms [H|[]]. injection H as <- <-. repeat constructor; cbn; intuition discriminate.
Qed.

(** C87: once the file holds a library, every later call returns that library, without a request and
    whatever the network and the disk do, and leaves the file as it is. *)
Theorem C87_good_cache_is_used :
  forall to_lowercase text lib, rust_text text -> from_json to_lowercase text = Ret (Some lib) ->
    forall history,
      run_history to_lowercase true history (Some (utf8_encode text)) =
        Ret (map (fun e => match e with
                           | Call _ _ => Returned (Some lib) false
                           | Killed _ _ _ => Stopped
                           end) history, Some (utf8_encode text)).
Proof. exact pf_C87_good_cache_is_used. Qed.
Print Assumptions C87_good_cache_is_used.

(** C87: the bytes of a text are its encoding in UTF-8, and bytes are accepted as a text exactly when
    they are the encoding of one; each has one encoding and stands for one text. *)
Theorem C87_bytes_of_texts :
  forall text bytes,
    (utf8_decode bytes = Some text <-> utf8 text bytes) /\
    (utf8 text bytes <-> rust_text text /\ bytes = utf8_encode text).
Proof. exact pf_C87_bytes_of_texts. Qed.
Print Assumptions C87_bytes_of_texts.

Example C87_bytes_example :
  utf8 [233; 65; 8364; 128276]%N [195; 169; 65; 226; 130; 172; 240; 159; 148; 148]%N /\
  (forall t, ~ utf8 t [192; 128]%N) /\ (forall t, ~ utf8 t [237; 160; 128]%N) /\ (forall t, ~ utf8 t [195]%N).
Proof.
  splits; try (intros t H; apply (proj1 (pf_C87_bytes_of_texts _ _)) in H; discriminate).
  apply (proj1 (pf_C87_bytes_of_texts _ _)). reflexivity.
Qed.

(** C87: a call which finds no file makes a request, returns the library which is served, and saves
    the text exactly as served, so that all later calls need no request.  When the request fails or
    the text is not a library, the result is [None] and nothing is saved. *)
Theorem C87_fetch_saves :
  forall to_lowercase text lib, rust_text text -> from_json to_lowercase text = Ret (Some lib) ->
    forall k, length (utf8_encode text) <= k ->
    cc_lib to_lowercase true (Some text) (Writes k) None = Ret (Some lib, Some (utf8_encode text), true) /\
    (forall history, exists endings,
       run_history to_lowercase true (Call (Some text) (Writes k) :: history) None =
         Ret (Returned (Some lib) true :: endings, Some (utf8_encode text)) /\
       forall r requested, In (Returned r requested) endings -> r = Some lib /\ requested = false) /\
    (forall net w, net = None \/ (exists bad, net = Some bad /\ from_json to_lowercase bad = Ret None) ->
       cc_lib to_lowercase true net w None = Ret (None, None, true)).
Proof. exact pf_C87_fetch_saves. Qed.
Print Assumptions C87_fetch_saves.

(** C87: every history of calls which starts without a file, with any answers to the requests, any
    errors while writing, and processes or the machine stopping at any point of a write: each call
    which returns a library returns the one of a text that was served to it, if it made a request, or
    to an earlier call; [None] means that a request was made and failed, or was answered with a text
    which is no library; and a call panics only because of the text which was served to it, never
    because of the file. *)
Theorem C87_histories :
  forall to_lowercase has_dir history,
    (forall i text, served history i text -> rust_text text) ->
    exists endings f, run_history to_lowercase has_dir history None = Ret (endings, f) /\
      length endings = length history /\
      (forall i lib requested, nth_error endings i = Some (Returned (Some lib) requested) ->
         exists j text, j <= i /\ served history j text /\ from_json to_lowercase text = Ret (Some lib) /\
           (requested = true -> j = i)) /\
      (forall i requested, nth_error endings i = Some (Returned None requested) ->
         requested = true /\
         ((exists w, nth_error history i = Some (Call None w)) \/
          exists text, served history i text /\ from_json to_lowercase text = Ret None)) /\
      (forall i, nth_error endings i = Some Panicked ->
         exists text, served history i text /\ from_json to_lowercase text = Panic).
Proof. exact pf_C87_histories. Qed.
Print Assumptions C87_histories.

(** A history: the first process stops in the middle of the write, the second call finds that the
    file is no library and repairs it, the third one needs no request. *)
Example C87_example :
  exists lib, rust_text example_text /\ from_json (map ascii_lower) example_text = Ret (Some lib) /\ lib <> [] /\
    run_history (map ascii_lower) true
      [Killed (Some example_text) 40 7; Call None CreateFails; Call (Some (s2l "oops")) CreateFails;
       Call (Some example_text) (Writes 1000); Call None CreateFails] None =
    Ret ([Stopped; Returned None true; Returned None true; Returned (Some lib) true; Returned (Some lib) false],
         Some (utf8_encode example_text)).
Proof.
  eexists. split; [repeat (apply Forall_cons; [first [left; reflexivity|right; split; [discriminate|reflexivity]]|]); apply Forall_nil|].
  split; [vm_compute; reflexivity|]. split; [discriminate|]. vm_compute. reflexivity.
Qed.

(** C88: a cache file which cannot be loaded does not always count as no file: a file with an unknown
    class number makes all calls panic for ever, although the network would serve a good library. *)
Theorem C88_bad_cache_refuted :
  exists text, forall to_lowercase history,
    run_history to_lowercase true history (Some (utf8_encode text)) =
      Ret (map (fun e => match e with Call _ _ => Panicked | Killed _ _ _ => Stopped end) history,
           Some (utf8_encode text)).
Proof. exact pf_C88_bad_cache_refuted. Qed.
Print Assumptions C88_bad_cache_refuted.

(** C88 (partial: without the groups which cannot be unpacked): bytes which are not UTF-8, not JSON or
    not the fields of a library give the same result as no file, and the file is replaced by what is
    served. *)
Theorem C88_bad_cache_partial :
  forall to_lowercase bytes,
    (forall text compact, utf8 text bytes -> ~ text_form text compact) ->
    forall net w,
      (cc_lib to_lowercase true net w None = Panic -> cc_lib to_lowercase true net w (Some bytes) = Panic) /\
      (forall r f requested, cc_lib to_lowercase true net w None = Ret (r, f, requested) ->
         cc_lib to_lowercase true net w (Some bytes) =
           Ret (r, match f with Some new => Some new | None => Some bytes end, true)).
Proof. exact pf_C88_bad_cache_partial. Qed.
Print Assumptions C88_bad_cache_partial.

Example C88_example :
  exists lib, from_json (map ascii_lower) example_text = Ret (Some lib) /\ lib <> [] /\
    cc_lib (map ascii_lower) true (Some example_text) (Writes 1000) (Some [123; 200]%N) =
      Ret (Some lib, Some (utf8_encode example_text), true) /\
    cc_lib (map ascii_lower) true (Some example_text) (Writes 1000) (Some (s2l "{""groups"":[{}]}")) =
      Ret (Some lib, Some (utf8_encode example_text), true).
Proof.
  eexists. split; [vm_compute; reflexivity|]. split; [discriminate|]. split; vm_compute; reflexivity.
Qed.

(** C89: calls at the same time can leave a file which is half one text and half another, and a call
    which reads it returns a library that nobody served (here: the new name with the old notation). *)
Theorem C89_different_texts_refuted :
  exists lib,
    (forall text, text = old_text \/ text = new_text -> from_json (map ascii_lower) text <> Ret (Some lib)) /\
    exists f calls,
      system_steps (map ascii_lower) true (fun a => a = Some old_text \/ a = Some new_text) (None, []) (f, calls) /\
      In (Done (Some lib)) calls.
Proof. exact pf_C89_different_texts_refuted. Qed.
Print Assumptions C89_different_texts_refuted.

(** C89 (partial: all requests which succeed are answered with the same text): however the calls
    overlap, in pieces of whatever size they read and write, and wherever they fail or stop, each call
    which returns gives the library of that text, or [None] after a request which failed; none
    panics.  It does not matter whether the file is missing, whole or cut off at the beginning. *)
Theorem C89_overlapping_calls_partial :
  forall to_lowercase has_dir (answers : option (list N) -> Prop) text lib,
    rust_text text -> from_json to_lowercase text = Ret (Some lib) ->
    (forall a, answers a -> a = None \/ a = Some text) ->
    forall start f calls, (start = None \/ exists k, start = Some (firstn k (utf8_encode text))) ->
      system_steps to_lowercase has_dir answers (start, []) (f, calls) ->
      forall s, In s calls ->
        s <> Panicking /\
        (forall lib', s = Done (Some lib') -> lib' = lib) /\
        (s = Done None -> answers None).
Proof. exact pf_C89_overlapping_calls_partial. Qed.
Print Assumptions C89_overlapping_calls_partial.

(** The second call reads the file between two writes of the first one, which leaves it with a part of
    the text, and so it makes a request itself. *)
Example C89_example :
  exists lib f, rust_text old_text /\ from_json (map ascii_lower) old_text = Ret (Some lib) /\ lib <> [] /\
    system_steps (map ascii_lower) true (fun a => a = Some old_text) (None, [])
      (Some f, [Writing old_text lib 40; Saving old_text lib]) /\ length f = 40.
Proof.
  destruct (from_json (map ascii_lower) old_text) as [[lib|]| | |] eqn:E;
    [|exfalso; revert E; vm_compute; discriminate ..].
  exists lib, (firstn 40 (utf8_encode old_text)).
  split; [repeat (apply Forall_cons; [first [left; reflexivity|right; split; [discriminate|reflexivity]]|]); apply Forall_nil|].
  split; [reflexivity|]. split; [revert E; vm_compute; intros [= <-]; discriminate|]. split; [|reflexivity].
  set (ans := fun a => a = Some old_text).
  pose (steps := system_steps (map ascii_lower) true ans (None, [])).
  assert (Add : forall f calls, steps (f, calls) -> steps (f, calls ++ [Starting]))
    by (intros f calls H; exact (OneStep _ _ _ _ _ _ H (NewCall _ _ _ f calls))).
  assert (Go : forall f before s after f' s', steps (f, before ++ s :: after) ->
            call_step (map ascii_lower) true ans f s f' s' -> steps (f', before ++ s' :: after))
    by (intros f before s after f' s' H S; exact (OneStep _ _ _ _ _ _ H (StepCall _ _ _ f f' before s s' after S))).
  assert (H0 : steps (None, [])) by apply NoStep.
  apply Add, Add in H0. cbn [app] in H0.
  eapply (Go _ [] _ _ None Fetching) in H0; [|apply OpenFails].
  eapply (Go _ [] _ _ None (Saving old_text lib)) in H0; [|apply Answer; [reflexivity|exact E]].
  eapply (Go _ [] _ _ (Some []) (Writing old_text lib 0)) in H0; [|apply Creates; auto].
  eapply (Go _ [] _ _ _ _) in H0; [|apply (WritesSome _ _ _ _ old_text lib 0 40); discriminate].
  match type of H0 with steps (Some ?f, _ ++ Writing _ _ ?o :: _) =>
    assert (EF : f = firstn 40 (utf8_encode old_text)) by (vm_compute; reflexivity); rewrite EF in H0; clear EF;
    assert (EF : o = 40) by (vm_compute; reflexivity); rewrite EF in H0; clear EF end.
  eapply (Go _ [_] _ _ _ (Reading [])) in H0; [|apply Opens; auto].
  eapply (Go _ [_] _ _ _ _) in H0; [|apply (Reads _ _ _ _ [] 100); discriminate].
  eapply (Go _ [_] _ _ _ Fetching) in H0; [|apply LoadFails; [auto|vm_compute; reflexivity]].
  eapply (Go _ [_] _ _ _ (Saving old_text lib)) in H0; [|apply Answer; [reflexivity|exact E]].
  exact H0.
Qed.
