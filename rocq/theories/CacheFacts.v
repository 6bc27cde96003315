(** Facts about UTF-8 and the cache file. *)
From Verif Require Import SpecJson Base ListFacts Bell Stage Class Method Library Serde Json JsonFacts Utf8 Cache SpecCache LibFacts.
Local Open Scope list_scope.
Ltac Zify.zify_post_hook ::= Z.to_euclidean_division_equations.

(** ** UTF-8 *)

Lemma between_iff lo hi b : between lo hi b = true <-> (lo <= b <= hi)%N.
Proof. unfold between. rewrite andb_true_iff, !N.leb_le. tauto. Qed.
Lemma between_false lo hi b : between lo hi b = false <-> ~ (lo <= b <= hi)%N.
Proof. rewrite <- between_iff. destruct (between lo hi b); split; congruence. Qed.

Lemma option_map_app {A} (f : A -> A) (x y : option A) : x = y -> option_map f x = option_map f y.
Proof. intros ->. auto. Qed.

Lemma map_cons_app c (s : list N) o : option_map (cons c) (option_map (app s) o) = option_map (app (c :: s)) o.
Proof. destruct o; auto. Qed.

Lemma map_cons_some c o (s : list N) : option_map (cons c) o = Some s -> exists s', o = Some s' /\ s = c :: s'.
Proof. destruct o; [|discriminate]. intros [= <-]. eauto. Qed.

Lemma utf8_decode_gen n : forall a s, length a <= n -> utf8_decode a = Some s ->
  (forall b, utf8_decode (a ++ b) = option_map (app s) (utf8_decode b)) /\ (In 0%N a -> In 0%N s).
Proof.
  induction n as [|n IH]; intros a s L.
  { destruct a; [|cbn in L; lia]. cbn. intros [= <-]. split; [|auto]. intros b. destruct (utf8_decode b); auto. }
  destruct a as [|b0 a]; [cbn; intros [= <-]; split; [|auto]; intros b; destruct (utf8_decode b); auto|].
  cbn [length] in L. cbn [utf8_decode app].
  destruct (b0 <? 128)%N eqn:B0.
  { intros H. apply map_cons_some in H as (s' & H & ->). apply IH in H as [H1 H2]; [|lia]. split.
    - intros b. rewrite H1. apply map_cons_app.
    - cbn. intuition. }
  apply N.ltb_ge in B0.
  destruct (between 194 223 b0).
  { destruct a as [|b1 a]; [discriminate|]. cbn [app length] in *. destruct (is_cont b1) eqn:B1; [|discriminate].
    apply between_iff in B1.
    intros H. apply map_cons_some in H as (s' & H & ->). apply IH in H as [H1 H2]; [|lia]. split.
    - intros b. rewrite H1. apply map_cons_app.
    - cbn. intros [X|[X|X]]; [lia|lia|auto]. }
  destruct (between 224 239 b0).
  { destruct a as [|b1 [|b2 a]]; try discriminate. cbn [app length] in *.
    destruct (between _ _ b1 && is_cont b2)%bool eqn:B1; [|discriminate].
    apply andb_true_iff in B1 as [B1 B2]. apply between_iff in B1, B2.
    intros H. apply map_cons_some in H as (s' & H & ->). apply IH in H as [H1 H2]; [|lia]. split.
    - intros b. rewrite H1. apply map_cons_app.
    - cbn. destruct (b0 =? 224)%N; intros [X|[X|[X|X]]]; try lia; auto. }
  destruct (between 240 244 b0); [|discriminate].
  destruct a as [|b1 [|b2 [|b3 a]]]; try discriminate. cbn [app length] in *.
  destruct (between _ _ b1 && is_cont b2 && is_cont b3)%bool eqn:B1; [|discriminate].
  apply andb_true_iff in B1 as [B1 B3]. apply andb_true_iff in B1 as [B1 B2]. apply between_iff in B1, B2, B3.
  intros H. apply map_cons_some in H as (s' & H & ->). apply IH in H as [H1 H2]; [|lia]. split.
  - intros b. rewrite H1. apply map_cons_app.
  - cbn. destruct (b0 =? 240)%N; intros [X|[X|[X|[X|X]]]]; try lia; auto.
Qed.

Lemma utf8_decode_app a b s : utf8_decode a = Some s -> utf8_decode (a ++ b) = option_map (app s) (utf8_decode b).
Proof. intros H. apply (utf8_decode_gen (length a)) in H as [H _]; auto. Qed.

Lemma utf8_decode_nul a s : utf8_decode a = Some s -> In 0%N a -> In 0%N s.
Proof. intros H. apply (utf8_decode_gen (length a)) in H as [_ H]; auto. Qed.

Lemma encode_char_decode c : is_scalar c = true -> utf8_decode (encode_char c) = Some [c].
Proof.
  unfold is_scalar. intros S.
  assert (S' : (c < 55296 \/ 57344 <= c < 1114112)%N).
  { apply orb_true_iff in S as [S|S]; [apply N.ltb_lt in S; auto|]. apply andb_true_iff in S as [S1 S2].
    apply N.leb_le in S1. apply N.ltb_lt in S2. auto. }
  clear S. unfold encode_char.
  destruct (N.ltb_spec c 128); [cbn; destruct (N.ltb_spec c 128); [auto|lia]|].
  destruct (N.ltb_spec c 2048).
  { cbn [utf8_decode]. destruct (N.ltb_spec (192 + c / 64) 128); [lia|].
    replace (between 194 223 (192 + c / 64)) with true by (symmetry; apply between_iff; lia).
    replace (is_cont (128 + c mod 64)) with true by (symmetry; apply between_iff; lia).
    cbn [option_map]. do 2 f_equal. lia. }
  destruct (N.ltb_spec c 65536).
  { cbn [utf8_decode]. destruct (N.ltb_spec (224 + c / 4096) 128); [lia|].
    replace (between 194 223 (224 + c / 4096)) with false by (symmetry; apply between_false; lia).
    replace (between 224 239 (224 + c / 4096)) with true by (symmetry; apply between_iff; lia).
    replace (is_cont (128 + c mod 64)) with true by (symmetry; apply between_iff; lia).
    match goal with |- (if ?g && true then _ else _) = _ => replace g with true end.
    - cbn [andb option_map]. do 2 f_equal. lia.
    - symmetry. apply between_iff. destruct (N.eqb_spec (224 + c / 4096) 224), (N.eqb_spec (224 + c / 4096) 237); lia. }
  cbn [utf8_decode]. destruct (N.ltb_spec (240 + c / 262144) 128); [lia|].
  replace (between 194 223 (240 + c / 262144)) with false by (symmetry; apply between_false; lia).
  replace (between 224 239 (240 + c / 262144)) with false by (symmetry; apply between_false; lia).
  replace (between 240 244 (240 + c / 262144)) with true by (symmetry; apply between_iff; lia).
  replace (is_cont (128 + c mod 64)) with true by (symmetry; apply between_iff; lia).
  replace (is_cont (128 + (c / 64) mod 64)) with true by (symmetry; apply between_iff; lia).
  match goal with |- (if ?g && true && true then _ else _) = _ => replace g with true end.
  - cbn [andb option_map]. do 2 f_equal. lia.
  - symmetry. apply between_iff. destruct (N.eqb_spec (240 + c / 262144) 240), (N.eqb_spec (240 + c / 262144) 244); lia.
Qed.

Lemma utf8_round_trip t : forallb is_scalar t = true -> utf8_decode (utf8_encode t) = Some t.
Proof.
  induction t as [|c t IH]; [reflexivity|]. cbn [forallb]. intros H. apply andb_true_iff in H as [H1 H2].
  unfold utf8_encode. cbn [flat_map]. rewrite (utf8_decode_app _ _ _ (encode_char_decode c H1)).
  fold (utf8_encode t). rewrite IH; auto.
Qed.

Lemma encode_char_nul c : In 0%N (encode_char c) -> c = 0%N.
Proof.
  unfold encode_char. destruct (c <? 128)%N; [intros [H|[]]; auto|].
  destruct (c <? 2048)%N; [cbn [In]; intros [H|[H|[]]]; lia|].
  destruct (c <? 65536)%N; [cbn [In]; intros [H|[H|[H|[]]]]; lia|]. cbn [In]; intros [H|[H|[H|[H|[]]]]]; lia.
Qed.

Lemma utf8_encode_nul t : In 0%N (utf8_encode t) -> In 0%N t.
Proof.
  unfold utf8_encode. rewrite in_flat_map. intros (c & H & N). apply encode_char_nul in N as ->. auto.
Qed.

(** ** Loading *)

Section Load.
Context (lower : list N -> list N).

Lemma from_json_cases t : (exists o, from_json lower t = Ret o) \/ from_json lower t = Panic.
Proof.
  unfold from_json. destruct (json_read_total t) as [o ->]. cbn [bind]. destruct o as [j|]; eauto.
  destruct (lib_from_json j) as [l|]; eauto. unfold lib_from_serde.
  destruct (from_serde_gen lower l [] keys_differ_nil) as [[_ E]|(lib & E & _)]; rewrite E; cbn; eauto.
Qed.

(** What a text of a library looks like. *)
Lemma from_json_some t lib : from_json lower t = Ret (Some lib) <-> exists j l, json_read t = Ret (Some j) /\ container j = true /\
  lib_from_json j = Some l /\ lib_from_serde lower l = Ret lib.
Proof.
  unfold from_json. destruct (json_read_total t) as [o E]. rewrite E. cbn [bind]. split.
  - destruct o as [j|]; [|discriminate]. destruct (lib_from_json j) as [l|] eqn:J; [|discriminate].
    destruct (lib_from_serde lower l) eqn:S; try discriminate. cbn [bind]. intros [= ->]. exists j, l. splits; auto.
    destruct j; auto; discriminate.
  - intros (j & l & [= ->] & _ & -> & ->). reflexivity.
Qed.

Lemma from_json_no_nul t lib : from_json lower t = Ret (Some lib) -> ~ In 0%N t.
Proof. rewrite from_json_some. intros (j & l & H & _). apply json_read_no_nul in H. auto. Qed.

Lemma load_nul bytes : In 0%N bytes -> load_bytes lower bytes = Ret None.
Proof.
  intros H. unfold load_bytes. destruct (utf8_decode bytes) as [t|] eqn:D; auto.
  pose proof (utf8_decode_nul _ _ D H) as Z. unfold from_json. destruct (json_read_total t) as [[j|] E]; rewrite E; cbn [bind]; auto.
  exfalso. eapply json_read_no_nul; eauto.
Qed.

(** A text which starts another one. *)
Lemma from_json_prefix s u lib : from_json lower (s ++ u) = Ret (Some lib) ->
  from_json lower s = Ret None \/ from_json lower s = Ret (Some lib).
Proof.
  intros H. pose proof H as H'. rewrite from_json_some in H'. destruct H' as (j & l & R & C & J & S).
  unfold from_json. destruct (json_read_total s) as [[j'|] E]; rewrite E; cbn [bind]; auto.
  destruct (lib_from_json j') as [l'|] eqn:J'; auto.
  assert (C' : container j' = true) by (destruct j'; auto; discriminate).
  pose proof (json_read_prefix _ _ _ _ E C' R) as ->. rewrite J in J'. injection J' as <-. rewrite S. cbn. auto.
Qed.

Lemma load_prefix t lib a b : forallb is_scalar t = true -> from_json lower t = Ret (Some lib) -> utf8_encode t = a ++ b ->
  load_bytes lower a = Ret None \/ load_bytes lower a = Ret (Some lib).
Proof.
  intros S H E. unfold load_bytes. destruct (utf8_decode a) as [s|] eqn:D; auto.
  pose proof (utf8_round_trip t S) as R. rewrite E, (utf8_decode_app _ _ _ D) in R.
  destruct (utf8_decode b) as [u|]; [|discriminate]. injection R as <-. eapply from_json_prefix; eauto.
Qed.

Lemma load_full t lib : forallb is_scalar t = true -> from_json lower t = Ret (Some lib) ->
  load_bytes lower (utf8_encode t) = Ret (Some lib).
Proof. intros S H. unfold load_bytes. rewrite utf8_round_trip; auto. Qed.

Lemma load_cases b : (exists o, load_bytes lower b = Ret o) \/ load_bytes lower b = Panic.
Proof. unfold load_bytes. destruct (utf8_decode b); eauto. apply from_json_cases. Qed.

End Load.

(** ** Copies with gaps *)

(** Each byte of [c] is the one of [B] at the same place, or zero. *)
Definition partly (B c : list N) : Prop :=
  length c <= length B /\ forall i x, nth_error c i = Some x -> x = 0%N \/ nth_error B i = Some x.

Lemma partly_nil B : partly B [].
Proof. split; [cbn; lia|]. intros [|i] x; discriminate. Qed.

Lemma nth_error_firstn_some {A} (l : list A) k i x : nth_error (firstn k l) i = Some x -> i < k /\ nth_error l i = Some x.
Proof.
  revert k i. induction l as [|y l IH]; intros [|k] [|i]; cbn; try discriminate.
  - intros [= ->]. split; [lia|auto].
  - intros H. apply IH in H as [H1 H2]. split; [lia|auto].
Qed.

Lemma partly_firstn B k : partly B (firstn k B).
Proof.
  split; [rewrite firstn_length; lia|]. intros i x H. right. apply nth_error_firstn_some in H. tauto.
Qed.

Lemma partly_cases B : forall c, partly B c -> In 0%N c \/ c = firstn (length c) B.
Proof.
  induction B as [|b B IH]; intros c [L H].
  - destruct c; [auto|cbn in L; lia].
  - destruct c as [|x c]; [auto|]. cbn [length firstn] in *.
    destruct (H 0 x eq_refl) as [->|[= ->]]; [left; left; auto|].
    destruct (IH c) as [Z|E]; [|left; right; auto|right; congruence].
    split; [lia|]. intros i y Hi. apply (H (S i) y Hi).
Qed.

Lemma partly_load lower t lib c : forallb is_scalar t = true -> from_json lower t = Ret (Some lib) -> partly (utf8_encode t) c ->
  load_bytes lower c = Ret None \/ load_bytes lower c = Ret (Some lib).
Proof.
  intros S H P. destruct (partly_cases _ _ P) as [Z|E]; [left; apply load_nul; auto|].
  apply (load_prefix lower t lib c (skipn (length c) (utf8_encode t))); auto. rewrite E at 1. symmetry. apply firstn_skipn.
Qed.

Lemma nth_error_app_cases {A} (l m : list A) i x : nth_error (l ++ m) i = Some x ->
  nth_error l i = Some x \/ length l <= i /\ nth_error m (i - length l) = Some x.
Proof.
  intros H. destruct (lt_dec i (length l)).
  - rewrite nth_error_app1 in H; auto.
  - rewrite nth_error_app2 in H by lia. right. split; [lia|auto].
Qed.

Lemma nth_error_skipn' {A} (l : list A) k i : nth_error (skipn k l) i = nth_error l (k + i).
Proof. revert l. induction k; intros l; [auto|]. destruct l; cbn; auto. destruct i; auto. Qed.


Lemma piece_nth (b : list N) off m i x : nth_error (piece b off m) i = Some x -> nth_error b (off + i) = Some x.
Proof. unfold piece. intros H. apply nth_error_firstn_some in H as [_ H]. rewrite nth_error_skipn' in H. auto. Qed.

Lemma piece_length (b : list N) off m : off + length (piece b off m) <= Nat.max off (length b).
Proof. unfold piece. rewrite firstn_length, skipn_length. lia. Qed.

Lemma partly_read B buf bytes m : partly B buf -> partly B bytes -> partly B (buf ++ piece bytes (length buf) m).
Proof.
  intros [L1 H1] [L2 H2]. split.
  - rewrite app_length. pose proof (piece_length bytes (length buf) m). lia.
  - intros i x H. apply nth_error_app_cases in H as [H|[L H]]; [auto|]. apply piece_nth in H. replace (length buf + (i - length buf)) with i in H by lia. auto.
Qed.

Lemma partly_write B bytes off m : partly B bytes -> off <= length B -> partly B (write_at bytes off (piece B off m)).
Proof.
  intros [L H] O. pose proof (piece_length B off m) as PL. unfold write_at. split.
  - rewrite !app_length, firstn_length, repeat_length, skipn_length. lia.
  - intros i x Hi.
    assert (LA : length (firstn off bytes ++ repeat 0%N (off - length bytes)) = off)
      by (rewrite app_length, firstn_length, repeat_length; lia).
    rewrite app_assoc in Hi. apply nth_error_app_cases in Hi as [Hi|[Li Hi]].
    + apply nth_error_app_cases in Hi as [Hi|[_ Hi]].
      * apply nth_error_firstn_some in Hi as [_ Hi]. auto.
      * apply nth_error_In, repeat_spec in Hi. auto.
    + rewrite LA in *. apply nth_error_app_cases in Hi as [Hi|[Lj Hi]].
      * apply piece_nth in Hi. right. replace (off + (i - off)) with i in Hi by lia. auto.
      * rewrite nth_error_skipn' in Hi. apply H. replace i with (off + length (piece B off m) + (i - off - length (piece B off m))) by lia. auto.
Qed.

Lemma rust_text_scalar t : rust_text t -> forallb is_scalar t = true.
Proof.
  unfold rust_text. intros F. apply forallb_forall. rewrite Forall_forall in F. intros c H. specialize (F c H).
  unfold is_scalar. apply orb_true_iff. rewrite andb_true_iff, !N.ltb_lt, N.leb_le. auto.
Qed.

(** ** Histories *)

Section History.
Context (lower : list N -> list N) (has_dir : bool).

(** The file is from a text which was served, or is of no use. *)
Definition from_served (past : list event) (f : option (list N)) : Prop :=
  match f with
  | None => True
  | Some bytes => load_bytes lower bytes = Ret None \/
      exists j t lib, served past j t /\ from_json lower t = Ret (Some lib) /\ load_bytes lower bytes = Ret (Some lib)
  end.

Lemma served_app past es j t : served past j t -> served (past ++ es) j t.
Proof.
  intros [(w & H)|(k & z & H)]; [left|right]; repeat eexists; rewrite nth_error_app1; eauto; apply nth_error_Some; congruence.
Qed.

Lemma served_last past e t : (exists w, e = Call (Some t) w) \/ (exists k z, e = Killed (Some t) k z) ->
  served (past ++ [e]) (length past) t.
Proof.
  intros [(w & ->)|(k & z & ->)]; [left|right]; repeat eexists; rewrite nth_error_app2, Nat.sub_diag; auto; reflexivity.
Qed.

Lemma from_served_app past es f : from_served past f -> from_served (past ++ es) f.
Proof.
  destruct f; cbn; auto. intros [H|(j & t & lib & H & H')]; auto. right. exists j, t, lib. split; auto. apply served_app; auto.
Qed.

Lemma firstn_load t lib k : forallb is_scalar t = true -> from_json lower t = Ret (Some lib) ->
  load_bytes lower (firstn k (utf8_encode t)) = Ret None \/ load_bytes lower (firstn k (utf8_encode t)) = Ret (Some lib).
Proof. intros S H. eapply (load_prefix lower t lib _ (skipn k (utf8_encode t))); auto. rewrite firstn_skipn. auto. Qed.

Lemma zeros_load t lib k z : forallb is_scalar t = true -> from_json lower t = Ret (Some lib) ->
  load_bytes lower (firstn k (utf8_encode t) ++ repeat 0%N z) = Ret None \/
  load_bytes lower (firstn k (utf8_encode t) ++ repeat 0%N z) = Ret (Some lib).
Proof.
  intros S H. destruct z as [|z]; [cbn [repeat]; rewrite app_nil_r; apply firstn_load; auto|].
  left. apply load_nul. apply in_or_app. right. left. auto.
Qed.

(** What one call may do. *)
Definition good_ending (past : list event) (e : event) (r : ending) : Prop :=
  match r with
  | Returned (Some lib) requested => exists j t, served (past ++ [e]) j t /\ from_json lower t = Ret (Some lib) /\
      (requested = true -> j = length past)
  | Returned None requested => requested = true /\
      ((exists w, e = Call None w) \/ exists w t, e = Call (Some t) w /\ from_json lower t = Ret None)
  | Panicked => exists w t, e = Call (Some t) w /\ from_json lower t = Panic
  | Stopped => exists net k z, e = Killed net k z
  end.

Lemma run_event_ok past e f : from_served past f ->
  (forall t, served (past ++ [e]) (length past) t -> forallb is_scalar t = true) ->
  exists r f', run_event lower has_dir e f = Ret (r, f') /\ from_served (past ++ [e]) f' /\ good_ending past e r.
Proof.
  intros I S.
  assert (L : (exists lib j t, load_cc_lib_from_cache lower has_dir f = Ret (Some lib) /\ served past j t /\ from_json lower t = Ret (Some lib)) \/
    load_cc_lib_from_cache lower has_dir f = Ret None).
  { unfold load_cc_lib_from_cache. destruct has_dir; auto. destruct f as [b|]; auto. destruct I as [I|(j & t & lib & H1 & H2 & H3)]; auto.
    left. exists lib, j, t. auto. }
  assert (Sv : forall t, (exists w, e = Call (Some t) w) \/ (exists k z, e = Killed (Some t) k z) -> forallb is_scalar t = true).
  { intros t H. apply S. apply served_last. auto. }
  destruct e as [net w|net k z]; cbn [run_event]; unfold cc_lib.
  - destruct L as [(lib & j & t & E & H1 & H2)|E]; rewrite E; cbn [bind].
    { exists (Returned (Some lib) false), f. splits; auto; [apply from_served_app; auto|].
      cbn. exists j, t. splits; auto; [apply served_app; auto|discriminate]. }
    unfold fetch_cc_lib. destruct net as [t|].
    + destruct (from_json_cases lower t) as [[o Ej]|Ej]; rewrite Ej; cbn [bind].
      2:{ exists Panicked, f. splits; auto; [apply from_served_app; auto|]. cbn. eauto. }
      destruct o as [lib|]; cbn [bind].
      * do 2 eexists. split; [reflexivity|].
        assert (V : served (past ++ [Call (Some t) w]) (length past) t) by (apply served_last; eauto).
        split.
        { destruct has_dir; [|apply from_served_app; auto]. destruct w as [|k]; cbn [write_file]; [apply from_served_app; auto|].
          cbn. destruct (firstn_load t lib k) as [H|H]; eauto 10. }
        cbn. exists (length past), t. auto.
      * exists (Returned None true), f. splits; auto; [apply from_served_app; auto|]. cbn. split; auto. right. eauto.
    + exists (Returned None true), f. splits; auto; [apply from_served_app; auto|]. cbn. eauto.
  - assert (K : exists f', match
        (cached <- load_cc_lib_from_cache lower has_dir f;;
         match cached with
         | Some lib => Ret (Some lib, f, false)
         | None => '(r, f') <- fetch_cc_lib lower has_dir net (Writes k) f;; Ret (r, f', true)
         end) with
      | Ret (Some _, Some bytes, true) => Ret (Stopped, if has_dir then Some (bytes ++ repeat 0%N z) else f)
      | _ => Ret (Stopped, f)
      end = Ret (Stopped, f') /\ from_served (past ++ [Killed net k z]) f').
    2:{ destruct K as (f' & E & H). exists Stopped, f'. splits; auto. cbn. eauto. }
    destruct L as [(lib & j & t & E & H1 & H2)|E]; rewrite E; cbn [bind].
    { exists f. split; [destruct f; reflexivity|apply from_served_app; auto]. }
    unfold fetch_cc_lib. destruct net as [t|].
    + destruct (from_json_cases lower t) as [[o Ej]|Ej]; rewrite Ej; cbn [bind].
      2:{ exists f. split; auto. apply from_served_app; auto. }
      destruct o as [lib|]; cbn [bind].
      * assert (V : served (past ++ [Killed (Some t) k z]) (length past) t) by (apply served_last; eauto).
        destruct has_dir.
        { cbn [write_file]. eexists. split; [reflexivity|]. cbn. destruct (zeros_load t lib k z) as [H|H]; eauto 10. }
        exists f. split; [destruct f; reflexivity|apply from_served_app; auto].
      * exists f. split; auto. apply from_served_app; auto.
    + exists f. split; auto. apply from_served_app; auto.
Qed.

Lemma run_history_ok es : forall past f, from_served past f ->
  (forall i t, served (past ++ es) i t -> forallb is_scalar t = true) ->
  exists rs f', run_history lower has_dir es f = Ret (rs, f') /\ length rs = length es /\ from_served (past ++ es) f' /\
    forall i e r, nth_error es i = Some e -> nth_error rs i = Some r -> good_ending (past ++ firstn i es) e r.
Proof.
  induction es as [|e es IH]; intros past f I S.
  - exists [], f. rewrite app_nil_r. splits; auto. intros [|i]; discriminate.
  - cbn [run_history]. destruct (run_event_ok past e f I) as (r & f1 & E & I1 & G).
    { intros t H. apply (S (length past)). replace (past ++ e :: es) with ((past ++ [e]) ++ es) by (rewrite <- app_assoc; auto).
      apply served_app; auto. }
    rewrite E. cbn [bind]. destruct (IH (past ++ [e]) f1 I1) as (rs & f2 & E2 & L & I2 & G2).
    { intros i t H. apply (S i). rewrite <- app_assoc in H. auto. }
    rewrite E2. cbn [bind]. exists (r :: rs), f2. rewrite <- app_assoc in I2. splits; auto; [cbn; lia|].
    intros [|i] e' r'; cbn [nth_error firstn].
    + intros [= <-] [= <-]. rewrite app_nil_r. auto.
    + intros H1 H2. specialize (G2 i e' r' H1 H2). rewrite <- app_assoc in G2. auto.
Qed.

(** A good file stays. *)
Lemma run_history_good bytes lib es : has_dir = true -> load_bytes lower bytes = Ret (Some lib) ->
  run_history lower has_dir es (Some bytes) =
    Ret (map (fun e => match e with Call _ _ => Returned (Some lib) false | Killed _ _ _ => Stopped end) es, Some bytes).
Proof.
  intros D H. induction es as [|e es IH]; [reflexivity|]. cbn [run_history map].
  assert (E : run_event lower has_dir e (Some bytes) =
    Ret (match e with Call _ _ => Returned (Some lib) false | Killed _ _ _ => Stopped end, Some bytes)).
  { destruct e; cbn [run_event]; unfold cc_lib, load_cc_lib_from_cache; rewrite D, H; reflexivity. }
  rewrite E. cbn [bind]. rewrite IH. reflexivity.
Qed.
End History.

(** ** Calls at the same time *)

Section System.
Context (lower : list N -> list N) (has_dir : bool) (answers : option (list N) -> Prop) (t : list N) (lib : method_lib).
Context (Ht : forallb is_scalar t = true) (Hlib : from_json lower t = Ret (Some lib)).
Context (Hans : forall a, answers a -> a = None \/ a = Some t).

Definition file_ok (f : option (list N)) : Prop := match f with None => True | Some b => partly (utf8_encode t) b end.
Definition call_ok (s : call_state) : Prop :=
  match s with
  | Reading buf => partly (utf8_encode t) buf
  | Saving json lib' => json = t /\ lib' = lib
  | Writing json lib' off => json = t /\ lib' = lib /\ off <= length (utf8_encode t)
  | Done None => answers None
  | Done (Some lib') => lib' = lib
  | Panicking => False
  | _ => True
  end.

Lemma call_step_ok f s f' s' : call_step lower has_dir answers f s f' s' -> file_ok f -> call_ok s -> file_ok f' /\ call_ok s'.
Proof.
  intros H F C.
  assert (A : forall json, answers (Some json) -> json = t) by (intros json Hj; destruct (Hans _ Hj) as [X|X]; congruence).
  assert (P : forall buf, partly (utf8_encode t) buf -> load_bytes lower buf = Ret None \/ load_bytes lower buf = Ret (Some lib))
    by (intros buf Hb; eapply partly_load; eauto).
  destruct H; cbn [file_ok call_ok] in *; splits; auto; try tauto.
  all: try (apply partly_nil).
  all: try (apply partly_read; auto; fail).
  all: try (destruct (P buf C); congruence).
  all: try (match goal with Hj : answers (Some _) |- _ => apply A in Hj; congruence end).
  all: try (split; auto; lia).
  all: try (destruct C as (-> & _ & L); apply partly_write; auto; fail).
  - destruct C as (-> & _ & L). pose proof (piece_length (utf8_encode t) off m). lia.
Qed.

Lemma system_steps_ok x y : system_steps lower has_dir answers x y -> file_ok (fst x) /\ Forall call_ok (snd x) ->
  file_ok (fst y) /\ Forall call_ok (snd y).
Proof.
  intros H I. induction H as [x|x y z H IH S]; auto. specialize (IH I) as [F C]. destruct S as [f calls|f f' before s s' after S]; cbn in *.
  - split; auto. apply Forall_app. split; auto. constructor; cbn; auto.
  - apply Forall_app in C as [C1 C2]. inversion_clear C2. destruct (call_step_ok _ _ _ _ S F H0). split; auto.
    apply Forall_app. split; auto.
Qed.
End System.

(** ** The JSON of a library *)

Lemma compact_plain cs : plain (compact_to_json cs) = true.
Proof. unfold compact_to_json. destruct (cs_title cs); reflexivity. Qed.

Lemma group_plain g : plain (group_to_json g) = true.
Proof.
  unfold group_to_json. cbn [plain].
  assert (M : forallb plain (map compact_to_json (g_methods g)) = true).
  { apply forallb_forall. intros j H. apply in_map_iff in H as (cs & <- & _). apply compact_plain. }
  destruct (g_is_jump g), (g_is_little g), (g_is_differential g); cbn [flag_to_json app forallb snd plain]; rewrite M; reflexivity.
Qed.

Lemma lib_to_json_plain l : plain (lib_to_json l) = true.
Proof.
  unfold lib_to_json. cbn [plain forallb snd]. rewrite andb_true_r. apply forallb_forall. intros j H.
  apply in_map_iff in H as (g & <- & _). apply group_plain.
Qed.

Lemma firstn_snoc {A} (l : list A) i x : nth_error l i = Some x -> firstn i l ++ [x] = firstn (S i) l.
Proof.
  revert i. induction l as [|y l IH]; intros [|i]; cbn; try discriminate.
  - intros [= ->]. auto.
  - intros H. rewrite IH; auto.
Qed.
