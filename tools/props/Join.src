(** Property theorems C122: what the text of two patterns put together matches. *)
(*IMPORTS*)
From Verif Require Import Base Bell Stage Row Utils Music Spec SpecMask ListFacts BellFacts RowFacts MulFacts SsvFacts MusicFacts
  RegexLawFacts.
From Verif Require Import MusicThms LawsRegexThms.
Local Open Scope list_scope.
(*BODY*)
(** C122: the texts of two patterns, one after the other, match a row exactly when the row can be cut so that the first
    part is as the first pattern says and the rest as the second says. *)
Theorem C122_joined_texts :
  forall t u et eu r, valid_row r -> regex_text t et -> regex_text u eu ->
    exists es v, regex_parse (t ++ u) = Ret es /\ regex_matches es r = Ret v /\
      (v = true <-> exists k, k <= length r /\ described et (firstn k r) /\ described eu (skipn k r)).
Proof.
  intros t u et eu r V T U.
  assert (J : regex_text (t ++ u) (et ++ eu)).
  { clear V r. induction T as [|c e t es C T IH|c t es C T IH]; auto.
    - cbn. apply rt_elem; auto.
    - cbn. apply rt_skip; auto. }
  destruct (pf_C53_parsed (t ++ u) (et ++ eu) r V J) as (es & v & E & M & D). exists es, v. splits; auto. rewrite D, described_app. split.
  - intros (l1 & l2 & -> & D1 & D2). exists (length l1). rewrite app_length. split; [lia|].
    rewrite firstn_app, Nat.sub_diag, firstn_all, skipn_app, skipn_all, Nat.sub_diag. cbn. rewrite app_nil_r. auto.
  - intros (k & _ & D1 & D2). exists (firstn k r), (skipn k r). rewrite firstn_skipn. auto.
Qed.

(** C122: with a star on either side of it, a pattern matches exactly the rows which have a stretch as it says. *)
Theorem C122_anywhere :
  forall t et r, valid_row r -> regex_text t et ->
    exists es v, regex_parse (s2l "*" ++ t ++ s2l "*") = Ret es /\ regex_matches es r = Ret v /\
      (v = true <-> exists i n, i + n <= length r /\ described et (firstn n (skipn i r))).
Proof.
  intros t et r V T.
  assert (S : regex_text (s2l "*") [RGlob]) by (apply rt_elem; [apply ce_star|apply rt_nil]).
  assert (J : regex_text (t ++ s2l "*") (et ++ [RGlob])).
  { clear V r. induction T as [|c e t es C T IH|c t es C T IH]; auto.
    - cbn. apply rt_elem; auto.
    - cbn. apply rt_skip; auto. }
  destruct (pf_C122_joined_texts (s2l "*") (t ++ s2l "*") [RGlob] (et ++ [RGlob]) r V S J) as (es & v & E & M & D).
  exists es, v. splits; auto. rewrite D. split.
  - intros (k & Lk & _ & D2). apply described_app in D2 as (l1 & l2 & Ek & D1 & _). exists k, (length l1).
    assert (Ls : length (skipn k r) = length l1 + length l2) by (rewrite Ek; apply app_length). rewrite skipn_length in Ls.
    split; [lia|]. rewrite Ek, firstn_app, Nat.sub_diag, firstn_all. cbn. rewrite app_nil_r. auto.
  - intros (i & n & L & D1). exists i. splits; [lia| |].
    + rewrite <- (app_nil_r (firstn i r)). apply described_glob, described_nil.
    + apply described_app. exists (firstn n (skipn i r)), (skipn n (skipn i r)). rewrite firstn_skipn. splits; auto.
      rewrite <- (app_nil_r (skipn n (skipn i r))). apply described_glob, described_nil.
Qed.

(** C122: patterns which parse to the same regex can stand for each other inside a longer text. *)
Theorem C122_texts_of_the_same_regex :
  forall t t' u u', regex_parse t = regex_parse t' -> regex_parse u = regex_parse u' -> regex_parse (t ++ u) = regex_parse (t' ++ u').
Proof.
  intros t t' u u' E F.
  destruct (pf_C53_text_meaning t) as (et & Ht), (pf_C53_text_meaning t') as (et' & Ht').
  destruct (pf_C53_text_meaning u) as (eu & Hu), (pf_C53_text_meaning u') as (eu' & Hu').
  assert (J : forall a b ea eb, regex_text a ea -> regex_text b eb -> regex_text (a ++ b) (ea ++ eb)).
  { intros a b ea eb A B. induction A as [|c e a es C A IH|c a es C A IH]; auto.
    - cbn. apply rt_elem; auto.
    - cbn. apply rt_skip; auto. }
  pose proof (proj2 (Ht et) eq_refl) as T. pose proof (proj2 (Ht' et') eq_refl) as T'.
  pose proof (proj2 (Hu eu) eq_refl) as U. pose proof (proj2 (Hu' eu') eq_refl) as U'.
  pose proof (proj1 (pf_C98_equal_texts _ _ _ _ T T') E) as E'. pose proof (proj1 (pf_C98_equal_texts _ _ _ _ U U') F) as F'.
  apply (proj2 (pf_C98_equal_texts _ _ _ _ (J _ _ _ _ T U) (J _ _ _ _ T' U'))). intros l. rewrite !described_app.
  split; intros (l1 & l2 & El & D1 & D2); exists l1, l2; splits; auto; try (apply E'; auto); apply F'; auto.
Qed.

Example C122_example :
  regex_text (s2l "56") [RBell 4; RBell 5] /\ valid_row [1; 4; 5; 0; 2; 3] /\
  (exists es, regex_parse (s2l "*" ++ s2l "56" ++ s2l "*") = Ret es /\ regex_matches es [1; 4; 5; 0; 2; 3] = Ret true /\
     regex_matches es [1; 4; 0; 5; 2; 3] = Ret false) /\
  regex_parse (s2l "*x") = regex_parse (s2l ".*") /\ regex_parse (s2l "*x" ++ s2l "*1") = regex_parse (s2l ".*" ++ s2l "*1").
Proof.
  splits; try (vm_compute; reflexivity).
  - apply rt_elem; [apply ce_bell; reflexivity|]. apply rt_elem; [apply ce_bell; reflexivity|apply rt_nil].
  - apply (proj1 (from_vec_ok [1; 4; 5; 0; 2; 3] [1; 4; 5; 0; 2; 3])). vm_compute. reflexivity.
  - eexists. splits; vm_compute; reflexivity.
Qed.
