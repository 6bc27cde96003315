(** Facts about reading and writing JSON. *)
From Coq Require Import DecimalString Decimal DecimalFacts DecimalPos DecimalN.
From Verif Require Import Base ListFacts Bell Stage Class Method Library Serde Json SpecJson LibFacts.
Local Open Scope list_scope.

(** The text [t] without some first chars, at least one and none of them NUL, is [r]. *)
Definition eats (t r : list N) : Prop := exists w, t = w ++ r /\ w <> [] /\ ~ In 0%N w.

Lemma eats_length t r : eats t r -> length r < length t.
Proof. intros (w & -> & H & _). rewrite app_length. destruct w; [congruence|]. cbn. lia. Qed.

Lemma eats_trans t r s : eats t r -> eats r s -> eats t s.
Proof.
  intros (w & -> & H & N) (v & -> & H' & N'). exists (w ++ v). rewrite app_assoc. splits; auto.
  - destruct w; [congruence|discriminate].
  - rewrite in_app_iff. tauto.
Qed.

Lemma eats_app t r w : eats t r -> ~ In 0%N w -> eats (w ++ t) r.
Proof.
  intros (v & -> & H & N) M. exists (w ++ v). rewrite app_assoc. splits; auto.
  - destruct w; cbn; [auto|discriminate].
  - rewrite in_app_iff. tauto.
Qed.

Lemma eats1 c t : c <> 0%N -> eats (c :: t) t.
Proof. intros H. exists [c]. splits; auto; [discriminate|]. intros [E|[]]; congruence. Qed.

Lemma is_ws_nonzero c : is_ws c = true -> c <> 0%N.
Proof. intros H ->. discriminate. Qed.

Lemma skip_ws_split t : exists w, t = w ++ skip_ws t /\ ~ In 0%N w /\ forall c, In c w -> is_ws c = true.
Proof.
  induction t as [|c t (w & E & N & S)]; [exists []; splits; auto; intros ? []|]. cbn [skip_ws].
  destruct (is_ws c) eqn:W.
  - exists (c :: w). cbn. rewrite <- E. splits; auto.
    + intros [X|X]; [subst; discriminate|auto].
    + intros x [<-|X]; auto.
  - exists []. splits; auto.
Qed.

Lemma skip_ws_app t u c r : skip_ws t = c :: r -> skip_ws (t ++ u) = c :: r ++ u.
Proof.
  induction t as [|x t IH]; cbn [skip_ws app]; [discriminate|]. destruct (is_ws x); auto. intros [= -> ->]. reflexivity.
Qed.

Lemma skip_ws_head t c r : skip_ws t = c :: r -> is_ws c = false.
Proof. induction t as [|x t IH]; cbn [skip_ws]; [discriminate|]. destruct (is_ws x) eqn:E; auto. intros [= -> ->]. auto. Qed.

Lemma skip_ws_idem t : skip_ws (skip_ws t) = skip_ws t.
Proof. induction t as [|x t IH]; cbn [skip_ws]; auto. destruct (is_ws x) eqn:E; auto. cbn [skip_ws]. rewrite E. auto. Qed.

Lemma skip_ws_all t u : skip_ws t = [] -> skip_ws (t ++ u) = skip_ws u.
Proof. induction t as [|x t IH]; cbn [skip_ws app]; auto. destruct (is_ws x); auto. discriminate. Qed.

Lemma expect_some c t r : expect c t = Some r <-> skip_ws t = c :: r.
Proof.
  unfold expect. destruct (skip_ws t) as [|x l]; [split; discriminate|]. destruct (N.eqb_spec x c).
  - subst. split; intros [= ->]; auto.
  - split; [discriminate|]. intros [= -> _]. congruence.
Qed.

Lemma expect_app c t u r : expect c t = Some r -> expect c (t ++ u) = Some (r ++ u).
Proof. rewrite !expect_some. apply skip_ws_app. Qed.

Lemma expect_none_app c t u : skip_ws t <> [] -> expect c t = None -> expect c (t ++ u) = None.
Proof.
  unfold expect. destruct (skip_ws t) as [|x l] eqn:E; [congruence|]. intros _. rewrite (skip_ws_app _ u _ _ E).
  destruct (x =? c)%N; auto. discriminate.
Qed.

Lemma expect_other c d t r : expect c t = Some r -> c <> d -> expect d t = None.
Proof. rewrite expect_some. unfold expect. intros ->. intros H. destruct (N.eqb_spec c d); congruence. Qed.

Lemma expect_eats c t r : c <> 0%N -> expect c t = Some r -> eats t r.
Proof.
  rewrite expect_some. intros H E. destruct (skip_ws_split t) as (w & Ew & N & _). rewrite Ew, E.
  apply eats_app; auto. apply eats1; auto.
Qed.

(** Strings *)

Lemma cons_piece_some p o l r : cons_piece p o = Some (l, r) -> exists l', o = Some (l', r) /\ l = p :: l'.
Proof. destruct o as [[l' r']|]; [|discriminate]. intros [= <- <-]. eauto. Qed.

Lemma hex_digit_nonzero c n : hex_digit c = Some n -> c <> 0%N.
Proof. intros H ->. discriminate. Qed.

Lemma hex4_nonzero a b c d n : hex4 a b c d = Some n -> a <> 0%N /\ b <> 0%N /\ c <> 0%N /\ d <> 0%N.
Proof.
  unfold hex4. destruct (hex_digit a) eqn:A; [|discriminate]. destruct (hex_digit b) eqn:B; [|discriminate].
  destruct (hex_digit c) eqn:C; [|discriminate]. destruct (hex_digit d) eqn:D; [|discriminate]. intros _.
  splits; eapply hex_digit_nonzero; eauto.
Qed.

Lemma simple_escape_nonzero e x : simple_escape e = Some x -> e <> 0%N.
Proof. intros H ->. discriminate. Qed.

Lemma eats_cons c t r : c <> 0%N -> eats t r -> eats (c :: t) r.
Proof. intros H E. apply (eats_app t r [c]); auto. intros [X|[]]; congruence. Qed.

Lemma lex_string_gen n : forall t l r, length t <= n -> lex_string t = Some (l, r) ->
  eats t r /\ forall u, lex_string (t ++ u) = Some (l, r ++ u).
Proof.
  induction n as [|n IH]; intros t l r L; (destruct t as [|c t]; [discriminate|]); cbn [length] in L; [lia|].
  cbn [lex_string app].
  destruct (N.eqb_spec c 34) as [->|N34].
  { intros [= <- <-]. split; auto. apply eats1. discriminate. }
  destruct (c <? 32)%N eqn:L32; [discriminate|]. apply N.ltb_ge in L32.
  assert (C0 : c <> 0%N) by lia.
  destruct (c =? 92)%N.
  - destruct t as [|e t]; [discriminate|]. cbn [app]. destruct (N.eqb_spec e 117) as [->|NE].
    + destruct t as [|h1 [|h2 [|h3 [|h4 t]]]]; try discriminate. cbn [app].
      destruct (hex4 h1 h2 h3 h4) eqn:H4; [|discriminate]. intros H. apply cons_piece_some in H as (l' & H & ->).
      apply IH in H as [H1 H2]; [|cbn in L; lia]. apply hex4_nonzero in H4 as (Z1 & Z2 & Z3 & Z4). split.
      * repeat apply eats_cons; auto. discriminate.
      * intros u. rewrite H2. reflexivity.
    + destruct (simple_escape e) eqn:S; [|discriminate]. intros H. apply cons_piece_some in H as (l' & H & ->).
      apply IH in H as [H1 H2]; [|cbn in L; lia]. split.
      * repeat apply eats_cons; auto. eapply simple_escape_nonzero; eauto.
      * intros u. rewrite H2. reflexivity.
  - intros H. apply cons_piece_some in H as (l' & H & ->). apply IH in H as [H1 H2]; [|lia]. split.
    + apply eats_cons; auto.
    + intros u. rewrite H2. reflexivity.
Qed.

Lemma lex_string_eats t l r : lex_string t = Some (l, r) -> eats t r.
Proof. intros H. apply (lex_string_gen (length t)) in H; [tauto|auto]. Qed.
Lemma lex_string_app t l r u : lex_string t = Some (l, r) -> lex_string (t ++ u) = Some (l, r ++ u).
Proof. intros H. apply (lex_string_gen (length t)) in H as [_ H]; auto. Qed.

(** Numbers *)

Lemma is_digit_nonzero c : is_digit c = true -> c <> 0%N.
Proof. intros H ->. discriminate. Qed.

Lemma take_digits_split t : forall ds r, take_digits t = (ds, r) ->
  t = ds ++ r /\ ~ In 0%N ds /\ Forall (fun c => is_digit c = true) ds.
Proof.
  induction t as [|c t IH]; cbn [take_digits]; intros ds r.
  - intros [= <- <-]. splits; auto.
  - destruct (is_digit c) eqn:D.
    + destruct (take_digits t) as [ds' r'] eqn:T. intros [= <- <-]. destruct (IH _ _ eq_refl) as (E & N & F). subst. splits; auto.
      cbn. intros [X|X]; auto. apply is_digit_nonzero in D. congruence.
    + intros [= <- <-]. splits; auto.
Qed.

Lemma take_digits_app t u : forall ds r, r <> [] -> take_digits t = (ds, r) -> take_digits (t ++ u) = (ds, r ++ u).
Proof.
  induction t as [|c t IH]; cbn [take_digits app]; intros ds r H.
  - intros [= <- <-]. congruence.
  - destruct (is_digit c) eqn:D.
    + destruct (take_digits t) as [ds' r'] eqn:T. intros [= <- <-]. rewrite (IH _ _ H eq_refl). auto.
    + intros [= <- <-]. auto.
Qed.

Lemma some_digits_eats t r : some_digits t = Some r -> eats t r.
Proof.
  unfold some_digits. destruct (take_digits t) as [ds r'] eqn:T. apply take_digits_split in T as (-> & N & _).
  destruct ds as [|c ds]; [discriminate|]. intros [= <-]. exists (c :: ds). splits; auto. discriminate.
Qed.

Lemma some_digits_app t r u : r <> [] -> some_digits t = Some r -> some_digits (t ++ u) = Some (r ++ u).
Proof.
  unfold some_digits. intros R. destruct (take_digits t) as [ds r'] eqn:T. destruct ds as [|c ds]; [discriminate|].
  intros [= ->]. rewrite (take_digits_app _ _ _ _ R T). auto.
Qed.

(** Nothing, or something without NUL, was taken. *)
Definition eats0 (t r : list N) : Prop := t = r \/ eats t r.

Lemma eats0_eats t r s : eats0 t r -> eats r s -> eats t s.
Proof. intros [->|H]; auto. eapply eats_trans; eauto. Qed.
Lemma eats_eats0 t r s : eats t r -> eats0 r s -> eats t s.
Proof. intros H [<-|H']; auto. eapply eats_trans; eauto. Qed.

Lemma lex_fraction_eats t b r : lex_fraction t = Some (b, r) -> eats0 t r.
Proof.
  unfold lex_fraction. destruct t as [|c t]; [intros [= <- <-]; left; auto|]. destruct (N.eqb_spec c 46) as [->|].
  - destruct (some_digits t) eqn:S; [|discriminate]. intros [= <- <-]. right. apply eats_cons; [discriminate|].
    apply some_digits_eats; auto.
  - intros [= <- <-]. left. auto.
Qed.

Lemma lex_fraction_app t b r u : r <> [] -> lex_fraction t = Some (b, r) -> lex_fraction (t ++ u) = Some (b, r ++ u).
Proof.
  intros R. unfold lex_fraction. destruct t as [|c t]; [intros [= <- <-]; congruence|]. cbn [app]. destruct (c =? 46)%N.
  - destruct (some_digits t) eqn:S; [|discriminate]. intros [= <- <-]. rewrite (some_digits_app _ _ _ R S). auto.
  - intros [= <- <-]. auto.
Qed.

Lemma lex_exponent_eats t b r : lex_exponent t = Some (b, r) -> eats0 t r.
Proof.
  unfold lex_exponent. destruct t as [|c t]; [intros [= <- <-]; left; auto|]. destruct ((c =? 101) || (c =? 69))%N eqn:C.
  - assert (C0 : c <> 0%N) by (intros ->; discriminate).
    destruct (some_digits _) as [r'|] eqn:S; [|discriminate]. intros [= <- <-]. right. apply eats_cons; auto.
    apply some_digits_eats in S. destruct t as [|s t]; auto. destruct ((s =? 43) || (s =? 45))%N eqn:SS; auto.
    apply eats_cons; auto. intros ->. discriminate.
  - intros [= <- <-]. left. auto.
Qed.

Lemma lex_exponent_app t b r u : r <> [] -> lex_exponent t = Some (b, r) -> lex_exponent (t ++ u) = Some (b, r ++ u).
Proof.
  intros R. unfold lex_exponent. destruct t as [|c t]; [intros [= <- <-]; congruence|]. cbn [app].
  destruct ((c =? 101) || (c =? 69))%N eqn:C.
  - destruct t as [|s t]; [discriminate|]. cbn [app].
    destruct ((s =? 43) || (s =? 45))%N; (destruct (some_digits _) as [r'|] eqn:S; [|discriminate]); intros [= <- <-].
    + rewrite (some_digits_app _ _ _ R S). auto.
    + change (s :: t ++ u) with ((s :: t) ++ u). rewrite (some_digits_app _ _ _ R S). auto.
  - intros [= <- <-]. auto.
Qed.

Lemma eats_nonempty t r : eats0 t r -> r <> [] -> t <> [].
Proof. intros [->|E]; auto. intros _ ->. apply eats_length in E. cbn in E. lia. Qed.

Lemma lex_unsigned_gen neg t j r : lex_unsigned neg t = Some (j, r) ->
  eats t r /\ (r <> [] -> forall u, lex_unsigned neg (t ++ u) = Some (j, r ++ u)).
Proof.
  unfold lex_unsigned. destruct (take_digits t) as [ds t1] eqn:T. destruct ds as [|c ds]; [discriminate|].
  destruct (match ds with [] => false | _ :: _ => (c =? 48)%N end) eqn:Z; [discriminate|].
  destruct (lex_fraction t1) as [[fr t2]|] eqn:F; [|discriminate].
  destruct (lex_exponent t2) as [[ex t3]|] eqn:X; [|discriminate]. intros [= <- <-].
  pose proof (take_digits_split _ _ _ T) as (-> & N & _). split.
  - apply eats_eats0 with t1; [exists (c :: ds); splits; auto; discriminate|].
    apply lex_fraction_eats in F. apply lex_exponent_eats in X. destruct F as [->|F]; auto. right. eapply eats_eats0; eauto.
  - intros R u. pose proof (eats_nonempty _ _ (lex_exponent_eats _ _ _ X) R) as R2.
    pose proof (eats_nonempty _ _ (lex_fraction_eats _ _ _ F) R2) as R1.
    rewrite (take_digits_app _ u _ _ R1 T), Z, (lex_fraction_app _ _ _ u R2 F), (lex_exponent_app _ _ _ u R X). auto.
Qed.

(** Words *)

Lemma strip_prefix_spec p : forall t r, strip_prefix p t = Some r <-> t = p ++ r.
Proof.
  induction p as [|x p IH]; intros t r; cbn [strip_prefix app].
  - split; [intros [= ->]|intros ->]; auto.
  - destruct t as [|y t]; [split; discriminate|]. destruct (N.eqb_spec x y) as [->|].
    + rewrite IH. split; [intros ->; auto|intros [= ->]; auto].
    + split; [discriminate|]. intros [= -> _]. congruence.
Qed.

Lemma lex_word_gen w j' t j r : w <> [] -> ~ In 0%N w -> lex_word w j' t = Some (j, r) ->
  eats t r /\ forall u, lex_word w j' (t ++ u) = Some (j, r ++ u).
Proof.
  intros W N. unfold lex_word. destruct (strip_prefix w t) as [r'|] eqn:S; [|discriminate]. intros [= -> ->].
  apply strip_prefix_spec in S as ->. split; [exists w; auto|]. intros u.
  assert (E : strip_prefix w ((w ++ r) ++ u) = Some (r ++ u)) by (apply strip_prefix_spec; rewrite app_assoc; auto).
  rewrite E. auto.
Qed.

Definition container (j : json) : bool := match j with JArr _ | JObj _ => true | _ => false end.

Lemma lex_scalar_gen t j r : lex_scalar t = Some (j, r) ->
  eats t r /\ (r <> [] -> forall u, lex_scalar (t ++ u) = Some (j, r ++ u)) /\ container j = false.
Proof.
  unfold lex_scalar. destruct t as [|c t]; [discriminate|]. cbn [app].
  destruct (N.eqb_spec c 34) as [->|].
  { destruct (lex_string t) as [[ps r']|] eqn:L; [|discriminate]. intros [= <- <-]. splits.
    - apply eats_cons; [discriminate|]. eapply lex_string_eats; eauto.
    - intros _ u. rewrite (lex_string_app _ _ _ _ L). auto.
    - destruct (decode_pieces ps); auto. }
  assert (U : forall neg x r', lex_unsigned neg x = Some (j, r') -> container j = false).
  { intros neg x r'. unfold lex_unsigned. destruct (take_digits x) as [[|] ?]; [discriminate|].
    destruct (match _ with [] => _ | _ => _ end); [discriminate|]. destruct (lex_fraction _) as [[? ?]|]; [|discriminate].
    destruct (lex_exponent _) as [[? ?]|]; [|discriminate]. intros [= <- _]. destruct (_ || _); auto. }
  destruct (N.eqb_spec c 45) as [->|].
  { intros H. pose proof (U _ _ _ H). apply lex_unsigned_gen in H as [H1 H2]. splits; auto. apply eats_cons; auto. discriminate. }
  destruct (is_digit c) eqn:D.
  { intros H. pose proof (U _ _ _ H). apply lex_unsigned_gen in H as [H1 H2]. splits; auto. }
  assert (K : forall w x, w <> [] -> ~ In 0%N w -> container x = false -> lex_word w x (c :: t) = Some (j, r) ->
    eats (c :: t) r /\ (r <> [] -> forall u, lex_word w x (c :: t ++ u) = Some (j, r ++ u)) /\ container j = false).
  { intros w x W N X H. pose proof H as H'. apply lex_word_gen in H' as [H1 H2]; auto. splits; auto.
    unfold lex_word in H. destruct (strip_prefix _ _); [|discriminate]. injection H as <- _. auto. }
  destruct (c =? 110)%N; [apply K; cbn; auto; [discriminate|intuition discriminate]|].
  destruct (c =? 116)%N; [apply K; cbn; auto; [discriminate|intuition discriminate]|].
  destruct (c =? 102)%N; [apply K; cbn; auto; [discriminate|intuition discriminate]|].
  discriminate.
Qed.

(** ** The parser *)

Lemma skip_scalar t u j r : lex_scalar (skip_ws t) = Some (j, r) -> r <> [] -> lex_scalar (skip_ws (t ++ u)) = Some (j, r ++ u).
Proof.
  intros H R. destruct (skip_ws t) as [|c l] eqn:S; [discriminate|]. rewrite (skip_ws_app _ u _ _ S).
  apply lex_scalar_gen in H as (_ & H & _). apply (H R).
Qed.

Lemma eats_skip t r : eats (skip_ws t) r -> eats t r.
Proof. intros H. destruct (skip_ws_split t) as (w & E & N & _). rewrite E. apply eats_app; auto. Qed.

Lemma expect_skip_nonempty c t r : expect c t = Some r -> skip_ws t <> [].
Proof. rewrite expect_some. congruence. Qed.

Lemma parse_gen f :
  (forall t j r, parse_value f t = Ret (Some (j, r)) ->
     eats t r /\ (r <> [] \/ container j = true -> forall u, parse_value f (t ++ u) = Ret (Some (j, r ++ u)))) /\
  (forall t l r, parse_elems f t = Ret (Some (l, r)) ->
     eats t r /\ forall u, parse_elems f (t ++ u) = Ret (Some (l, r ++ u))) /\
  (forall t l r, parse_fields f t = Ret (Some (l, r)) ->
     eats t r /\ forall u, parse_fields f (t ++ u) = Ret (Some (l, r ++ u))).
Proof.
  induction f as [|f (IHv & IHe & IHf)]; [splits; discriminate|]. splits.
  - intros t j r. cbn [parse_value].
    destruct (expect 91 t) as [t1|] eqn:X.
    { pose proof (expect_eats 91 _ _ ltac:(discriminate) X) as E1.
      destruct (expect 93 t1) as [r1|] eqn:Y.
      - intros [= <- <-]. split; [eapply eats_trans; eauto; eapply expect_eats; eauto; discriminate|]. intros _ u.
        rewrite (expect_app _ _ u _ X), (expect_app _ _ u _ Y). auto.
      - destruct (parse_elems f t1) as [[[l r1]|]| | |] eqn:P; try discriminate. cbn [bind]. intros [= <- <-].
        apply IHe in P as [E2 H]. split; [eapply eats_trans; eauto|]. intros _ u.
        rewrite (expect_app _ _ u _ X), H.
        assert (N : expect 93 (t1 ++ u) = None).
        { apply expect_none_app; auto. intros S. destruct f; [discriminate (H [])|].
          specialize (H []). rewrite app_nil_r in H. revert H. cbn [parse_elems]. destruct f; [discriminate|]. cbn [parse_value].
          unfold expect. rewrite S. cbn. discriminate. }
        rewrite N. auto. }
    destruct (expect 123 t) as [t1|] eqn:X'.
    { pose proof (expect_eats 123 _ _ ltac:(discriminate) X') as E1.
      assert (X2 : forall u, expect 91 (t ++ u) = None) by (intros u; apply expect_none_app; auto; eapply expect_skip_nonempty; eauto).
      destruct (expect 125 t1) as [r1|] eqn:Y.
      - intros [= <- <-]. split; [eapply eats_trans; eauto; eapply expect_eats; eauto; discriminate|]. intros _ u.
        rewrite X2, (expect_app _ _ u _ X'), (expect_app _ _ u _ Y). auto.
      - destruct (parse_fields f t1) as [[[l r1]|]| | |] eqn:P; try discriminate. cbn [bind]. intros [= <- <-].
        apply IHf in P as [E2 H]. split; [eapply eats_trans; eauto|]. intros _ u.
        rewrite X2, (expect_app _ _ u _ X'), H.
        assert (N : expect 125 (t1 ++ u) = None).
        { apply expect_none_app; auto. intros S. destruct f; [discriminate (H [])|].
          specialize (H []). rewrite app_nil_r in H. revert H. cbn [parse_fields].
          unfold expect. rewrite S. cbn. discriminate. }
        rewrite N. auto. }
    intros [= H]. pose proof (lex_scalar_gen _ _ _ H) as (E1 & _ & C). split; [apply eats_skip; auto|]. intros [R|R] u; [|congruence].
    assert (S : skip_ws t <> []) by (intros S; rewrite S in H; discriminate).
    rewrite (expect_none_app _ _ u S X), (expect_none_app _ _ u S X'), (skip_scalar _ u _ _ H R). auto.
  - intros t l r. cbn [parse_elems].
    destruct (parse_value f t) as [[[j t1]|]| | |] eqn:P; try discriminate. cbn [bind].
    apply IHv in P as [E1 H].
    destruct (expect 93 t1) as [r1|] eqn:Y.
    + intros [= <- <-]. split; [eapply eats_trans; eauto; eapply expect_eats; eauto; discriminate|]. intros u.
      rewrite H by (left; intros ->; discriminate). cbn [bind]. rewrite (expect_app _ _ u _ Y). auto.
    + destruct (expect 44 t1) as [t2|] eqn:Z; [|discriminate].
      destruct (parse_elems f t2) as [[[l' r1]|]| | |] eqn:P2; try discriminate. cbn [bind]. intros [= <- <-].
      apply IHe in P2 as [E3 H3]. split.
      { eapply eats_trans; eauto. eapply eats_trans; [eapply expect_eats; eauto; discriminate|]. auto. }
      intros u. rewrite H by (left; intros ->; discriminate). cbn [bind].
      rewrite (expect_none_app _ _ u (expect_skip_nonempty _ _ _ Z) Y), (expect_app _ _ u _ Z), H3. auto.
  - intros t l r. cbn [parse_fields].
    destruct (expect 34 t) as [t1|] eqn:X; [|discriminate].
    destruct (lex_string t1) as [[ps t2]|] eqn:L; [|discriminate].
    destruct (expect 58 t2) as [t3|] eqn:X2; [|discriminate].
    assert (E0 : eats t t3).
    { eapply eats_trans; [eapply expect_eats; eauto; discriminate|]. eapply eats_trans; [eapply lex_string_eats; eauto|].
      eapply expect_eats; eauto. discriminate. }
    destruct (parse_value f t3) as [[[j t4]|]| | |] eqn:P; try discriminate. cbn [bind].
    apply IHv in P as [E1 H]. cbv zeta.
    destruct (expect 125 t4) as [r1|] eqn:Y.
    + intros [= <- <-]. split.
      { eapply eats_trans; eauto. eapply eats_trans; eauto; eapply expect_eats; eauto; discriminate. }
      intros u. rewrite (expect_app _ _ u _ X), (lex_string_app _ _ _ u L), (expect_app _ _ u _ X2).
      rewrite H by (left; intros ->; discriminate). cbn [bind]. rewrite (expect_app _ _ u _ Y). auto.
    + destruct (expect 44 t4) as [t5|] eqn:Z; [|discriminate].
      destruct (parse_fields f t5) as [[[l' r1]|]| | |] eqn:P2; try discriminate. cbn [bind]. intros [= <- <-].
      apply IHf in P2 as [E3 H3]. split.
      { eapply eats_trans; eauto. eapply eats_trans; eauto. eapply eats_trans; [eapply expect_eats; eauto; discriminate|]. auto. }
      intros u. rewrite (expect_app _ _ u _ X), (lex_string_app _ _ _ u L), (expect_app _ _ u _ X2).
      rewrite H by (left; intros ->; discriminate). cbn [bind].
      rewrite (expect_none_app _ _ u (expect_skip_nonempty _ _ _ Z) Y), (expect_app _ _ u _ Z), H3. auto.
Qed.

(** More steps do not change the result. *)
Lemma parse_mono f :
  (forall t o f', parse_value f t = Ret o -> f <= f' -> parse_value f' t = Ret o) /\
  (forall t o f', parse_elems f t = Ret o -> f <= f' -> parse_elems f' t = Ret o) /\
  (forall t o f', parse_fields f t = Ret o -> f <= f' -> parse_fields f' t = Ret o).
Proof.
  induction f as [|f (IHv & IHe & IHf)]; [splits; discriminate|].
  splits; intros t o f' H L; (destruct f' as [|f']; [lia|]); apply le_S_n in L; revert H;
    cbn [parse_value parse_elems parse_fields].
  - destruct (expect 91 t) as [t1|].
    { destruct (expect 93 t1); auto. destruct (parse_elems f t1) eqn:P; try discriminate. rewrite (IHe _ _ _ P L). auto. }
    destruct (expect 123 t) as [t1|]; auto.
    destruct (expect 125 t1); auto. destruct (parse_fields f t1) eqn:P; try discriminate. rewrite (IHf _ _ _ P L). auto.
  - destruct (parse_value f t) as [v| | |] eqn:P; try discriminate. rewrite (IHv _ _ _ P L). cbn [bind].
    destruct v as [[j t1]|]; auto. destruct (expect 93 t1); auto. destruct (expect 44 t1) as [t2|]; auto.
    destruct (parse_elems f t2) eqn:P2; try discriminate. rewrite (IHe _ _ _ P2 L). auto.
  - destruct (expect 34 t) as [t1|]; auto. destruct (lex_string t1) as [[ps t2]|]; auto. destruct (expect 58 t2) as [t3|]; auto.
    destruct (parse_value f t3) as [v| | |] eqn:P; try discriminate. rewrite (IHv _ _ _ P L). cbn [bind].
    destruct v as [[j t4]|]; auto. destruct (expect 125 t4); auto. destruct (expect 44 t4) as [t5|]; auto.
    destruct (parse_fields f t5) eqn:P2; try discriminate. rewrite (IHf _ _ _ P2 L). auto.
Qed.

(** The steps which [json_read] allows are enough. *)
Lemma parse_enough f :
  (forall t, 2 * length t + 2 <= f -> exists o, parse_value f t = Ret o) /\
  (forall t, 2 * length t + 3 <= f -> exists o, parse_elems f t = Ret o) /\
  (forall t, 2 * length t + 3 <= f -> exists o, parse_fields f t = Ret o).
Proof.
  induction f as [|f (IHv & IHe & IHf)]; [splits; intros; lia|].
  splits; intros t L; cbn [parse_value parse_elems parse_fields].
  - destruct (expect 91 t) as [t1|] eqn:X.
    { apply expect_eats, eats_length in X; [|discriminate]. destruct (expect 93 t1); eauto.
      destruct (IHe t1) as [o ->]; [lia|]. cbn; eauto. }
    destruct (expect 123 t) as [t1|] eqn:X'; eauto.
    apply expect_eats, eats_length in X'; [|discriminate]. destruct (expect 125 t1); eauto.
    destruct (IHf t1) as [o ->]; [lia|]. cbn; eauto.
  - destruct (IHv t) as [[[j t1]|] P]; [lia| |]; rewrite P; cbn [bind]; eauto. apply parse_gen in P as [P _].
    apply eats_length in P. destruct (expect 93 t1); eauto. destruct (expect 44 t1) as [t2|] eqn:X; eauto.
    apply expect_eats, eats_length in X; [|discriminate]. destruct (IHe t2) as [o ->]; [lia|]. cbn; eauto.
  - destruct (expect 34 t) as [t1|] eqn:X; eauto. destruct (lex_string t1) as [[ps t2]|] eqn:Y; eauto.
    destruct (expect 58 t2) as [t3|] eqn:Z; eauto.
    apply expect_eats, eats_length in X, Z; try discriminate. apply lex_string_eats, eats_length in Y.
    destruct (IHv t3) as [[[j t4]|] P]; [lia| |]; rewrite P; cbn [bind]; eauto. apply parse_gen in P as [P _].
    apply eats_length in P. cbv zeta. destruct (expect 125 t4); eauto. destruct (expect 44 t4) as [t5|] eqn:U; eauto.
    apply expect_eats, eats_length in U; [|discriminate]. destruct (IHf t5) as [o ->]; [lia|]. cbn; eauto.
Qed.

Lemma json_read_total t : exists o, json_read t = Ret o.
Proof.
  unfold json_read. destruct (proj1 (parse_enough (S (S (2 * length t)))) t) as [o ->]; [lia|]. cbn. eauto.
Qed.

(** Reading in one line. *)
Lemma json_read_some t j : json_read t = Ret (Some j) <-> exists f r, parse_value f t = Ret (Some (j, r)) /\ skip_ws r = [].
Proof.
  unfold json_read. destruct (proj1 (parse_enough (S (S (2 * length t)))) t) as [o E]; [lia|]. split.
  - rewrite E. cbn [bind]. destruct o as [[j' r]|]; [|discriminate]. destruct (skip_ws r) eqn:S; [|discriminate].
    intros [= ->]. eauto.
  - intros (f & r & P & Hs).
    assert (E2 : Ret o = Ret (Some (j, r))).
    { rewrite <- (proj1 (parse_mono _) t o (f + S (S (2 * length t))) E), <- (proj1 (parse_mono _) t _ (f + S (S (2 * length t))) P); auto; lia. }
    injection E2 as ->. rewrite E. cbn [bind]. rewrite Hs. auto.
Qed.

(** A text and the longer text which starts with it have the same value, if both are JSON and the
    value is an array or an object. *)
Lemma json_read_prefix s t j j' : json_read s = Ret (Some j) -> container j = true ->
  json_read (s ++ t) = Ret (Some j') -> j' = j.
Proof.
  rewrite !json_read_some. intros (f & r & P & S) C (f' & r' & P' & S').
  apply parse_gen in P as [_ P]. specialize (P (or_intror C) t).
  pose proof (proj1 (parse_mono _) _ _ (f + f') P ltac:(lia)) as A.
  pose proof (proj1 (parse_mono _) _ _ (f + f') P' ltac:(lia)) as B.
  rewrite A in B. injection B as <- _. auto.
Qed.

(** JSON has no NUL. *)
Lemma json_read_no_nul t j : json_read t = Ret (Some j) -> ~ In 0%N t.
Proof.
  rewrite json_read_some. intros (f & r & P & S). apply parse_gen in P as [(w & -> & _ & N) _].
  rewrite in_app_iff. intros [X|X]; auto.
  destruct (skip_ws_split r) as (v & E & M & _). rewrite S, app_nil_r in E. subst. auto.
Qed.

(** ** What was written is read back *)

Section JsonInd.
Context (P : json -> Prop).
Context (Hnull : P JNull) (Hbool : forall b, P (JBool b)) (Hnum : forall n, P (JNum n)) (Hstr : forall t, P (JStr t))
  (Harr : forall l, Forall P l -> P (JArr l)) (Hobj : forall fs, Forall (fun f => P (snd f)) fs -> P (JObj fs))
  (Hother : P JOther).

Fixpoint json_nested_ind (j : json) : P j :=
  match j with
  | JNull => Hnull
  | JBool b => Hbool b
  | JNum n => Hnum n
  | JStr t => Hstr t
  | JArr l => Harr l ((fix go l : Forall P l :=
      match l with [] => Forall_nil _ | x :: t => Forall_cons _ (json_nested_ind x) (go t) end) l)
  | JObj fs => Hobj fs ((fix go fs : Forall (fun f => P (snd f)) fs :=
      match fs with [] => Forall_nil _ | x :: t => Forall_cons _ (json_nested_ind (snd x)) (go t) end) fs)
  | JOther => Hother
  end.
End JsonInd.

(** What follows a value inside an array or an object. *)
Definition sep (u : list N) : Prop := match u with [] => True | c :: _ => In c [44; 93; 125]%N end.

Lemma small_cases (Q : N -> Prop) n : (forall k, In k (map N.of_nat (seq 0 n)) -> Q k) -> forall c, (c < N.of_nat n)%N -> Q c.
Proof.
  intros H c L. apply H. rewrite <- (N2Nat.id c). apply in_map. apply in_seq. lia.
Qed.

Definition piece_of (c : N) : string_piece :=
  if ((c <? 32) && negb ((c =? 8) || (c =? 9) || (c =? 10) || (c =? 12) || (c =? 13)))%N then PieceHex c else PieceChar c.

Lemma lex_escape c t : lex_string (escape_char c ++ t) = cons_piece (piece_of c) (lex_string t).
Proof.
  destruct (c <? 32)%N eqn:L.
  - apply N.ltb_lt in L. revert c L. apply (small_cases _ 32). intros k H. cbn in H.
    repeat (destruct H as [<-|H]; [reflexivity|]). destruct H.
  - unfold escape_char, piece_of. rewrite L. cbn [andb].
    destruct (N.eqb_spec c 34) as [->|]; [reflexivity|]. destruct (N.eqb_spec c 92) as [->|]; [reflexivity|].
    apply N.ltb_ge in L.
    destruct (N.eqb_spec c 8); [lia|]. destruct (N.eqb_spec c 9); [lia|]. destruct (N.eqb_spec c 10); [lia|].
    destruct (N.eqb_spec c 12); [lia|]. destruct (N.eqb_spec c 13); [lia|]. cbn [app lex_string].
    apply N.eqb_neq in n, n0. rewrite n, n0. destruct (N.ltb_spec c 32); [lia|]. auto.
Qed.

Lemma decode_piece c l : decode_pieces (piece_of c :: l) = option_map (cons c) (decode_pieces l).
Proof.
  destruct (c <? 32)%N eqn:L.
  - apply N.ltb_lt in L. revert c L. apply (small_cases _ 32). intros k H. cbn in H.
    repeat (destruct H as [<-|H]; [reflexivity|]). destruct H.
  - unfold piece_of. rewrite L. reflexivity.
Qed.

Lemma lex_written s u : lex_string (flat_map escape_char s ++ [34%N] ++ u) = Some (map piece_of s, u).
Proof.
  induction s as [|c s IH]; [reflexivity|]. cbn [flat_map map]. rewrite <- app_assoc, lex_escape, IH. reflexivity.
Qed.

Lemma decode_written s : decode_pieces (map piece_of s) = Some s.
Proof. induction s as [|c s IH]; [reflexivity|]. cbn [map]. rewrite decode_piece, IH. reflexivity. Qed.

(** Numbers *)

Lemma digit_chars d : Forall (fun c => is_digit c = true) (s2l (NilEmpty.string_of_uint d)).
Proof. induction d; cbn; constructor; auto. Qed.

Lemma take_written ds u : Forall (fun c => is_digit c = true) ds -> sep u -> take_digits (ds ++ u) = (ds, u).
Proof.
  intros F S. induction F as [|c ds H F IH]; cbn [app take_digits].
  - destruct u as [|c u]; [reflexivity|]. cbn [take_digits]. cbn in S. destruct S as [<-|[<-|[<-|[]]]]; reflexivity.
  - rewrite H, IH. reflexivity.
Qed.

Lemma value_acc d : forall p, fold_left (fun n c => n * 10 + (c - 48))%N (s2l (NilEmpty.string_of_uint d)) (Npos p) =
  Npos (Pos.of_uint_acc d p).
Proof.
  induction d; intros p; cbn [NilEmpty.string_of_uint s2l fold_left Pos.of_uint_acc]; auto.
  all: match goal with |- fold_left _ _ ?x = Npos (Pos.of_uint_acc _ ?q) => replace x with (Npos q); [auto|] end.
  all: match goal with |- context [N_of_ascii ?a] => let x := eval vm_compute in (N_of_ascii a) in change (N_of_ascii a) with x end; lia.
Qed.

Lemma value_uint d : digits_value (s2l (NilEmpty.string_of_uint d)) = Pos.of_uint d.
Proof.
  unfold digits_value. induction d; cbn [NilEmpty.string_of_uint s2l fold_left Pos.of_uint]; auto.
  all: match goal with |- fold_left _ _ ?x = Npos (Pos.of_uint_acc _ ?q) => change x with (Npos q); apply value_acc end.
Qed.

Lemma value_written n : digits_value (write_number n) = n.
Proof. unfold write_number. rewrite value_uint. apply (DecimalN.Unsigned.of_to n). Qed.

Lemma write_number_shape n : exists c ds, write_number n = c :: ds /\ is_digit c = true /\ (c = 48%N -> ds = []).
Proof.
  unfold write_number. pose proof (DecimalN.Unsigned.to_of (N.to_uint n)) as E. rewrite DecimalN.Unsigned.of_to in E.
  destruct (N.to_uint n) as [|d|d|d|d|d|d|d|d|d|d] eqn:U; cbn; try (do 2 eexists; splits; [reflexivity|reflexivity|discriminate]).
  - exfalso. cbn in E. discriminate.
  - do 2 eexists. splits; [reflexivity|reflexivity|]. intros _.
    unfold unorm in E. destruct (nzhead (D0 d)) eqn:Z; try discriminate.
    + injection E as ->. reflexivity.
    + exfalso. eapply nzhead_nonzero; eauto.
Qed.

Lemma lex_number_written n u : sep u -> lex_scalar (write_number n ++ u) = Some (JNum n, u).
Proof.
  intros S. destruct (write_number_shape n) as (c & ds & E & D & Z).
  unfold lex_scalar. rewrite E. cbn [app].
  assert (N34 : (c =? 34)%N = false) by (apply N.eqb_neq; intros ->; discriminate).
  assert (N45 : (c =? 45)%N = false) by (apply N.eqb_neq; intros ->; discriminate).
  rewrite N34, N45, D. unfold lex_unsigned.
  change (c :: ds ++ u) with ((c :: ds) ++ u). rewrite take_written; [|rewrite <- E; apply digit_chars|auto].
  cbv zeta.
  assert (L : match ds with [] => false | _ :: _ => (c =? 48)%N end = false).
  { destruct ds; auto. apply N.eqb_neq. intros X. specialize (Z X). discriminate. }
  rewrite L.
  assert (F : lex_fraction u = Some (false, u)).
  { destruct u as [|x u]; [reflexivity|]. cbn in S. destruct S as [<-|[<-|[<-|[]]]]; reflexivity. }
  assert (X : lex_exponent u = Some (false, u)).
  { destruct u as [|x u]; [reflexivity|]. cbn in S. destruct S as [<-|[<-|[<-|[]]]]; reflexivity. }
  rewrite F, X, <- E, value_written. auto.
Qed.

(** Values *)

Lemma expect_head c d t : is_ws c = false -> expect d (c :: t) = if (c =? d)%N then Some t else None.
Proof. intros H. unfold expect. cbn [skip_ws]. rewrite H. reflexivity. Qed.

Lemma digit_facts c : is_digit c = true -> is_ws c = false /\ c <> 91%N /\ c <> 123%N /\ c <> 93%N /\ c <> 125%N.
Proof.
  unfold is_digit, is_ws. intros H. apply andb_true_iff in H as [H1 H2]. apply N.leb_le in H1, H2.
  splits; try (intros ->; cbn in *; lia).
  repeat (apply orb_false_iff; split); apply N.eqb_neq; lia.
Qed.

(** How a written value starts. *)
Lemma written_head j : plain j = true -> exists c r, json_write j = c :: r /\ is_ws c = false /\ c <> 93%N /\ c <> 125%N /\
  match j with JArr _ => c = 91%N | JObj _ => c = 123%N | _ => c <> 91%N /\ c <> 123%N end.
Proof.
  destruct j as [|[]|n|t|l|fs|]; cbn [plain json_write]; intros H; try discriminate.
  all: try (do 2 eexists; split; [reflexivity|]; splits; solve [reflexivity|discriminate]).
  destruct (write_number_shape n) as (c & ds & E & D & _). apply digit_facts in D as (D1 & D2 & D3 & D4 & D5).
  exists c, ds. splits; auto.
Qed.

Definition reads_back (j : json) : Prop :=
  plain j = true -> forall u, sep u -> exists f, parse_value f (json_write j ++ u) = Ret (Some (j, u)).

Lemma scalar_back j u : plain j = true -> container j = false -> lex_scalar (json_write j ++ u) = Some (j, u) ->
  exists f, parse_value f (json_write j ++ u) = Ret (Some (j, u)).
Proof.
  intros H C L. exists 1. cbn [parse_value]. destruct (written_head j H) as (c & r & E & W & _ & _ & X).
  assert (c <> 91 /\ c <> 123)%N as [N1 N2] by (destruct j; auto; discriminate).
  revert L. rewrite E. cbn [app]. intros L. rewrite !expect_head; auto.
  apply N.eqb_neq in N1, N2. rewrite N1, N2. cbn [skip_ws]. rewrite W, L. reflexivity.
Qed.

Lemma commas_cons x l : l <> [] -> commas (x :: l) = x ++ [44%N] ++ commas l.
Proof. destruct l; [congruence|reflexivity]. Qed.

Lemma elems_back l u : Forall reads_back l -> forallb plain l = true -> l <> [] ->
  exists f, parse_elems f (commas (map json_write l) ++ [93%N] ++ u) = Ret (Some (l, u)).
Proof.
  intros F. induction F as [|j l H F IH]; [congruence|]. cbn [forallb]. intros P _. apply andb_true_iff in P as [P1 P2].
  destruct l as [|j2 l].
  - cbn [map commas]. destruct (H P1 ([93%N] ++ u)) as [f E]; [cbn; auto|]. exists (S f). cbn [parse_elems]. rewrite E.
    cbn [bind]. cbn [app]. rewrite expect_head; auto.
  - destruct IH as [f' E']; auto; [discriminate|]. cbn [map]. rewrite commas_cons by discriminate. cbn [map] in E'.
    rewrite <- !app_assoc. set (rest := commas _ ++ _) in *.
    destruct (H P1 ([44%N] ++ rest)) as [f E]; [cbn; auto|]. exists (S (f + f')). cbn [parse_elems].
    rewrite (proj1 (parse_mono _) _ _ (f + f') E) by lia. cbn [bind app]. rewrite !expect_head; auto. cbn [N.eqb Pos.eqb].
    rewrite (proj1 (proj2 (parse_mono _)) _ _ (f + f') E') by lia. reflexivity.
Qed.

Lemma fields_back fs u : Forall (fun f => reads_back (snd f)) fs -> forallb (fun f => plain (snd f)) fs = true -> fs <> [] ->
  exists f, parse_fields f (commas (map (fun '(k, v) => write_string k ++ [58%N] ++ json_write v) fs) ++ [125%N] ++ u) =
    Ret (Some (map (fun '(k, v) => (Some k, v)) fs, u)).
Proof.
  intros F. induction F as [|[k j] fs H F IH]; [congruence|]. cbn [forallb snd] in *. intros P _. apply andb_true_iff in P as [P1 P2].
  assert (K : forall t g, parse_fields (S g) (write_string k ++ [58%N] ++ t) =
    (v <- parse_value g t;;
     match v with
     | None => Ret None
     | Some (j, t4) =>
         match expect 125 t4 with
         | Some rest => Ret (Some ([(Some k, j)], rest))
         | None => match expect 44 t4 with
                   | None => Ret None
                   | Some t5 => r <- parse_fields g t5;;
                       Ret (match r with Some (l, rest) => Some ((Some k, j) :: l, rest) | None => None end)
                   end
         end
     end)).
  { intros t g. cbn [parse_fields]. unfold write_string. rewrite <- !app_assoc. cbn [app].
    rewrite expect_head by auto. cbn [N.eqb Pos.eqb]. pose proof (lex_written k (58%N :: t)) as L. cbn [app] in L. rewrite L.
    rewrite expect_head by auto. cbn [N.eqb Pos.eqb]. rewrite decode_written. reflexivity. }
  destruct fs as [|kv2 fs].
  - cbn [map commas]. destruct (H P1 ([125%N] ++ u)) as [f E]; [cbn; auto|]. exists (S f). rewrite <- !app_assoc, K, E.
    cbn [bind app]. rewrite expect_head; auto.
  - destruct IH as [f' E']; auto; [discriminate|]. cbn [map]. rewrite commas_cons by discriminate. cbn [map] in E'.
    rewrite <- !app_assoc. set (rest := commas _ ++ _) in *.
    destruct (H P1 ([44%N] ++ rest)) as [f E]; [cbn; auto|]. exists (S (f + f')).
    rewrite K, (proj1 (parse_mono _) _ _ (f + f') E) by lia. cbn [bind app]. rewrite !expect_head; auto. cbn [N.eqb Pos.eqb].
    rewrite (proj2 (proj2 (parse_mono _)) _ _ (f + f') E') by lia. reflexivity.
Qed.

Lemma object_of_some fs : object_of (map (fun '(k, v) => (Some k, v)) fs) = JObj fs.
Proof.
  unfold object_of. rewrite (mapO_map _ _ (fun x => x)); [rewrite map_id; auto|]. intros [k v] _. reflexivity.
Qed.

Lemma all_read_back j : reads_back j.
Proof.
  induction j as [|b|n|t|l F|fs F|] using json_nested_ind; intros P u Su.
  - apply scalar_back; auto.
  - apply scalar_back; auto; destruct b; reflexivity.
  - apply scalar_back; auto. apply lex_number_written; auto.
  - apply scalar_back; auto. cbn [json_write]. unfold write_string. rewrite <- !app_assoc. cbn [app lex_scalar N.eqb Pos.eqb].
    pose proof (lex_written t u) as L. cbn [app] in L. rewrite L, decode_written. reflexivity.
  - destruct l as [|j l]; [exists 1; reflexivity|]. destruct (elems_back (j :: l) u F) as [f E]; auto; [discriminate|].
    exists (S f). cbn [json_write]. rewrite <- !app_assoc. set (text := commas _ ++ _) in *. cbn [parse_value].
    cbn [app]. rewrite expect_head by auto. cbn [N.eqb Pos.eqb]. rewrite E. cbn [bind].
    assert (N : expect 93 text = None).
    { unfold text. cbn [plain forallb] in P. apply andb_true_iff in P as [P _].
      destruct (written_head j P) as (c & r & W & W1 & W2 & _). cbn [map].
      destruct l as [|j2 l]; [cbn [map commas]|cbn [map]; rewrite commas_cons by discriminate; rewrite <- app_assoc];
        rewrite W; cbn [app]; rewrite expect_head by auto; apply N.eqb_neq in W2; rewrite W2; auto. }
    rewrite N. reflexivity.
  - destruct fs as [|[k j] fs]; [exists 1; reflexivity|]. destruct (fields_back ((k, j) :: fs) u F) as [f E]; auto; [discriminate|].
    exists (S f). cbn [json_write]. rewrite <- !app_assoc. set (text := commas _ ++ _) in *. cbn [parse_value].
    cbn [app]. rewrite !expect_head by auto. cbn [N.eqb Pos.eqb]. rewrite E. cbn [bind].
    assert (N : expect 125 text = None).
    { unfold text. cbn [map]. unfold write_string at 1.
      destruct fs as [|f2 fs]; [cbn [map commas]|cbn [map]; rewrite commas_cons by discriminate];
        rewrite <- !app_assoc; cbn [app]; rewrite expect_head by auto; reflexivity. }
    rewrite N, object_of_some. reflexivity.
  - discriminate.
Qed.

Lemma json_read_write j : plain j = true -> json_read (json_write j) = Ret (Some j).
Proof.
  intros P. apply json_read_some. destruct (all_read_back j P [] I) as [f E]. rewrite app_nil_r in E. exists f, []. auto.
Qed.
