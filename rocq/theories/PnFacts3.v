(** Proofs about parsing blocks of place notation. *)
From Verif Require Import Base Bell Stage Row Utils SameStageVec Block PlaceNot Spec SpecVec SpecBlock SpecPn ListFacts
  BellFacts RowFacts MulFacts SsvFacts BlockFacts PnFacts PnFacts2.
Local Open Scope list_scope.

Lemma blen_nil : byte_len [] = 0.
Proof. reflexivity. Qed.
Lemma blen_cons c b : byte_len (c :: b) = utf8_len c + byte_len b.
Proof. reflexivity. Qed.
Lemma blen_app a b : byte_len (a ++ b) = byte_len a + byte_len b.
Proof. induction a as [|c a IH]; cbn [app]; auto. rewrite !blen_cons, IH. lia. Qed.

(** ** Characters *)

Lemma s2l1 c a : [c] = [a] <-> c = (a : N).
Proof. split; [intros H; injection H; auto|intros ->; auto]. Qed.

Definition cm_bell c := exists b, bell_from_name c = Some b /\ char_meaning_of c = CmBell b.

Lemma char_cases c :
  (exists b, bell_from_name c = Some b /\ char_meaning_of c = CmBell b) \/
  (is_plus_char c /\ char_meaning_of c = CmAsym) \/
  (is_delimiter_char c /\ char_meaning_of c = CmDelimiter) \/
  (is_cross_char c /\ char_meaning_of c = CmCross) \/
  (is_ignored_char c /\ char_meaning_of c = CmUnknown).
Proof.
  unfold is_plus_char, is_delimiter_char, is_cross_char, is_ignored_char, is_bell_char, char_meaning_of.
  destruct (bell_from_name c) as [b|] eqn:E; [left; eauto|right].
  unfold is_plus_char, is_delimiter_char, is_cross_char. cbn [s2l].
  destruct (N.eqb_spec c 43) as [->|H1]; [left; auto|].
  destruct (N.eqb_spec c 32) as [->|H2]; [right; left; auto|].
  destruct (N.eqb_spec c 46) as [->|H3]; [right; left; auto|].
  destruct (N.eqb_spec c 120) as [->|H4]; [right; right; left; auto|].
  destruct (N.eqb_spec c 88) as [->|H5]; [right; right; left; auto|].
  destruct (N.eqb_spec c 45) as [->|H6]; [right; right; left; auto|].
  right; right; right. cbn. splits; auto; intros K; repeat destruct K as [K|K]; injection K; auto.
Qed.

Lemma bell_char_meaning c : is_bell_char c -> exists b, bell_from_name c = Some b /\ char_meaning_of c = CmBell b.
Proof.
  unfold is_bell_char. destruct (bell_from_name c) as [b|] eqn:E; [|congruence]. intros _. exists b.
  unfold char_meaning_of. rewrite E. auto.
Qed.
Lemma plus_meaning c : is_plus_char c -> char_meaning_of c = CmAsym.
Proof. intros H. injection H as ->. reflexivity. Qed.
Lemma delimiter_meaning c : is_delimiter_char c -> char_meaning_of c = CmDelimiter.
Proof. intros [H|H]; injection H as ->; reflexivity. Qed.
Lemma cross_meaning c : is_cross_char c -> char_meaning_of c = CmCross.
Proof. intros [H|[H|H]]; injection H as ->; reflexivity. Qed.
Lemma ignored_meaning c : is_ignored_char c -> char_meaning_of c = CmUnknown.
Proof.
  intros (H1 & H2 & H3 & H4). destruct (char_cases c) as [(b & E & M)|[[H M]|[[H M]|[[H M]|[H M]]]]]; try tauto.
  exfalso. apply H1. unfold is_bell_char. congruence.
Qed.
Lemma ignored_bell c : is_ignored_char c -> bell_from_name c = None.
Proof.
  intros (H1 & _). unfold is_bell_char in H1. destruct (bell_from_name c); auto. exfalso; apply H1; congruence.
Qed.

(** ** Tokens *)

Fixpoint tk (off i : nat) (t : str) : list (nat * char_meaning) :=
  match t with
  | [] => [(i + off, CmDelimiter)]
  | c :: t' => (i + off, char_meaning_of c) :: tk off (i + utf8_len c) t'
  end.

Lemma tok_indices_tk t off : tok_indices t off = tk off 0 t.
Proof.
  unfold tok_indices. enough (G : forall i,
    map (fun '(j, c) => (j + off, char_meaning_of c)) (char_indices_from i t) ++ [(i + off + byte_len t, CmDelimiter)] = tk off i t).
  { rewrite <- G. reflexivity. }
  induction t as [|c t IH]; intros i; cbn [char_indices_from map app tk].
  - cbn. rewrite Nat.add_0_r. reflexivity.
  - f_equal. rewrite <- IH. f_equal. f_equal. f_equal. rewrite blen_cons. lia.
Qed.

Definition word_chars (w : list N) : Prop := Forall (fun c => is_bell_char c \/ is_ignored_char c) w.
Definition blank_chars (w : list N) : Prop := Forall (fun c => is_delimiter_char c \/ is_ignored_char c) w.

Lemma run_word off s w : word_chars w -> forall t i places start buf, places <> [] ->
  asym_loop off s (tk off i (w ++ t)) places start buf =
  asym_loop off s (tk off (i + byte_len w) t) (places ++ filter_map bell_from_name w) start buf.
Proof.
  induction 1 as [|c w H F IH]; intros t i places start buf N.
  - cbn [app filter_map]. rewrite app_nil_r. rewrite ?blen_nil. rewrite Nat.add_0_r. reflexivity.
  - cbn [app tk asym_loop filter_map]. destruct H as [H|H].
    + apply bell_char_meaning in H as (b & E & M). rewrite M, E. destruct places as [|p places]; [congruence|].
      rewrite IH by discriminate. rewrite <- app_assoc. cbn [app]. rewrite blen_cons, Nat.add_assoc. reflexivity.
    + rewrite ignored_meaning, ignored_bell by auto. rewrite IH by auto. rewrite blen_cons, Nat.add_assoc. reflexivity.
Qed.

Lemma run_blank off s w : blank_chars w -> forall t i start buf,
  asym_loop off s (tk off i (w ++ t)) [] start buf = asym_loop off s (tk off (i + byte_len w) t) [] start buf.
Proof.
  induction 1 as [|c w H F IH]; intros t i start buf.
  - cbn [app]. rewrite ?blen_nil. rewrite Nat.add_0_r. reflexivity.
  - cbn [app tk asym_loop]. rewrite blen_cons, Nat.add_assoc, <- IH.
    destruct H as [H|H]; [rewrite delimiter_meaning by auto|rewrite ignored_meaning by auto]; reflexivity.
Qed.

Lemma run_flush off s t i places start buf : ends_word t -> places <> [] ->
  asym_loop off s (tk off i t) places start buf =
  match from_sorted_slice (sort_unstable places) s with
  | Ret (Ok pn) => asym_loop off s (tk off i t) [] start (buf ++ [pn])
  | Ret (Err e) => Ret (Err (PnError start (i + off + off + 1) e))
  | Panic => Panic | Ub => Ub | NoFuel => NoFuel
  end.
Proof.
  intros E N. destruct places as [|p places]; [congruence|]. destruct t as [|c t]; cbn [tk asym_loop].
  - destruct (from_sorted_slice _ s) as [[pn|e]| | |]; cbn [bind]; auto.
  - destruct E as [E|E]; [rewrite (delimiter_meaning _ E)|rewrite (cross_meaning _ E)];
      destruct (from_sorted_slice _ s) as [[pn|e]| | |]; cbn [bind]; auto.
Qed.

Lemma word_not_cross w : is_word w -> ~ cross_text w.
Proof.
  intros [(c & w' & -> & H) _] C. apply cross_written in C. unfold is_bell_char in H.
  apply written_filter in C. cbn [filter_map] in C. destruct (bell_from_name c); [discriminate|congruence].
Qed.

Lemma word_places w : is_word w -> filter_map bell_from_name w <> [].
Proof.
  intros [(c & w' & -> & H) _]. cbn [filter_map]. unfold is_bell_char in H. destruct (bell_from_name c); [discriminate|congruence].
Qed.

Lemma run_whole_word off s w t i start buf : is_word w -> ends_word t ->
  asym_loop off s (tk off i (w ++ t)) [] start buf =
  match pn_parse w s with
  | Ret (Ok pn) => asym_loop off s (tk off (i + byte_len w) t) [] (i + off + off) (buf ++ [pn])
  | Ret (Err e) => Ret (Err (PnError (i + off + off) (i + byte_len w + off + off + 1) e))
  | Panic => Panic | Ub => Ub | NoFuel => NoFuel
  end.
Proof.
  intros W E. rewrite pn_parse_places by (apply word_not_cross; auto). rewrite <- run_flush by (auto; apply word_places; auto).
  destruct W as [(c & w' & -> & H) F]. inversion F as [|? ? _ F']; subst. cbn [app tk asym_loop filter_map].
  apply bell_char_meaning in H as (b & Eb & M). rewrite M, Eb. rewrite run_word by (auto; discriminate).
  cbn [app]. rewrite blen_cons, Nat.add_assoc. reflexivity.
Qed.

(** ** Reading the text of a part *)

Lemma word_span t : exists w y, t = w ++ y /\ word_chars w /\ (ends_word y \/ exists c y', y = c :: y' /\ is_plus_char c).
Proof.
  induction t as [|c t (w & y & -> & W & Y)].
  - exists [], []. splits; auto; [constructor|]. left. cbn. auto.
  - destruct (char_cases c) as [(b & E & M)|[[H M]|[[H M]|[[H M]|[H M]]]]].
    + exists (c :: w), y. splits; auto. constructor; auto. left. unfold is_bell_char. congruence.
    + exists [], (c :: w ++ y). splits; auto; [constructor|]. right. eauto.
    + exists [], (c :: w ++ y). splits; auto; [constructor|]. left. cbn. auto.
    + exists [], (c :: w ++ y). splits; auto; [constructor|]. left. cbn. auto.
    + exists (c :: w), y. splits; auto. constructor; auto.
Qed.

Lemma blank_span t : exists w y, t = w ++ y /\ blank_chars w /\
  (y = [] \/ exists c y', y = c :: y' /\ ~ is_delimiter_char c /\ ~ is_ignored_char c).
Proof.
  induction t as [|c t (w & y & -> & W & Y)].
  - exists [], []. splits; auto. constructor.
  - assert (D : (is_delimiter_char c \/ is_ignored_char c) \/ (~ is_delimiter_char c /\ ~ is_ignored_char c)).
    { destruct (char_cases c) as [(b & E & M)|[[H M]|[[H M]|[[H M]|[H M]]]]]; auto; right; split; intros K;
        (apply delimiter_meaning in K || apply ignored_meaning in K); congruence. }
    destruct D as [D|D].
    + exists (c :: w), y. splits; auto. constructor; auto.
    + exists [], (c :: w ++ y). splits; auto; [constructor|]. right. exists c, (w ++ y). tauto.
Qed.

Definition body_outcome (off s i : nat) (t : str) (buf : list place_not) (r : exec (result (list place_not) pn_block_error)) : Prop :=
  (exists l, r = Ret (Ok (buf ++ l)) /\ body_changes s t l) \/
  (exists x c y, r = Ret (Err (PlusNotAtBlockStart (i + byte_len x + off + off))) /\ t = x ++ c :: y /\ is_plus_char c) \/
  (exists x w y e, r = Ret (Err (PnError (i + byte_len x + off + off) (i + byte_len x + byte_len w + off + off + 1) e)) /\
     bad_word s t x w y e) \/
  (exists x c y e, r = Ret (Err (PnError (i + byte_len x + off + off) (i + byte_len x + off + off + 1) e)) /\
     bad_cross s t x c y e).

Lemma pn_parse_total t s : 0 < s -> exists r, pn_parse t s = Ret r.
Proof.
  intros Hs.
  assert (D : cross_text t \/ ~ cross_text t).
  { destruct ((byte_len t =? 1) && match t with c :: _ => is_cm_cross (char_meaning_of c) | [] => false end) eqn:B.
    - left. apply cross_test; auto.
    - right. intros C. apply cross_test in C. congruence. }
  destruct D as [C|C]; [rewrite pn_parse_cross by auto; eauto|].
  destruct (pn_parse_slice t s _ Hs C (proj2 (written_filter t _) eq_refl)) as [(pn & E & _)|(e & E & _)]; rewrite E; eauto.
Qed.

Lemma body_extend off s i t buf pn w r :
  (forall l, body_changes s t l -> body_changes s (w ++ t) (pn ++ l)) ->
  body_outcome off s (i + byte_len w) t (buf ++ pn) r -> body_outcome off s i (w ++ t) buf r.
Proof.
  intros B [(l & E & H)|[(x & c & y & E & H & P)|[(x & v & y & e & E & H)|(x & c & y & e & E & H)]]].
  - left. exists (pn ++ l). rewrite app_assoc. auto.
  - right; left. exists (w ++ x), c, y. rewrite blen_app, Nat.add_assoc. subst t. rewrite <- app_assoc. auto.
  - right; right; left. exists (w ++ x), v, y, e. rewrite blen_app, Nat.add_assoc. split; auto.
    destruct H as (H1 & H). split; auto. rewrite H1, <- app_assoc. reflexivity.
  - right; right; right. exists (w ++ x), c, y, e. rewrite blen_app, Nat.add_assoc. split; auto.
    destruct H as (H1 & H). split; auto. rewrite H1, <- app_assoc. reflexivity.
Qed.

Lemma body_sound off s : 0 < s -> forall t i start buf, body_outcome off s i t buf (asym_loop off s (tk off i t) [] start buf).
Proof.
  intros Hs t. remember (length t) as n eqn:En. revert t En. induction n as [n IH] using lt_wf_ind. intros t -> i start buf.
  destruct t as [|c t].
  - left. exists []. rewrite app_nil_r. split; [reflexivity|constructor].
  - destruct (char_cases c) as [(b & E & M)|[[H M]|[[H M]|[[H M]|[H M]]]]].
    + destruct (word_span t) as (w' & y & -> & W & Y).
      set (w := c :: w').
      assert (Hw : is_word w).
      { split; [exists c, w'; split; auto; unfold is_bell_char; congruence|]. constructor; auto. left. unfold is_bell_char. congruence. }
      change (c :: w' ++ y) with (w ++ y).
      destruct Y as [Y|(d & y' & -> & Y)].
      * rewrite run_whole_word by auto. destruct (pn_parse_total w s Hs) as ([pn|e] & P); rewrite P.
        -- apply (body_extend off s i y buf [pn] w).
           ++ intros l Hl. apply bc_word; auto.
           ++ apply (IH (length y)); auto. unfold w. cbn. rewrite app_length. lia.
        -- right; right; left. exists [], w, y, e. cbn [app]. rewrite ?blen_nil. rewrite !Nat.add_0_r. split; auto. split; auto.
      * right; left. exists w, d, y'. splits; auto. unfold w. cbn [app tk asym_loop]. rewrite M. rewrite run_word by (auto; discriminate).
        cbn [tk asym_loop]. rewrite plus_meaning by auto. rewrite blen_cons, Nat.add_assoc. reflexivity.
    + right; left. exists [], c, t. splits; auto. cbn [tk asym_loop]. rewrite M. rewrite ?blen_nil. rewrite Nat.add_0_r. reflexivity.
    + change (c :: t) with ([c] ++ t). apply (body_extend off s i t buf [] [c]).
      * intros l Hl. cbn. apply bc_skip; auto.
      * rewrite app_nil_r. rewrite run_blank by (constructor; [auto|constructor]). apply (IH (length t)); auto.
    + unfold body_outcome. destruct (Nat.eq_dec (s mod 2) 0) as [Z|Z].
      * change (c :: t) with ([c] ++ t). apply (body_extend off s i t buf [PlaceNot [] s] [c]).
        -- intros l Hl. cbn. apply bc_cross; auto.
        -- cbn [app tk asym_loop]. rewrite M. cbn [bind is_cm_cross]. unfold pn_cross. rewrite Z. cbn [Nat.eqb].
           replace (byte_len [c]) with (utf8_len c) by (cbn; lia). apply (IH (length t)); auto.
      * right; right; right. exists [], c, t, (OddStageCross s). cbn [app tk asym_loop]. rewrite M. cbn [bind is_cm_cross]. unfold pn_cross.
        rewrite (proj2 (Nat.eqb_neq _ _) Z). rewrite ?blen_nil. rewrite Nat.add_0_r. split; auto. split; auto. splits; auto.
        pose proof (Nat.mod_upper_bound s 2). lia.
    + change (c :: t) with ([c] ++ t). apply (body_extend off s i t buf [] [c]).
      * intros l Hl. cbn. apply bc_skip; auto.
      * rewrite app_nil_r. rewrite run_blank by (constructor; [auto|constructor]). apply (IH (length t)); auto.
Qed.

Lemma body_complete off s t l : body_changes s t l -> forall i start buf,
  asym_loop off s (tk off i t) [] start buf = Ret (Ok (buf ++ l)).
Proof.
  induction 1 as [|c t l H Z B IH|c t l H B IH|w t l pn W E P B IH]; intros i start buf.
  - rewrite app_nil_r. reflexivity.
  - cbn [tk asym_loop]. rewrite cross_meaning by auto. cbn [bind is_cm_cross]. unfold pn_cross. rewrite Z. cbn [Nat.eqb].
    rewrite IH, <- app_assoc. reflexivity.
  - change (c :: t) with ([c] ++ t). rewrite run_blank by (constructor; [auto|constructor]). apply IH.
  - rewrite run_whole_word by auto. rewrite P, IH, <- app_assoc. reflexivity.
Qed.

Lemma body_no_plus s t l : body_changes s t l -> Forall (fun c => ~ is_plus_char c) t.
Proof.
  induction 1 as [|c t l H Z B IH|c t l H B IH|w t l pn W E P B IH]; auto.
  - constructor; auto. intros K. apply plus_meaning in K. apply cross_meaning in H. congruence.
  - constructor; auto. intros K. apply plus_meaning in K. destruct H as [H|H];
      [apply delimiter_meaning in H|apply ignored_meaning in H]; congruence.
  - apply Forall_app. split; auto. destruct W as [_ W]. eapply Forall_impl; [|exact W]. cbn. intros c Hc K.
    apply plus_meaning in K. destruct Hc as [Hc|Hc]; [apply bell_char_meaning in Hc as (b & _ & Hc)|apply ignored_meaning in Hc]; congruence.
Qed.

(** ** Parts *)

Lemma skip_blank off w : blank_chars w -> forall t i, skip_meaningless (tk off i (w ++ t)) = skip_meaningless (tk off (i + byte_len w) t).
Proof.
  induction 1 as [|c w H F IH]; intros t i; cbn [app].
  - rewrite blen_nil, Nat.add_0_r. reflexivity.
  - cbn [tk skip_meaningless]. rewrite blen_cons, Nat.add_assoc, <- IH.
    destruct H as [H|H]; [rewrite delimiter_meaning by auto|rewrite ignored_meaning by auto]; reflexivity.
Qed.

Lemma skip_stop off c t i : ~ is_delimiter_char c -> ~ is_ignored_char c -> skip_meaningless (tk off i (c :: t)) = tk off i (c :: t).
Proof.
  intros N1 N2. cbn [tk skip_meaningless].
  destruct (char_cases c) as [(b & E & M)|[[H M]|[[H M]|[[H M]|[H M]]]]]; try tauto; rewrite M; auto.
Qed.

Lemma plus_not_blank c : is_plus_char c -> ~ is_delimiter_char c /\ ~ is_ignored_char c.
Proof.
  intros H. apply plus_meaning in H. split; intros K; [apply delimiter_meaning in K|apply ignored_meaning in K]; congruence.
Qed.

Lemma parse_asym_plus off s skip c t : blank_chars skip -> is_plus_char c ->
  parse_asym_block (skip ++ c :: t) off s [] =
  (r <- asym_loop off s (tk off (byte_len skip + utf8_len c) t) [] 0 [];;
   match r with Err e => Ret (Err e) | Ok buf => Ret (Ok (true, buf)) end).
Proof.
  intros B P. unfold parse_asym_block. cbn [assert_ bind]. rewrite tok_indices_tk, skip_blank by auto.
  rewrite skip_stop by (apply plus_not_blank; auto). cbn [tk]. rewrite plus_meaning by auto. cbn [tl Nat.add]. reflexivity.
Qed.

Definition no_leading_plus (t : str) : Prop := forall skip c y, t = skip ++ c :: y -> blank_chars skip -> ~ is_plus_char c.

Lemma parse_asym_plain off s t : no_leading_plus t ->
  parse_asym_block t off s [] =
  (r <- asym_loop off s (tk off 0 t) [] 0 [];;
   match r with Err e => Ret (Err e) | Ok buf => Ret (Ok (false, buf)) end).
Proof.
  intros N. unfold parse_asym_block. cbn [assert_ bind]. rewrite tok_indices_tk.
  destruct (blank_span t) as (w & y & -> & B & [->|(c & y' & -> & N1 & N2)]).
  - rewrite skip_blank, run_blank by auto. reflexivity.
  - rewrite skip_blank, run_blank by auto. rewrite skip_stop by auto.
    assert (Np : ~ is_plus_char c) by (eapply N; eauto).
    assert (Hm : char_meaning_of c <> CmAsym).
    { destruct (char_cases c) as [(b & E & M)|[[H M]|[[H M]|[[H M]|[H M]]]]]; try tauto; congruence. }
    set (k := tk off (0 + byte_len w) (c :: y')).
    assert (Ek : match k with (_, CmAsym) :: _ => true | _ => false end = false).
    { unfold k. cbn [tk]. destruct (char_meaning_of c); congruence. }
    rewrite Ek. reflexivity.
Qed.

Lemma leading_plus_dec t : no_leading_plus t \/ exists skip c y, t = skip ++ c :: y /\ blank_chars skip /\ is_plus_char c.
Proof.
  assert (U : forall w w' c y c' y', blank_chars w -> blank_chars w' -> w ++ c :: y = w' ++ c' :: y' ->
    ~ is_delimiter_char c -> ~ is_ignored_char c -> ~ is_delimiter_char c' -> ~ is_ignored_char c' -> c = c').
  { induction w as [|a w IH]; intros w' c y c' y' B B' E N1 N2 N3 N4; destruct w' as [|a' w']; cbn in E; injection E as E1 E2; auto.
    - subst. inversion B' as [|? ? K]; subst. tauto.
    - subst. inversion B as [|? ? K]; subst. tauto.
    - inversion B; inversion B'; subst. eapply IH; eauto. }
  destruct (blank_span t) as (w & y & -> & B & [->|(c & y' & -> & N1 & N2)]).
  - left. intros skip c y E Bs K. rewrite app_nil_r in E. subst w. apply Forall_app in B as [_ B]. inversion B as [|? ? D]; subst.
    apply plus_not_blank in K. tauto.
  - destruct (char_cases c) as [(b & E & M)|[[H M]|[[H M]|[[H M]|[H M]]]]]; try tauto.
    + left. intros skip d z Ed Bs K. assert (c = d) by (eapply (U w skip c y' d z); eauto; apply plus_not_blank; auto). subst d.
      apply plus_meaning in K. congruence.
    + right. exists w, c, y'. auto.
    + left. intros skip d z Ed Bs K. assert (c = d) by (eapply (U w skip c y' d z); eauto; apply plus_not_blank; auto). subst d.
      apply plus_meaning in K. congruence.
Qed.

Definition part_outcome (off s : nat) (p : str) (r : exec (result (bool * list place_not) pn_block_error)) : Prop :=
  (exists asym l, r = Ret (Ok (asym, l)) /\ part_changes s p asym l) \/
  (exists x c y, r = Ret (Err (PlusNotAtBlockStart (byte_len x + off + off))) /\ misplaced_plus p x c y) \/
  (exists x w y e, r = Ret (Err (PnError (byte_len x + off + off) (byte_len x + byte_len w + off + off + 1) e)) /\
     bad_word s p x w y e) \/
  (exists x c y e, r = Ret (Err (PnError (byte_len x + off + off) (byte_len x + off + off + 1) e)) /\
     bad_cross s p x c y e).

Lemma not_blank_exists w : ~ blank_chars w -> exists d, In d w /\ ~ is_delimiter_char d /\ ~ is_ignored_char d.
Proof.
  intros N. destruct (blank_span w) as (v & y & -> & B & [->|(c & y' & -> & N1 & N2)]).
  - rewrite app_nil_r in N. tauto.
  - exists c. split; auto. apply in_or_app; right; left; auto.
Qed.

Lemma blank_dec w : blank_chars w \/ ~ blank_chars w.
Proof.
  destruct (blank_span w) as (v & y & -> & B & [->|(c & y' & -> & N1 & N2)]).
  - left. rewrite app_nil_r. auto.
  - right. intros K. apply Forall_app in K as [_ K]. inversion K; subst. tauto.
Qed.

Lemma part_sound off s p : 0 < s -> part_outcome off s p (parse_asym_block p off s []).
Proof.
  intros Hs. destruct (leading_plus_dec p) as [N|(skip & c & t & -> & B & P)].
  - rewrite parse_asym_plain by auto.
    destruct (body_sound off s Hs p 0 0 []) as [(l & E & H)|[(x & c & y & E & H & P)|[(x & w & y & e & E & H)|(x & c & y & e & E & H)]]];
      rewrite E; cbn [bind Nat.add app].
    + left. exists false, l. split; auto. constructor; auto.
    + right; left. exists x, c, y. split; auto. split; auto. split; auto.
      apply not_blank_exists. intros K. apply (N x c y H K P).
    + right; right; left. exists x, w, y, e. auto.
    + right; right; right. exists x, c, y, e. auto.
  - rewrite parse_asym_plus by auto.
    assert (Lc : byte_len (skip ++ [c]) = byte_len skip + utf8_len c) by (rewrite blen_app; cbn; lia).
    destruct (body_sound off s Hs t (byte_len skip + utf8_len c) 0 []) as [(l & E & H)|[(x & d & y & E & H & Q)|[(x & w & y & e & E & H)|(x & d & y & e & E & H)]]];
      rewrite E; cbn [bind app].
    + left. exists true, l. split; auto. constructor; auto.
    + right; left. exists ((skip ++ [c]) ++ x), d, y. rewrite blen_app, Lc. split; auto. subst t. split; [rewrite <- !app_assoc; reflexivity|].
      split; auto. exists c. split; [|apply plus_not_blank; auto]. rewrite <- app_assoc. apply in_or_app; right; left; auto.
    + right; right; left. exists ((skip ++ [c]) ++ x), w, y, e. rewrite blen_app, Lc. split; auto.
      destruct H as (H1 & H). split; auto. rewrite H1, <- !app_assoc. reflexivity.
    + right; right; right. exists ((skip ++ [c]) ++ x), d, y, e. rewrite blen_app, Lc. split; auto.
      destruct H as (H1 & H). split; auto. rewrite H1, <- !app_assoc. reflexivity.
Qed.

Lemma part_complete off s p asym l : part_changes s p asym l -> parse_asym_block p off s [] = Ret (Ok (asym, l)).
Proof.
  intros [t l' B|skip c t l' Bs P B].
  - rewrite parse_asym_plain.
    + rewrite (body_complete off s _ _ B). reflexivity.
    + intros skip c y -> _. apply body_no_plus in B. apply Forall_app in B as [_ B]. inversion B; auto.
  - rewrite parse_asym_plus by auto. rewrite (body_complete off s _ _ B). reflexivity.
Qed.

(** ** Splitting at commas *)

Fixpoint offs (off : nat) (parts : list str) : list (nat * str) :=
  match parts with
  | [] => []
  | p :: t => (off, p) :: offs (off + byte_len p + 1) t
  end.

Lemma split_skip off p : ~ In comma p -> forall cur t, split_comma_from off cur (p ++ t) = split_comma_from off (cur ++ p) t.
Proof.
  induction p as [|c p IH]; intros N cur t; cbn [app].
  - rewrite app_nil_r. reflexivity.
  - cbn [split_comma_from]. destruct (N.eqb_spec c 44) as [->|Hc]; [exfalso; apply N; left; auto|].
    rewrite IH by (intros K; apply N; right; auto). rewrite <- app_assoc. reflexivity.
Qed.

Lemma split_join parts : parts <> [] -> Forall (fun p => ~ In comma p) parts -> forall off,
  split_comma_from off [] (join_comma parts) = offs off parts.
Proof.
  intros N F. induction F as [|p parts H F IH]; [congruence|]. intros off. destruct parts as [|q parts].
  - cbn [join_comma]. rewrite <- (app_nil_r p) at 1. rewrite split_skip by auto. reflexivity.
  - change (join_comma (p :: q :: parts)) with (p ++ comma :: join_comma (q :: parts)). rewrite split_skip by auto.
    cbn [app split_comma_from]. change (comma =? 44)%N with true. cbn iota.
    change (utf8_len comma) with 1. cbn [offs]. f_equal. rewrite IH by discriminate. reflexivity.
Qed.

Lemma comma_split t : exists parts, parts <> [] /\ Forall (fun p => ~ In comma p) parts /\ t = join_comma parts.
Proof.
  induction t as [|c t (parts & N & F & ->)].
  - exists [[]]. splits; [discriminate| |reflexivity]. constructor; auto.
  - destruct (N.eqb_spec c comma) as [->|Hc].
    + exists ([] :: parts). splits; [discriminate| |].
      * constructor; auto.
      * destruct parts; [congruence|]. reflexivity.
    + destruct parts as [|p parts]; [congruence|]. inversion F as [|? ? Hp Fp]; subst. exists ((c :: p) :: parts). splits; [discriminate| |].
      * constructor; auto. intros [K|K]; auto.
      * destruct parts; reflexivity.
Qed.

Lemma join_has_comma parts : parts <> [] -> Forall (fun p => ~ In comma p) parts ->
  negb (existsb (fun c => (c =? 44)%N) (join_comma parts)) = match parts with [_] => true | _ => false end.
Proof.
  intros N F. destruct parts as [|p [|q parts]]; [congruence| |].
  - cbn [join_comma]. apply negb_true_iff, not_true_is_false. rewrite existsb_exists. intros (x & Hx & E).
    apply N.eqb_eq in E. subst x. inversion F; subst. auto.
  - apply negb_false_iff, existsb_exists. exists comma. split; auto.
    change (join_comma (p :: q :: parts)) with (p ++ comma :: join_comma (q :: parts)). apply in_or_app; right; left; auto.
Qed.

Lemma join_unique parts parts' : parts <> [] -> Forall (fun p => ~ In comma p) parts -> parts' <> [] -> Forall (fun p => ~ In comma p) parts' ->
  join_comma parts = join_comma parts' -> parts = parts'.
Proof.
  intros N F N' F' E. assert (O : offs 0 parts = offs 0 parts').
  { rewrite <- !split_join by auto. rewrite E. reflexivity. }
  assert (G : forall l off, map snd (offs off l) = l).
  { induction l as [|p l IH]; intros off; cbn; auto. f_equal; auto. }
  rewrite <- (G parts 0), <- (G parts' 0), O. reflexivity.
Qed.

(** the text before a part *)
Definition pre_text (pre : list str) : str := concat (map (fun p => p ++ [comma]) pre).

Lemma blen_comma : utf8_len comma = 1.
Proof. reflexivity. Qed.

Lemma join_pre pre p post : exists after, join_comma (pre ++ p :: post) = pre_text pre ++ p ++ after /\
  (after = [] \/ exists a, after = comma :: a).
Proof.
  induction pre as [|q pre (after & E & H)].
  - destruct post as [|q post]; cbn.
    + exists []. rewrite app_nil_r. auto.
    + eexists. split; [reflexivity|]. right; eauto.
  - exists after. split; auto. cbn [app].
    replace (join_comma (q :: pre ++ p :: post)) with (q ++ comma :: join_comma (pre ++ p :: post)) by (destruct pre; reflexivity).
    rewrite E. unfold pre_text. cbn [map concat]. rewrite <- !app_assoc. reflexivity.
Qed.

Lemma pre_text_ends pre : pre_text pre = [] \/ exists b, pre_text pre = b ++ [comma].
Proof.
  destruct pre as [|q pre] using rev_ind; auto. right. unfold pre_text. rewrite map_app, concat_app. cbn.
  rewrite app_nil_r. eexists. rewrite app_assoc. reflexivity.
Qed.

Definition parts_outcome (off s : nat) (single : bool) (parts : list str) (pns : list place_not)
  (r : exec (result (list place_not) pn_block_error)) : Prop :=
  (exists l, r = Ret (Ok (pns ++ l)) /\ parts_changes s single parts l) \/
  (exists pre p post, parts = pre ++ p :: post /\
    let o := off + byte_len (pre_text pre) in
    (exists x c y, r = Ret (Err (PlusNotAtBlockStart (byte_len x + o + o))) /\ misplaced_plus p x c y) \/
    (exists x w y e, r = Ret (Err (PnError (byte_len x + o + o) (byte_len x + byte_len w + o + o + 1) e)) /\
       bad_word s p x w y e) \/
    (exists x c y e, r = Ret (Err (PnError (byte_len x + o + o) (byte_len x + o + o + 1) e)) /\
       bad_cross s p x c y e)).

Lemma parts_sound s single parts : 0 < s -> forall off pns, parts_outcome off s single parts pns (pnb_parse_loop single s (offs off parts) pns []).
Proof.
  intros Hs. induction parts as [|p parts IH]; intros off pns.
  - left. exists []. rewrite app_nil_r. split; [reflexivity|constructor].
  - cbn [offs pnb_parse_loop].
    destruct (part_sound off s p Hs) as [(asym & l & E & H)|K].
    + rewrite E. cbn [bind].
      set (u := unfold_part single asym l).
      assert (Eu : (if single || asym then pnb_parse_loop single s (offs (off + byte_len p + 1) parts) (pns ++ l) []
        else pnb_parse_loop single s (offs (off + byte_len p + 1) parts) (pns ++ l ++ skipn 1 (rev l)) []) =
        pnb_parse_loop single s (offs (off + byte_len p + 1) parts) (pns ++ u) []).
      { unfold u, unfold_part. destruct (single || asym); auto. }
      rewrite Eu. destruct (IH (off + byte_len p + 1) (pns ++ u)) as [(l' & E' & H')|(pre & q & post & -> & K)].
      * left. exists (u ++ l'). rewrite E', app_assoc. split; auto. constructor; auto.
      * right. exists (p :: pre), q, post. split; auto.
        replace (off + byte_len (pre_text (p :: pre))) with (off + byte_len p + 1 + byte_len (pre_text pre)); [exact K|].
        unfold pre_text. cbn [map concat]. rewrite !blen_app, !blen_cons, !blen_nil, blen_comma. lia.
    + right. exists [], p, parts. split; auto. change (pre_text []) with (@nil N). rewrite blen_nil. rewrite Nat.add_0_r.
      destruct K as [(x & c & y & E & H)|[(x & w & y & e & E & H)|(x & c & y & e & E & H)]]; rewrite E; cbn [bind].
      * left. eauto 6. * right; left. eauto 8. * right; right. eauto 8.
Qed.

Lemma parts_complete s single parts l : parts_changes s single parts l -> forall off pns,
  pnb_parse_loop single s (offs off parts) pns [] = Ret (Ok (pns ++ l)).
Proof.
  induction 1 as [|p asym l t l' P H IH]; intros off pns; cbn [offs pnb_parse_loop].
  - rewrite app_nil_r. reflexivity.
  - rewrite (part_complete off s p asym l) by auto. cbn [bind]. unfold unfold_part.
    destruct (single || asym); rewrite IH, <- !app_assoc; reflexivity.
Qed.

(** ** The whole block *)

Lemma block_parse_cases t s : 0 < s ->
  (exists l, block_changes s t l /\ pn_block_parse t s = Ret (match l with [] => Err EmptyBlock | _ => Ok l end)) \/
  ((forall l, ~ block_changes s t l) /\ exists before p after, part_of t before p after /\
    let o := byte_len before in
    (exists x c y, pn_block_parse t s = Ret (Err (PlusNotAtBlockStart (byte_len x + o + o))) /\ misplaced_plus p x c y) \/
    (exists x w y e, pn_block_parse t s = Ret (Err (PnError (byte_len x + o + o) (byte_len x + byte_len w + o + o + 1) e)) /\
       bad_word s p x w y e) \/
    (exists x c y e, pn_block_parse t s = Ret (Err (PnError (byte_len x + o + o) (byte_len x + o + o + 1) e)) /\
       bad_cross s p x c y e)).
Proof.
  intros Hs. destruct (comma_split t) as (parts & N & F & ->). unfold pn_block_parse, split_comma.
  rewrite join_has_comma, split_join by auto.
  set (single := match parts with [_] => true | _ => false end).
  pose proof (parts_complete s single parts) as PC.
  destruct (parts_sound s single parts Hs 0 []) as [(l & E & H)|(pre & p & post & Ep & K)].
  - left. exists l. split; [exists parts; auto|]. rewrite E. cbn [bind app]. destruct l; auto.
  - right. split.
    + intros l (parts' & N' & F' & Ej & Pc). apply join_unique in Ej; auto. subst parts'. specialize (PC l Pc 0 []).
      rewrite PC in K.
      destruct K as [(x & c & y & E & H)|[(x & w & y & e & E & H)|(x & c & y & e & E & H)]]; discriminate.
    + destruct (join_pre pre p post) as (after & Ea & Ha). exists (pre_text pre), p, after. split.
      * subst parts. split; auto. split; [|split; auto; apply pre_text_ends].
        apply Forall_app in F as [_ F]. inversion F; auto.
      * cbn [Nat.add] in K. destruct K as [(x & c & y & E & H)|[(x & w & y & e & E & H)|(x & c & y & e & E & H)]]; rewrite E; cbn [bind].
        -- left. eauto 6. -- right; left. eauto 8. -- right; right. eauto 8.
Qed.

Lemma block_changes_fun t s l l' : block_changes s t l -> block_changes s t l' -> l = l'.
Proof.
  intros (parts & N & F & E & P) (parts' & N' & F' & E' & P'). subst t. apply join_unique in E'; auto. subst parts'.
  pose proof (parts_complete _ _ _ _ P 0 []) as H. pose proof (parts_complete _ _ _ _ P' 0 []) as H'.
  cbn [app] in *. congruence.
Qed.

Lemma body_changes_legal s t l : 0 < s -> body_changes s t l -> Forall (fun pn => legal pn /\ pn_stage pn = s) l.
Proof.
  intros Hs. induction 1 as [|c t l H Z B IH|c t l H B IH|w t l pn W E P B IH]; auto.
  - constructor; auto. split; auto. apply even_cross_legal; auto.
  - constructor; auto. eapply pn_parse_legal; eauto.
Qed.

Lemma block_changes_legal s t l : 0 < s -> block_changes s t l -> Forall (fun pn => legal pn /\ pn_stage pn = s) l.
Proof.
  intros Hs (parts & _ & _ & _ & P). revert P. generalize (match parts with [_] => true | _ => false end).
  intros single P. induction P as [|p asym l ps l' H P IH]; auto.
  apply Forall_app. split; auto.
  assert (L : Forall (fun pn => legal pn /\ pn_stage pn = s) l) by (destruct H; eapply body_changes_legal; eauto).
  unfold unfold_part. destruct (_ || asym); auto. apply Forall_app. split; auto.
  apply Forall_rev in L. destruct (rev l); cbn; auto. inversion L; auto.
Qed.
