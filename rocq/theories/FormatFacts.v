(** Facts about displayed texts. *)
From Verif Require Import Base Spec ListFacts Bell Stage BellFacts Row RowFacts Utils SameStageVec SpecVec SsvFacts
  Block SpecBlock BlockFacts PlaceNot Mask Music Class Format Compare.
Local Open Scope list_scope.

(** [u] does not go on with a character in [P]. *)
Definition stops (P : N -> bool) (u : str) : Prop := match u with [] => True | c :: _ => P c = false end.

Lemma token_split P : forall x x' u u' : str, forallb P x = true -> forallb P x' = true -> stops P u -> stops P u' ->
  x ++ u = x' ++ u' -> x = x' /\ u = u'.
Proof.
  induction x as [|c x IH]; intros x' u u' Hx Hx' Hu Hu' E.
  - destruct x' as [|d x']; auto. cbn [app] in E. subst u. cbn in *. apply andb_true_iff in Hx' as [H _]. congruence.
  - cbn in Hx. apply andb_true_iff in Hx as [Hc Hx]. destruct x' as [|d x'].
    + cbn [app] in E. subst u'. cbn in *. congruence.
    + cbn in E. injection E as <- E. cbn in Hx'. apply andb_true_iff in Hx' as [_ Hx'].
      destruct (IH _ _ _ Hx Hx' Hu Hu' E) as [-> ->]. auto.
Qed.

Definition digitb (c : N) : bool := ((48 <=? c) && (c <=? 57))%N.
Definition tokb (c : N) : bool :=
  (digitb c || ((65 <=? c) && (c <=? 90)) || ((97 <=? c) && (c <=? 122)) || (c =? 45))%N.

Lemma dec_digits n : forallb digitb (dec n) = true.
Proof.
  apply forallb_forall. intros c Hc. destruct (dec_decimal n) as [_ F]. rewrite Forall_forall in F.
  specialize (F c Hc). unfold digitb. apply andb_true_iff. rewrite !N.leb_le. auto.
Qed.

Lemma dec_prefix n m u u' : stops digitb u -> stops digitb u' -> dec n ++ u = dec m ++ u' -> n = m /\ u = u'.
Proof.
  intros Hu Hu' E. destruct (token_split digitb _ _ _ _ (dec_digits n) (dec_digits m) Hu Hu' E) as [H ->].
  apply dec_inj in H. auto.
Qed.

Lemma bell_prefix a b u u' : bell_name a ++ u = bell_name b ++ u' -> a = b /\ u = u'.
Proof.
  intros H. destruct (Nat.lt_ge_cases a 33) as [Ha|Ha], (Nat.lt_ge_cases b 33) as [Hb|Hb].
  - destruct (bell_name_small a Ha) as (ca & Ea & Ca), (bell_name_small b Hb) as (cb & Eb & Cb).
    assert (a = b); [|subst; apply app_inv_head in H; auto]. apply bell_name_inj. rewrite Ea, Eb in *. cbn in H. congruence.
  - exfalso. destruct (bell_name_small a Ha) as (ca & Ea & Ca). rewrite Ea, (bell_name_large b Hb) in H. cbn in H.
    injection H as -> _. apply from_name_to_char in Ca. cbv in Ca. discriminate.
  - exfalso. destruct (bell_name_small b Hb) as (cb & Eb & Cb). rewrite Eb, (bell_name_large a Ha) in H. cbn in H.
    injection H as <- _. apply from_name_to_char in Cb. cbv in Cb. discriminate.
  - rewrite (bell_name_large a Ha), (bell_name_large b Hb) in H. rewrite <- !app_assoc in H. apply app_inv_head in H.
    apply dec_prefix in H as [H1 H2]; [|reflexivity|reflexivity]. apply app_inv_head in H2. split; auto. lia.
Qed.

(** The part of the text of a stage before any space. *)
Definition stage_token (s : stage) : str := match stage_name s with Some n => n | None => dec s end.
Definition stage_rest (s : stage) : str := match stage_name s with Some _ => [] | None => s2l " bells" end.

Lemma stage_display_token s : stage_display s = stage_token s ++ stage_rest s.
Proof. unfold stage_display, stage_token, stage_rest. destruct (stage_name s); auto. rewrite app_nil_r. auto. Qed.

Lemma stage_token_tok s : forallb tokb (stage_token s) = true.
Proof.
  unfold stage_token. destruct (stage_name s) as [n|] eqn:E.
  - do 23 (destruct s as [|s]; [cbn in E; try discriminate; injection E as <-; vm_compute; reflexivity|]). discriminate.
  - apply forallb_forall. intros c Hc. pose proof (dec_digits s) as F. rewrite forallb_forall in F. unfold tokb.
    rewrite (F c Hc). reflexivity.
Qed.

Lemma name_not_dec s n m : stage_name s = Some n -> n <> dec m.
Proof.
  intros E H. pose proof (dec_digits m) as F. rewrite <- H in F.
  do 23 (destruct s as [|s]; [cbn in E; try discriminate; injection E as <-; vm_compute in F; discriminate|]). discriminate.
Qed.

Lemma stage_token_inj s s' : stage_token s = stage_token s' -> s = s'.
Proof.
  unfold stage_token. destruct (stage_name s) as [n|] eqn:E, (stage_name s') as [n'|] eqn:E'; intros H.
  - subst n'. apply stage_name_lower in E, E'. congruence.
  - exfalso. eapply name_not_dec; eauto.
  - exfalso. symmetry in H. eapply name_not_dec; eauto.
  - apply dec_inj; auto.
Qed.

Lemma stage_prefix s s' u u' : stops tokb u -> stops tokb u' ->
  stage_display s ++ u = stage_display s' ++ u' -> s = s' /\ u = u'.
Proof.
  rewrite !stage_display_token. rewrite <- !app_assoc. intros Hu Hu' H.
  assert (R : forall s u, stops tokb u -> stops tokb (stage_rest s ++ u)).
  { intros x w Hw. unfold stage_rest. destruct (stage_name x); auto. reflexivity. }
  destruct (token_split tokb _ _ _ _ (stage_token_tok s) (stage_token_tok s') (R s u Hu) (R s' u' Hu') H) as [H1 H2].
  apply stage_token_inj in H1 as <-. apply app_inv_head in H2. auto.
Qed.

Lemma stage_display_inj s s' : stage_display s = stage_display s' -> s = s'.
Proof.
  intros H. apply (stage_prefix s s' [] []); cbn; auto. rewrite !app_nil_r. auto.
Qed.

(** Strip one level of two equal texts. *)
Ltac strip H :=
  first
    [ discriminate H
    | match type of H with
      | s2l _ = s2l _ => clear H
      | bell_name _ ++ _ = bell_name _ ++ _ => apply bell_prefix in H as [-> H]
      | stage_display _ ++ _ = stage_display _ ++ _ => apply stage_prefix in H as [-> H]; [|reflexivity|reflexivity]
      | stage_display _ = stage_display _ => apply stage_display_inj in H as ->
      | dec _ ++ _ = dec _ ++ _ => apply dec_prefix in H as [-> H]; [|reflexivity|reflexivity]
      | s2l ?a ++ _ = s2l ?a ++ _ => apply app_inv_head in H
      end ].

Lemma invalid_row_error_display_inj e e' : invalid_row_error_display e = invalid_row_error_display e' -> e = e'.
Proof. destruct e, e'; cbn [invalid_row_error_display]; intros H; repeat strip H; reflexivity. Qed.

Lemma incompatible_stages_display_inj e e' : incompatible_stages_display e = incompatible_stages_display e' -> e = e'.
Proof.
  destruct e as [a b], e' as [a' b']; unfold incompatible_stages_display; cbn [lhs_stage rhs_stage]; intros H; repeat strip H; reflexivity.
Qed.

Lemma mul_into_error_display_inj e e' : mul_into_error_display e = mul_into_error_display e' -> e = e'.
Proof. destruct e as [[]|[]], e' as [[]|[]]; cbn [mul_into_error_display]; intros H; repeat strip H; reflexivity. Qed.

Lemma ssv_parse_error_display_inj e e' : ssv_parse_error_display e = ssv_parse_error_display e' -> e = e'.
Proof.
  destruct e, e'; cbn [ssv_parse_error_display]; intros H; repeat strip H; try reflexivity.
  apply invalid_row_error_display_inj in H as ->. reflexivity.
Qed.

Lemma block_parse_error_display_inj e e' : block_parse_error_display e = block_parse_error_display e' -> e = e'.
Proof.
  destruct e as [|[]], e' as [|[]]; cbn [block_parse_error_display]; intros H; try reflexivity;
    try (apply ssv_parse_error_display_inj in H; congruence); discriminate H.
Qed.

Lemma invalid_pn_block_display_inj e e' : invalid_pn_block_display e = invalid_pn_block_display e' -> e = e'.
Proof.
  destruct e as [i [a b]|], e' as [i' [a' b']|]; cbn [invalid_pn_block_display lhs_stage rhs_stage]; intros H; repeat strip H; reflexivity.
Qed.

Lemma pn_error_display_inj e e' t : pn_error_display e = Ret t -> pn_error_display e' = Ret t -> e = e'.
Proof.
  assert (A : forall p q, pn_error_display (AmbiguousPlacesBetween p q) = Ret t ->
    exists g, t = s2l "Ambiguous gap of " ++ dec g ++ s2l " bells between places '" ++ bell_name p ++
           s2l "' and '" ++ bell_name q ++ s2l "'.").
  { intros p q. cbn [pn_error_display]. destruct (usub q p) as [d| | |]; cbn [bind]; intros H; try discriminate.
    destruct (usub d 1) as [g| | |]; cbn [bind] in H; try discriminate. injection H as <-. exists g. reflexivity. }
  assert (R : forall x y : str, Ret x = Ret y -> y = x) by (intros x y E; injection E; auto).
  destruct e, e'; intros H H';
    first [apply A in H as (? & H) | cbn [pn_error_display] in H; apply R in H];
    first [apply A in H' as (? & H') | cbn [pn_error_display] in H'; apply R in H'];
    clear A R; rewrite H in H'; clear H; repeat strip H'; reflexivity.
Qed.

Lemma pn_error_display_panics e :
  (pn_error_display e = Panic <-> exists p q, e = AmbiguousPlacesBetween p q /\ q <= p) /\
  (pn_error_display e = Panic \/ exists t, pn_error_display e = Ret t).
Proof.
  destruct e as [place s|p q|p|s|]; cbn [pn_error_display];
    try (split; [split; [discriminate|intros (? & ? & ? & _); discriminate]|eauto]).
  unfold usub. destruct (Nat.leb_spec p q) as [Hpq|Hpq]; cbn [bind].
  - destruct (Nat.leb_spec 1 (q - p)) as [Hd|Hd]; cbn [bind]; split; eauto.
    + split; [discriminate|]. intros (p' & q' & E & H). injection E as <- <-. lia.
    + split; auto. intros _. exists p, q. split; auto. lia.
  - split; eauto. split; auto. intros _. exists p, q. split; auto. lia.
Qed.

(** ** Codes *)

Lemma concat_code {A} (f : A -> str) : (forall a b u u', f a ++ u = f b ++ u' -> a = b /\ u = u') -> (forall a, f a <> []) ->
  forall l l', concat (map f l) = concat (map f l') -> l = l'.
Proof.
  intros P N. induction l as [|a l IH]; intros [|b l'] H; auto; cbn [map concat] in H.
  - exfalso. destruct (f b) eqn:E; [apply (N b E)|discriminate].
  - exfalso. destruct (f a) eqn:E; [apply (N a E)|discriminate].
  - apply P in H as [-> H]. f_equal. auto.
Qed.

Lemma bell_name_chars b c : In c (bell_name b) -> c = 60%N \/ c = 62%N \/ digitb c = true \/ ((65 <=? c) && (c <=? 90))%N = true.
Proof.
  intros H. destruct (Nat.lt_ge_cases b 33) as [Hb|Hb].
  - destruct (bell_name_small b Hb) as (d & E & C). rewrite E in H. destruct H as [<-|[]].
    unfold bell_to_char in C. apply nth_error_In in C.
    assert (F : forallb (fun c => digitb c || ((65 <=? c) && (c <=? 90))%N) BELL_NAMES = true) by (vm_compute; reflexivity).
    rewrite forallb_forall in F. apply F in C. apply orb_true_iff in C. tauto.
  - rewrite (bell_name_large b Hb) in H. rewrite !in_app_iff in H. destruct H as [[<-|[]]|[H|[<-|[]]]]; auto.
    pose proof (dec_digits (b + 1)) as F. rewrite forallb_forall in F. auto.
Qed.

Lemma bell_name_nonempty b : bell_name b <> [].
Proof.
  destruct (Nat.lt_ge_cases b 33) as [Hb|Hb].
  - destruct (bell_name_small b Hb) as (d & E & C). rewrite E. discriminate.
  - rewrite (bell_name_large b Hb). discriminate.
Qed.

Lemma bell_name_not_head b c u u' : c = 120%N \/ c = 42%N \/ c = 45%N -> bell_name b ++ u = c :: u' -> False.
Proof.
  intros Hc E. assert (H : In c (bell_name b)).
  { pose proof (bell_name_nonempty b). destruct (bell_name b) as [|d n]; [congruence|]. cbn in E. injection E as -> _. left; auto. }
  apply bell_name_chars in H. destruct Hc as [-> | [-> | ->]]; cbv in H; repeat destruct H as [H|H]; discriminate.
Qed.

Lemma row_display_inj r r' : row_display r = row_display r' -> r = r'.
Proof. apply concat_code; [apply bell_prefix|apply bell_name_nonempty]. Qed.

Lemma mask_display_inj (m m' : mask) : mask_display m = mask_display m' -> m = m'.
Proof.
  apply concat_code.
  - intros [a|] [b|] u u' H.
    + apply bell_prefix in H as [-> ->]. auto.
    + exfalso. eapply bell_name_not_head; [|exact H]. auto.
    + exfalso. symmetry in H. eapply bell_name_not_head; [|exact H]. auto.
    + apply app_inv_head in H. auto.
  - intros [a|]; [apply bell_name_nonempty|discriminate].
Qed.

Lemma regex_display_inj (m m' : list regex_elem) : regex_display m = regex_display m' -> m = m'.
Proof.
  apply concat_code.
  - intros [a| |] [b| |] u u' H; cbn [elem_display] in H;
      first [ discriminate H
            | apply bell_prefix in H as [-> ->]; auto
            | apply app_inv_head in H; auto
            | exfalso; eapply bell_name_not_head; [|exact H]; auto
            | exfalso; symmetry in H; eapply bell_name_not_head; [|exact H]; auto ].
  - intros [a| |]; [apply bell_name_nonempty|discriminate|discriminate].
Qed.

Lemma pn_display_inj pn pn' : pn_stage pn = pn_stage pn' -> pn_display pn = pn_display pn' -> pn = pn'.
Proof.
  destruct pn as [l s], pn' as [l' s']. cbn [pn_stage]. intros <-. unfold pn_display, pn_is_cross. cbn [pn_places].
  intros H. f_equal. destruct l as [|p l], l' as [|p' l']; auto.
  - exfalso. symmetry in H. cbn [map concat] in H. eapply bell_name_not_head; [|exact H]. auto.
  - exfalso. cbn [map concat] in H. eapply bell_name_not_head; [|exact H]. auto.
  - revert H. apply concat_code; [apply bell_prefix|apply bell_name_nonempty].
Qed.

(** ** [Debug] of buffers *)

Lemma comma_split (x x' u u' : str) c : ~ In c x -> ~ In c x' -> x ++ c :: u = x' ++ c :: u' -> x = x' /\ u = u'.
Proof.
  intros Hx Hx' E.
  assert (P : forall y, ~ In c y -> forallb (fun d => negb (d =? c)%N) y = true).
  { intros y Hy. apply forallb_forall. intros d Hd. apply negb_true_iff, N.eqb_neq. intros ->. auto. }
  assert (S : forall w, stops (fun d => negb (d =? c)%N) (c :: w)) by (intros w; cbn [stops]; rewrite N.eqb_refl; reflexivity).
  destruct (token_split _ _ _ _ _ (P x Hx) (P x' Hx') (S u) (S u') E) as [-> H].
  injection H as ->. auto.
Qed.

Lemma debug_fields_false : forall fs, exists c w, debug_fields false fs = c :: w /\ (c = 41%N \/ c = 44%N).
Proof. intros [|f fs]; cbn; eauto. Qed.

Lemma debug_fields_inj : forall fs fs', Forall (fun f => ~ In 44%N f) fs -> Forall (fun f => ~ In 44%N f) fs' ->
  debug_fields false fs = debug_fields false fs' -> fs = fs'.
Proof.
  assert (K : forall f f' fs fs', ~ In 44%N f -> ~ In 44%N f' -> 
     f ++ debug_fields false fs = f' ++ debug_fields false fs' -> f = f' /\ debug_fields false fs = debug_fields false fs').
  { intros f f' [|g fs] [|g' fs'] Hf Hf' E.
    - apply app_inv_tail in E. auto.
    - exfalso. apply (f_equal (fun t => In 44%N t)) in E. assert (X : In 44%N (f ++ debug_fields false [])).
      { rewrite E. apply in_app_iff. right. left. auto. }
      apply in_app_iff in X as [X|X]; auto. destruct X as [X|[]]. discriminate.
    - exfalso. apply (f_equal (fun t => In 44%N t)) in E. assert (X : In 44%N (f' ++ debug_fields false [])).
      { rewrite <- E. apply in_app_iff. right. left. auto. }
      apply in_app_iff in X as [X|X]; auto. destruct X as [X|[]]. discriminate.
    - cbn [debug_fields] in *. change (s2l ", ") with [44%N; 32%N] in *. cbn [app] in *.
      apply comma_split in E as [-> ->]; auto. }
  induction fs as [|f fs IH]; intros [|f' fs'] F F' E; auto; try discriminate E.
  inversion F; subst. inversion F'; subst. cbn [debug_fields] in E. apply app_inv_head in E.
  apply K in E as [-> E]; auto. f_equal. auto.
Qed.

Lemma debug_tuple_inj name fs fs' : Forall (fun f => ~ In 44%N f) fs -> Forall (fun f => ~ In 44%N f) fs' ->
  debug_tuple name fs = debug_tuple name fs' -> fs = fs'.
Proof.
  intros F F' E. unfold debug_tuple in E. apply app_inv_head in E. destruct fs as [|f fs], fs' as [|f' fs']; auto; try discriminate E.
  cbn [debug_fields] in E. apply app_inv_head in E. apply debug_fields_inj; auto. cbn [debug_fields]. f_equal. auto.
Qed.

Lemma row_display_chars r c : In c (row_display r) -> c <> 44%N /\ c <> 58%N.
Proof.
  intros H. unfold row_display in H. apply in_concat in H as (n & Hn & Hc). apply in_map_iff in Hn as (b & <- & _).
  apply bell_name_chars in Hc. split; intros ->; cbv in Hc; repeat destruct Hc as [Hc|Hc]; discriminate.
Qed.

(** ** Comparisons *)

Lemma row_cmp_refl a : row_cmp a a = Eq.
Proof. induction a as [|x a IH]; cbn; auto. rewrite Nat.compare_refl. auto. Qed.

Lemma row_cmp_eq a b : row_cmp a b = Eq <-> a = b.
Proof.
  split; [|intros ->; apply row_cmp_refl]. revert b. induction a as [|x a IH]; intros [|y b]; cbn; try discriminate; auto.
  destruct (Nat.compare_spec x y) as [->| |]; try discriminate. intros H. f_equal. auto.
Qed.

Lemma row_cmp_antisym a b : row_cmp b a = CompOpp (row_cmp a b).
Proof.
  revert b. induction a as [|x a IH]; intros [|y b]; cbn; auto. rewrite (Nat.compare_antisym x y).
  destruct (Nat.compare x y); cbn; auto.
Qed.

Lemma rounds_least : forall r k, NoDup r -> (forall x, In x r -> k <= x) -> row_cmp (seq k (length r)) r <> Gt.
Proof.
  induction r as [|x r IH]; intros k D H; cbn [length seq row_cmp]; [discriminate|].
  pose proof (H x (or_introl eq_refl)). destruct (Nat.compare_spec k x) as [->| |]; [|discriminate|lia].
  inversion D; subst. apply IH; auto. intros y Hy. pose proof (H y (or_intror Hy)).
  assert (y <> x) by (intros ->; auto). lia.
Qed.

Lemma backrounds_greatest : forall n r, NoDup r -> (forall x, In x r -> x < n) -> length r = n ->
  row_cmp r (rev (seq 0 n)) <> Gt.
Proof.
  induction n as [|n IH]; intros r D H L.
  - destruct r; [discriminate|discriminate L].
  - rewrite seq_S, rev_app_distr. cbn [rev app Nat.add]. destruct r as [|x r]; [discriminate L|]. cbn [row_cmp].
    pose proof (H x (or_introl eq_refl)). destruct (Nat.compare_spec x n) as [->| |]; [|discriminate|lia].
    inversion D; subst. apply IH; auto. intros y Hy. pose proof (H y (or_intror Hy)).
    assert (y <> n) by (intros ->; auto). lia.
Qed.

Lemma app_len_inj {A} (a a' b b' : list A) : length a = length a' -> a ++ b = a' ++ b' -> a = a' /\ b = b'.
Proof.
  revert a'. induction a as [|x a IH]; intros [|y a'] L E; try discriminate L; auto.
  injection E as -> E. injection L as L. destruct (IH a' L E) as [-> ->]. auto.
Qed.
