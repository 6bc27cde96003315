(** The reader accepts exactly the grammar of JSON. *)
From Verif Require Import Base ListFacts Serde Json JsonFacts SpecJson LibFacts.
Local Open Scope N_scope.
Local Open Scope list_scope.

Lemma is_ws_space c : is_ws c = true <-> space c.
Proof. unfold is_ws, space. rewrite !orb_true_iff, !N.eqb_eq. tauto. Qed.

Lemma skip_spaces w t : spaces w -> skip_ws (w ++ t) = skip_ws t.
Proof. intros F. induction F as [|c w H F IH]; auto. cbn [app skip_ws]. rewrite (proj2 (is_ws_space c) H). auto. Qed.

Lemma skip_ws_spaces t : exists w, spaces w /\ t = w ++ skip_ws t.
Proof.
  destruct (skip_ws_split t) as (w & E & _ & H). exists w. split; auto. apply Forall_forall. intros c Hc. apply is_ws_space; auto.
Qed.

Lemma expect_spec c t r : ~ space c -> expect c t = Some r <-> exists w, spaces w /\ t = w ++ c :: r.
Proof.
  intros N. rewrite expect_some. split.
  - intros H. destruct (skip_ws_spaces t) as (w & S & E). exists w. rewrite H in E. auto.
  - intros (w & S & ->). rewrite skip_spaces; auto. cbn [skip_ws].
    destruct (is_ws c) eqn:W; auto. apply is_ws_space in W. contradiction.
Qed.

Ltac nospace := unfold space; intros [?|[?|[?|?]]]; discriminate.

Lemma expect_spaces c w t : spaces w -> expect c (w ++ t) = expect c t.
Proof. intros S. unfold expect. rewrite skip_spaces; auto. Qed.

(** ** Strings *)

Lemma hex_digit_iff c v : hex_digit c = Some v <-> hex_value c v.
Proof.
  unfold hex_digit. split.
  - destruct ((48 <=? c) && (c <=? 57)) eqn:A.
    { intros [= <-]. apply andb_true_iff in A as [A B]. apply N.leb_le in A, B. constructor. lia. }
    destruct ((97 <=? c) && (c <=? 102)) eqn:B.
    { intros [= <-]. apply andb_true_iff in B as [B C]. apply N.leb_le in B, C. constructor. lia. }
    destruct ((65 <=? c) && (c <=? 70)) eqn:C; [|discriminate].
    intros [= <-]. apply andb_true_iff in C as [C D]. apply N.leb_le in C, D. constructor. lia.
  - intros H. inversion H as [x L|x L|x L]; subst.
    + destruct (N.leb_spec 48 c), (N.leb_spec c 57); try lia. reflexivity.
    + destruct (N.leb_spec 48 c), (N.leb_spec c 57); try lia. cbn [andb].
      destruct (N.leb_spec 97 c), (N.leb_spec c 102); try lia. reflexivity.
    + destruct (N.leb_spec 48 c), (N.leb_spec c 57); try lia; cbn [andb];
        destruct (N.leb_spec 97 c), (N.leb_spec c 102); try lia; cbn [andb];
        destruct (N.leb_spec 65 c), (N.leb_spec c 70); try lia; reflexivity.
Qed.

Lemma hex4_iff a b c d n : hex4 a b c d = Some n <-> hex_number [a; b; c; d] n.
Proof.
  unfold hex4, hex_number. split.
  - destruct (hex_digit a) as [va|] eqn:A; [|discriminate]. destruct (hex_digit b) as [vb|] eqn:B; [|discriminate].
    destruct (hex_digit c) as [vc|] eqn:C; [|discriminate]. destruct (hex_digit d) as [vd|] eqn:D; [|discriminate].
    intros [= <-]. exists a, b, c, d, va, vb, vc, vd. rewrite !hex_digit_iff in *. splits; auto. lia.
  - intros (a' & b' & c' & d' & va & vb & vc & vd & [= <- <- <- <-] & A & B & C & D & ->).
    rewrite <- hex_digit_iff in *. rewrite A, B, C, D. f_equal. lia.
Qed.

Lemma hex_number_length h n : hex_number h n -> exists a b c d, h = [a; b; c; d] /\ hex4 a b c d = Some n.
Proof. intros H. pose proof H as (a & b & c & d & va & vb & vc & vd & -> & _). exists a, b, c, d. split; auto. apply hex4_iff. auto. Qed.

Lemma simple_escape_iff e c : simple_escape e = Some c <-> In (e, c) escapes.
Proof.
  unfold simple_escape, escapes. cbn [In]. split.
  - repeat match goal with |- context [e =? ?x] => destruct (N.eqb_spec e x) as [->|]; [intros [= <-]; auto 10|] end. discriminate.
  - intros H. repeat (destruct H as [[= <- <-]|H]; [reflexivity|]). destruct H.
Qed.

Lemma escape_not_u e c : In (e, c) escapes -> (e =? 117) = false.
Proof. cbn. intros H. repeat (destruct H as [[= <- <-]|H]; [reflexivity|]). destruct H. Qed.

Inductive pieces : list N -> list string_piece -> Prop :=
| pc_nil : pieces [] []
| pc_char c s l : 32 <= c -> c <> 34 -> c <> 92 -> pieces s l -> pieces (c :: s) (PieceChar c :: l)
| pc_escape e c s l : In (e, c) escapes -> pieces s l -> pieces (92 :: e :: s) (PieceChar c :: l)
| pc_hex h n s l : hex_number h n -> pieces s l -> pieces (92 :: 117 :: h ++ s) (PieceHex n :: l).

Lemma pieces_lex s l u : pieces s l -> lex_string (s ++ 34 :: u) = Some (l, u).
Proof.
  intros H. induction H as [|c s l A B C H IH|e c s l A H IH|h n s l A H IH].
  - reflexivity.
  - cbn [app lex_string]. apply N.eqb_neq in B, C. rewrite B, C. destruct (N.ltb_spec c 32); [lia|]. rewrite IH. reflexivity.
  - cbn [app lex_string]. change (92 =? 34) with false. change (92 <? 32) with false. change (92 =? 92) with true. cbv iota.
    rewrite (escape_not_u _ _ A). apply simple_escape_iff in A. rewrite A, IH. reflexivity.
  - destruct (hex_number_length _ _ A) as (x1 & x2 & x3 & x4 & -> & X). cbn [app lex_string].
    change (92 =? 34) with false. change (92 <? 32) with false. change (92 =? 92) with true. change (117 =? 117) with true. cbv iota.
    rewrite X, IH. reflexivity.
Qed.

Lemma lex_pieces n : forall t l r, (length t <= n)%nat -> lex_string t = Some (l, r) -> exists s, t = s ++ 34 :: r /\ pieces s l.
Proof.
  induction n as [|n IH]; intros t l r L; (destruct t as [|c t]; [discriminate|]); cbn [length] in L; [lia|].
  cbn [lex_string]. destruct (N.eqb_spec c 34) as [->|N34].
  { intros [= <- <-]. exists []. split; auto. constructor. }
  destruct (N.ltb_spec c 32); [discriminate|]. destruct (N.eqb_spec c 92) as [->|N92].
  - destruct t as [|e t]; [discriminate|]. destruct (N.eqb_spec e 117) as [->|NE].
    + destruct t as [|h1 [|h2 [|h3 [|h4 t]]]]; try discriminate.
      destruct (hex4 h1 h2 h3 h4) eqn:H4; [|discriminate]. intros E. apply cons_piece_some in E as (l' & E & ->).
      apply IH in E as (s & -> & P); [|cbn in L; lia]. exists (92 :: 117 :: [h1; h2; h3; h4] ++ s). split; auto.
      apply pc_hex; auto. apply hex4_iff. auto.
    + destruct (simple_escape e) eqn:S; [|discriminate]. intros E. apply cons_piece_some in E as (l' & E & ->).
      apply IH in E as (s & -> & P); [|cbn in L; lia]. exists (92 :: e :: s). split; auto. apply pc_escape; auto. apply simple_escape_iff; auto.
  - intros E. apply cons_piece_some in E as (l' & E & ->). apply IH in E as (s & -> & P); [|lia]. exists (c :: s). split; auto.
    apply pc_char; auto.
Qed.

Lemma lex_string_iff t l r : lex_string t = Some (l, r) <-> exists s, t = s ++ 34 :: r /\ pieces s l.
Proof. split; [apply (lex_pieces (length t)); auto|]. intros (s & -> & P). apply pieces_lex; auto. Qed.

Lemma pieces_fun s l l' : pieces s l -> pieces s l' -> l = l'.
Proof. intros H H'. apply (pieces_lex _ _ []) in H, H'. rewrite H in H'. injection H' as <-. auto. Qed.

Lemma leading_iff n : leading_surrogate n = true <-> leading n.
Proof. unfold leading_surrogate, leading. rewrite andb_true_iff, !N.leb_le. tauto. Qed.
Lemma trailing_iff n : trailing_surrogate n = true <-> trailing n.
Proof. unfold trailing_surrogate, trailing. rewrite andb_true_iff, !N.leb_le. tauto. Qed.

Lemma map_cons_some_iff c o (s : list N) : option_map (cons c) o = Some s <-> exists s', o = Some s' /\ s = c :: s'.
Proof. destruct o; cbn; split; [intros [= <-]; eauto|intros (? & [= ->] & ->); auto|discriminate|intros (? & ? & _); discriminate]. Qed.

Lemma decode_spells n : forall l s t, (length l <= n)%nat -> pieces s l -> decode_pieces l = Some t -> spells s t.
Proof.
  induction n as [|n IH]; intros l s t L P.
  { destruct l; [|cbn in L; lia]. inversion P; subst. intros [= <-]. constructor. }
  destruct P as [|c s l A B C P|e c s l A P|h x s l A P]; cbn [decode_pieces length] in *.
  - intros [= <-]. constructor.
  - intros H. apply map_cons_some_iff in H as (t' & H & ->). apply sp_char; auto. eapply IH; eauto. lia.
  - intros H. apply map_cons_some_iff in H as (t' & H & ->). apply sp_escape; auto. eapply IH; eauto. lia.
  - destruct (trailing_surrogate x) eqn:T; [discriminate|].
    assert (T' : ~ trailing x) by (intros X; apply trailing_iff in X; congruence).
    destruct (leading_surrogate x) eqn:D.
    + apply leading_iff in D. destruct P as [|? ? ? ? ? ? ?|? ? ? ? ? ?|h' x' s l A' P]; try discriminate.
      destruct (trailing_surrogate x') eqn:T2; [|discriminate]. apply trailing_iff in T2.
      intros H. apply map_cons_some_iff in H as (t' & H & ->).
      replace ((x - 55296) * 1024 + (x' - 56320) + 65536) with (65536 + (x - 55296) * 1024 + (x' - 56320)) by lia.
      apply sp_pair; auto. eapply IH; eauto. cbn in L. lia.
    + assert (D' : ~ leading x) by (intros X; apply leading_iff in X; congruence).
      intros H. apply map_cons_some_iff in H as (t' & H & ->). apply sp_hex; auto. eapply IH; eauto. lia.
Qed.

Lemma spells_decode s t : spells s t -> exists l, pieces s l /\ decode_pieces l = Some t.
Proof.
  intros H. induction H as [|c s t A B C H (l & P & D)|e c s t A H (l & P & D)|h x s t A B C H (l & P & D)|h x h' x' s t A B A' B' H (l & P & D)].
  - exists []. split; auto. constructor.
  - exists (PieceChar c :: l). split; [constructor; auto|]. cbn. rewrite D. auto.
  - exists (PieceChar c :: l). split; [constructor; auto|]. cbn. rewrite D. auto.
  - exists (PieceHex x :: l). split; [constructor; auto|]. cbn. rewrite D.
    destruct (trailing_surrogate x) eqn:T; [apply trailing_iff in T; contradiction|].
    destruct (leading_surrogate x) eqn:T'; [apply leading_iff in T'; contradiction|]. auto.
  - exists (PieceHex x :: PieceHex x' :: l). split; [apply pc_hex; auto; apply pc_hex; auto|]. cbn [decode_pieces]. rewrite D.
    destruct (trailing_surrogate x) eqn:T; [apply trailing_iff in T; unfold leading, trailing in *; lia|].
    apply leading_iff in B. apply trailing_iff in B'. rewrite B, B'. cbn [option_map]. do 2 f_equal. lia.
Qed.

Lemma literal_pieces s : literal s <-> exists l, pieces s l.
Proof.
  split.
  - intros H. induction H as [|c s A B C H (l & P)|e c s A H (l & P)|h n s A H (l & P)]; eexists.
    + apply pc_nil.
    + apply pc_char; eauto.
    + eapply pc_escape; eauto.
    + eapply pc_hex; eauto.
  - intros (l & P). induction P.
    + apply lit_nil.
    + apply lit_char; auto.
    + eapply lit_escape; eauto.
    + eapply lit_hex; eauto.
Qed.

Lemma decode_key s l : pieces s l -> key (decode_pieces l) s.
Proof.
  intros P. split; [apply literal_pieces; eauto|]. destruct (decode_pieces l) as [t|] eqn:D.
  - eapply decode_spells; eauto.
  - intros t H. apply spells_decode in H as (l' & P' & D'). rewrite (pieces_fun _ _ _ P P') in D. congruence.
Qed.

Lemma key_decode k s : key k s -> exists l, pieces s l /\ decode_pieces l = k.
Proof.
  intros [L K]. apply literal_pieces in L as (l & P). exists l. split; auto. destruct k as [t|].
  - apply spells_decode in K as (l' & P' & D). rewrite (pieces_fun _ _ _ P P'). auto.
  - destruct (decode_pieces l) as [t|] eqn:D; auto. exfalso. apply (K t). eapply decode_spells; eauto.
Qed.

(** ** Numbers *)

Lemma is_digit_iff c : is_digit c = true <-> digit c.
Proof. unfold is_digit, digit. rewrite andb_true_iff, !N.leb_le. tauto. Qed.

Definition stops (p : N -> bool) (u : list N) : Prop := match u with [] => True | c :: _ => p c = false end.

Lemma take_digits_iff t ds r : take_digits t = (ds, r) <-> t = ds ++ r /\ Forall digit ds /\ stops is_digit r.
Proof.
  revert ds r. induction t as [|c t IH]; intros ds r; cbn [take_digits].
  - split.
    + intros [= <- <-]. splits; cbn; auto.
    + intros (E & _). symmetry in E. apply app_eq_nil in E as [-> ->]. auto.
  - destruct (is_digit c) eqn:D.
    + destruct (take_digits t) as [ds' r'] eqn:T. split.
      * intros [= <- <-]. destruct (proj1 (IH ds' r') eq_refl) as (-> & F & S). splits; auto. constructor; auto. apply is_digit_iff; auto.
      * intros (E & F & S). destruct ds as [|x ds].
        { cbn in E. subst r. cbn in S. congruence. }
        injection E as <- ->. inversion_clear F.
        assert (X : (ds', r') = (ds, r)) by (apply IH; auto). injection X as -> ->. auto.
    + split.
      * intros [= <- <-]. splits; auto.
      * intros (E & F & S). destruct ds as [|x ds]; [cbn in E; subst; auto|]. injection E as <- ->. inversion_clear F.
        apply is_digit_iff in H. congruence.
Qed.

Lemma some_digits_iff t r : some_digits t = Some r <-> exists ds, digits ds /\ t = ds ++ r /\ stops is_digit r.
Proof.
  unfold some_digits. destruct (take_digits t) as [ds r'] eqn:T. apply take_digits_iff in T as (-> & F & S). split.
  - destruct ds as [|c ds]; [discriminate|]. intros [= <-]. exists (c :: ds). splits; auto. split; auto. discriminate.
  - intros (ds' & [N F'] & E & S').
    assert (X : take_digits (ds ++ r') = (ds', r)) by (apply take_digits_iff; auto).
    assert (Y : take_digits (ds ++ r') = (ds, r')) by (apply take_digits_iff; auto).
    rewrite X in Y. injection Y as -> ->. destruct ds; [congruence|auto].
Qed.

Lemma decimal_value ds n : decimal ds n -> digits_value ds = n.
Proof.
  intros H. induction H as [|ds n d H IH D]; [reflexivity|]. unfold digits_value in *. rewrite fold_left_app, IH. cbn [fold_left]. lia.
Qed.

Lemma value_decimal ds : Forall digit ds -> decimal ds (digits_value ds).
Proof.
  induction ds as [|d ds IH] using rev_ind; intros F; [constructor|]. apply Forall_app in F as [F D]. inversion_clear D.
  unfold digits_value in *. rewrite fold_left_app. cbn [fold_left].
  replace (fold_left (fun n c => n * 10 + (c - 48)) ds 0 * 10 + (d - 48)) with
    (10 * fold_left (fun n c => n * 10 + (c - 48)) ds 0 + (d - 48)) by lia.
  constructor; auto.
Qed.

(** What may follow a value. *)
Definition follow (u : list N) : Prop := match u with [] => True | c :: _ => space c \/ In c [44; 93; 125] end.

Lemma follow_facts u : follow u -> stops is_digit u /\ stops (fun c => c =? 46) u /\ stops (fun c => (c =? 101) || (c =? 69)) u.
Proof.
  destruct u as [|c u]; cbn [follow stops]; auto. unfold space. cbn [In].
  intros [[->|[->|[->| ->]]]|[<-|[<-|[<-|[]]]]]; splits; reflexivity.
Qed.

Lemma lex_fraction_iff t b r : lex_fraction t = Some (b, r) <->
  exists f, t = f ++ r /\ (b = false /\ f = [] /\ stops (fun c => c =? 46) r \/ b = true /\ fraction f /\ stops is_digit r).
Proof.
  unfold lex_fraction. split.
  - destruct t as [|c t]; [intros [= <- <-]; exists []; cbn; auto|]. destruct (N.eqb_spec c 46) as [->|N].
    + destruct (some_digits t) as [r'|] eqn:S; [|discriminate]. intros [= <- <-]. apply some_digits_iff in S as (ds & D & -> & S).
      exists (46 :: ds). split; auto. right. splits; auto. exists ds. auto.
    + intros [= <- <-]. exists []. split; auto. left. splits; auto. cbn. apply N.eqb_neq; auto.
  - intros (f & -> & [(-> & -> & S)|(-> & (ds & D & ->) & S)]).
    + cbn [app]. destruct r as [|c r]; auto. cbn in S. rewrite S. auto.
    + cbn [app]. change (46 =? 46) with true. cbv iota.
      rewrite (proj2 (some_digits_iff (ds ++ r) r)); eauto.
Qed.

Lemma digits_head ds r : digits ds -> exists c t, ds ++ r = c :: t /\ digit c.
Proof. intros [N F]. destruct ds as [|c ds]; [congruence|]. inversion_clear F. exists c, (ds ++ r). auto. Qed.

Lemma lex_exponent_iff t b r : lex_exponent t = Some (b, r) <->
  exists e, t = e ++ r /\ (b = false /\ e = [] /\ stops (fun c => (c =? 101) || (c =? 69)) r \/
    b = true /\ exponent e /\ stops is_digit r).
Proof.
  unfold lex_exponent. split.
  - destruct t as [|c t]; [intros [= <- <-]; exists []; cbn; auto|]. destruct ((c =? 101) || (c =? 69)) eqn:C.
    + apply orb_true_iff in C. rewrite !N.eqb_eq in C.
      destruct (some_digits _) as [r'|] eqn:S; [|discriminate]. intros [= <- <-]. apply some_digits_iff in S as (ds & D & E & S).
      assert (X : exists sign, (sign = [] \/ sign = [43] \/ sign = [45]) /\ t = sign ++ ds ++ r').
      { destruct t as [|x t]; [exists []; auto|]. destruct ((x =? 43) || (x =? 45)) eqn:Q; [|exists []; auto].
        apply orb_true_iff in Q. rewrite !N.eqb_eq in Q. exists [x]. cbn. split; [destruct Q as [->| ->]; auto|congruence]. }
      destruct X as (sign & Hs & ->). exists (c :: sign ++ ds). split; [cbn; rewrite <- app_assoc; auto|]. right. splits; auto.
      exists c, sign, ds. auto.
    + intros [= <- <-]. exists []. split; auto.
  - intros (e & -> & [(-> & -> & S)|(-> & (x & sign & ds & X & Hs & D & ->) & S)]).
    + cbn [app]. destruct r as [|c r]; auto. cbn in S. rewrite S. auto.
    + cbn [app]. assert (C : (x =? 101) || (x =? 69) = true) by (apply orb_true_iff; rewrite !N.eqb_eq; auto). rewrite C.
      rewrite <- app_assoc.
      assert (Q : match sign ++ ds ++ r with s :: t'' => if (s =? 43) || (s =? 45) then t'' else sign ++ ds ++ r | [] => sign ++ ds ++ r end = ds ++ r).
      { destruct Hs as [->|[->| ->]]; cbn [app]; auto. destruct (digits_head ds r D) as (c & t & E & Dc). rewrite E.
        unfold digit in Dc. destruct (N.eqb_spec c 43); [lia|]. destruct (N.eqb_spec c 45); [lia|]. auto. }
      rewrite Q. rewrite (proj2 (some_digits_iff (ds ++ r) r)); eauto.
Qed.

Lemma fraction_stops f e u : fraction f -> follow u -> e = [] \/ exponent e -> stops is_digit (e ++ u).
Proof.
  intros _ Fu [->|(x & sign & ds & X & _ & _ & ->)]; [apply follow_facts; auto|]. cbn. destruct X as [->| ->]; reflexivity.
Qed.

Lemma exponent_stops e u : follow u -> e = [] \/ exponent e -> stops is_digit (e ++ u) /\ stops (fun c => c =? 46) (e ++ u).
Proof.
  intros Fu [->|(x & sign & ds & X & _ & _ & ->)]; [destruct (follow_facts u Fu); tauto|]. cbn. destruct X as [->| ->]; auto.
Qed.

(** Numbers without sign *)
Lemma lex_unsigned_sound neg t j r : lex_unsigned neg t = Some (j, r) ->
  exists i f e, t = i ++ f ++ e ++ r /\ integer i /\ (f = [] \/ fraction f) /\ (e = [] \/ exponent e) /\
    (neg = false -> f = [] -> e = [] -> j = JNum (digits_value i)) /\
    (neg = true \/ f <> [] \/ e <> [] -> j = JOther).
Proof.
  unfold lex_unsigned. destruct (take_digits t) as [ds t1] eqn:T. apply take_digits_iff in T as (-> & F & S).
  destruct ds as [|c ds]; [discriminate|].
  destruct (match ds with [] => false | _ :: _ => (c =? 48) end) eqn:Z; [discriminate|].
  destruct (lex_fraction t1) as [[b1 t2]|] eqn:X; [|discriminate].
  destruct (lex_exponent t2) as [[b2 t3]|] eqn:Y; [|discriminate]. intros [= <- <-].
  apply lex_fraction_iff in X as (f & -> & Hf). apply lex_exponent_iff in Y as (e & -> & He).
  exists (c :: ds), f, e. split; auto. split.
  { split; [split; auto; discriminate|]. intros t E. injection E as -> ->. destruct t; auto. discriminate. }
  assert (Ff : fraction [] -> False) by (intros (x & _ & [=])).
  assert (Fe : exponent [] -> False) by (intros (x & y & z & _ & _ & _ & [=])).
  destruct Hf as [(-> & -> & _)|(-> & Hf & _)], He as [(-> & -> & _)|(-> & He & _)]; splits; auto.
  - intros ->. reflexivity.
  - intros [->|[N|N]]; [reflexivity|congruence|congruence].
  - intros _ _ ->. destruct (Fe He).
  - intros _. rewrite orb_true_r. auto.
  - intros _ ->. destruct (Ff Hf).
  - intros _. rewrite orb_true_r. auto.
  - intros _ ->. destruct (Ff Hf).
  - intros _. rewrite !orb_true_r. auto.
Qed.

Lemma lex_unsigned_complete neg i f e u : integer i -> f = [] \/ fraction f -> e = [] \/ exponent e -> follow u ->
  lex_unsigned neg (i ++ f ++ e ++ u) =
    Some (match neg, f, e with false, [], [] => JNum (digits_value i) | _, _, _ => JOther end, u).
Proof.
  intros [[Ni Fi] Zi] Hf He Fu. unfold lex_unsigned.
  destruct (exponent_stops e u Fu He) as [S1 S2]. destruct (follow_facts u Fu) as (U1 & U2 & U3).
  assert (T : take_digits (i ++ f ++ e ++ u) = (i, f ++ e ++ u)).
  { apply take_digits_iff. splits; auto. destruct Hf as [->|(ds & D & ->)]; auto. reflexivity. }
  rewrite T. destruct i as [|c ds]; [congruence|].
  assert (Z : match ds with [] => false | _ :: _ => (c =? 48) end = false).
  { destruct ds; auto. apply N.eqb_neq. intros ->. discriminate (Zi _ eq_refl). }
  rewrite Z.
  assert (X : lex_fraction (f ++ e ++ u) = Some (match f with [] => false | _ => true end, e ++ u)).
  { apply lex_fraction_iff. exists f. split; auto. destruct Hf as [->|Hf]; [left; auto|right].
    pose proof Hf as (ds' & _ & ->). splits; auto. }
  rewrite X.
  assert (Y : lex_exponent (e ++ u) = Some (match e with [] => false | _ => true end, u)).
  { apply lex_exponent_iff. exists e. split; auto. destruct He as [->|He]; [left; auto|right].
    pose proof He as (x & sg & ds' & _ & _ & _ & ->). splits; auto. }
  rewrite Y. destruct neg, f, e; reflexivity.
Qed.

(** ** Soundness *)

Lemma lex_word_sound w j' t j r : lex_word w j' t = Some (j, r) -> t = w ++ r /\ j = j'.
Proof.
  unfold lex_word. destruct (strip_prefix w t) eqn:S; [|discriminate]. intros [= -> ->]. apply strip_prefix_spec in S. auto.
Qed.

Lemma lex_scalar_sound t j r : lex_scalar t = Some (j, r) -> exists s, t = s ++ r /\ json_text j s.
Proof.
  unfold lex_scalar. destruct t as [|c t]; [discriminate|]. destruct (N.eqb_spec c 34) as [->|].
  { destruct (lex_string t) as [[l r']|] eqn:L; [|discriminate]. intros [= <- <-]. apply lex_string_iff in L as (s & -> & P).
    exists (34 :: s ++ [34]). split; [cbn; rewrite <- app_assoc; auto|]. apply decode_key in P.
    destruct (decode_pieces l); [apply jt_string; apply P|apply jt_no_text; auto]. }
  destruct (N.eqb_spec c 45) as [->|].
  { intros H. apply lex_unsigned_sound in H as (i & f & e & -> & Hi & Hf & He & _ & J). rewrite J by auto.
    exists ([45] ++ i ++ f ++ e). split; [cbn; rewrite <- !app_assoc; auto|]. apply jt_number; auto. discriminate. }
  destruct (is_digit c).
  { intros H. apply lex_unsigned_sound in H as (i & f & e & -> & Hi & Hf & He & J1 & J2).
    exists (i ++ f ++ e). split; [rewrite <- !app_assoc; auto|].
    destruct f as [|x f]; [destruct e as [|y e]|].
    - rewrite J1 by auto. cbn [app]. rewrite app_nil_r. apply jt_natural; auto. apply value_decimal. apply Hi.
    - rewrite J2 by (right; right; discriminate). apply (jt_number []); auto. discriminate.
    - rewrite J2 by (right; left; discriminate). apply (jt_number []); auto. discriminate. }
  destruct (c =? 110); [|destruct (c =? 116); [|destruct (c =? 102); [|discriminate]]];
    intros H; apply lex_word_sound in H as [-> ->]; eexists; (split; [reflexivity|]); constructor.
Qed.

Lemma object_of_cases fs : (exists fields, fs = map (fun '(k, v) => (Some k, v)) fields /\ object_of fs = JObj fields) \/
  (exists j, In (None, j) fs /\ object_of fs = JOther).
Proof.
  unfold object_of. induction fs as [|[[k|] v] fs IH]; cbn [mapO obind option_map].
  - left. exists []. auto.
  - destruct IH as [(fields & -> & E)|(j & H & E)].
    + left. exists ((k, v) :: fields). split; auto. destruct (mapO _ _); [injection E as ->; auto|discriminate].
    + right. exists j. split; [right; auto|]. destruct (mapO _ _); [discriminate|auto].
  - right. exists v. split; [left; auto|auto].
Qed.

Lemma parse_sound f :
  (forall t j r, parse_value f t = Ret (Some (j, r)) -> exists w s, spaces w /\ t = w ++ s ++ r /\ json_text j s) /\
  (forall t l r, parse_elems f t = Ret (Some (l, r)) -> exists s, t = s ++ 93 :: r /\ json_elems l s) /\
  (forall t l r, parse_fields f t = Ret (Some (l, r)) -> exists s, t = s ++ 125 :: r /\ json_fields l s).
Proof.
  induction f as [|f (IHv & IHe & IHf)]; [splits; discriminate|]. splits.
  - intros t j r. cbn [parse_value].
    destruct (expect 91 t) as [t1|] eqn:X.
    { apply expect_spec in X as (w & W & ->); [|nospace].
      destruct (expect 93 t1) as [r1|] eqn:Y.
      - apply expect_spec in Y as (w' & W' & ->); [|nospace]. intros [= <- <-]. exists w, (91 :: w' ++ [93]).
        splits; auto; [cbn; rewrite <- app_assoc; auto|]. constructor; auto.
      - destruct (parse_elems f t1) as [[[l r1]|]| | |] eqn:P; try discriminate. cbn [bind]. intros [= <- <-].
        apply IHe in P as (s & -> & P). exists w, (91 :: s ++ [93]). splits; auto; [cbn; rewrite <- app_assoc; auto|]. constructor; auto. }
    destruct (expect 123 t) as [t1|] eqn:X'.
    { apply expect_spec in X' as (w & W & ->); [|nospace].
      destruct (expect 125 t1) as [r1|] eqn:Y.
      - apply expect_spec in Y as (w' & W' & ->); [|nospace]. intros [= <- <-]. exists w, (123 :: w' ++ [125]).
        splits; auto; [cbn; rewrite <- app_assoc; auto|]. constructor; auto.
      - destruct (parse_fields f t1) as [[[l r1]|]| | |] eqn:P; try discriminate. cbn [bind]. intros [= <- <-].
        apply IHf in P as (s & -> & P). exists w, (123 :: s ++ [125]). splits; auto; [cbn; rewrite <- app_assoc; auto|].
        destruct (object_of_cases l) as [(fields & -> & ->)|(j & H & ->)]; [constructor; auto|eapply jt_bad_object; eauto]. }
    intros [= H]. apply lex_scalar_sound in H as (s & E & P). destruct (skip_ws_spaces t) as (w & W & Et).
    exists w, s. splits; auto. rewrite Et at 1. rewrite E. auto.
  - intros t l r. cbn [parse_elems].
    destruct (parse_value f t) as [[[j t1]|]| | |] eqn:P; try discriminate. cbn [bind].
    apply IHv in P as (w & s & W & -> & P).
    destruct (expect 93 t1) as [r1|] eqn:Y.
    + apply expect_spec in Y as (w' & W' & ->); [|nospace]. intros [= <- <-]. exists (w ++ s ++ w'). split; [rewrite <- !app_assoc; auto|]. constructor; auto.
    + destruct (expect 44 t1) as [t2|] eqn:Z; [|discriminate]. apply expect_spec in Z as (w' & W' & ->); [|nospace].
      destruct (parse_elems f t2) as [[[l' r1]|]| | |] eqn:P2; try discriminate. cbn [bind]. intros [= <- <-].
      apply IHe in P2 as (s2 & -> & P2). exists (w ++ s ++ w' ++ 44 :: s2). split; [rewrite <- !app_assoc; auto|]. constructor; auto.
  - intros t l r. cbn [parse_fields].
    destruct (expect 34 t) as [t1|] eqn:X; [|discriminate]. apply expect_spec in X as (w1 & W1 & ->); [|nospace].
    destruct (lex_string t1) as [[ps t2]|] eqn:L; [|discriminate]. apply lex_string_iff in L as (sk & -> & K). apply decode_key in K.
    destruct (expect 58 t2) as [t3|] eqn:X2; [|discriminate]. apply expect_spec in X2 as (w2 & W2 & ->); [|nospace].
    destruct (parse_value f t3) as [[[j t4]|]| | |] eqn:P; try discriminate. cbn [bind]. cbv zeta.
    apply IHv in P as (w3 & s & W3 & -> & P).
    destruct (expect 125 t4) as [r1|] eqn:Y.
    + apply expect_spec in Y as (w4 & W4 & ->); [|nospace]. intros [= <- <-].
      exists (w1 ++ 34 :: sk ++ 34 :: w2 ++ 58 :: w3 ++ s ++ w4). split; [rewrite <- app_assoc; cbn [app]; rewrite <- app_assoc; cbn [app]; rewrite <- app_assoc; cbn [app]; rewrite <- !app_assoc; auto|].
      constructor; auto.
    + destruct (expect 44 t4) as [t5|] eqn:Z; [|discriminate]. apply expect_spec in Z as (w4 & W4 & ->); [|nospace].
      destruct (parse_fields f t5) as [[[l' r1]|]| | |] eqn:P2; try discriminate. cbn [bind]. intros [= <- <-].
      apply IHf in P2 as (s2 & -> & P2).
      exists (w1 ++ 34 :: sk ++ 34 :: w2 ++ 58 :: w3 ++ s ++ w4 ++ 44 :: s2).
      split; [rewrite <- app_assoc; cbn [app]; rewrite <- app_assoc; cbn [app]; rewrite <- app_assoc; cbn [app]; rewrite <- !app_assoc; auto|].
      constructor; auto.
Qed.

(** ** Completeness *)

Scheme json_text_mut := Induction for json_text Sort Prop
  with json_elems_mut := Induction for json_elems Sort Prop
  with json_fields_mut := Induction for json_fields Sort Prop.
Combined Scheme json_mutind from json_text_mut, json_elems_mut, json_fields_mut.

Lemma follow_spaces w c u : spaces w -> In c [44; 93; 125] -> follow (w ++ c :: u).
Proof. intros W H. destruct W as [|x w X W]; cbn [app follow]; auto. Qed.

Lemma value_scalar w s u c t j : spaces w -> s ++ u = c :: t -> is_ws c = false -> c <> 91 -> c <> 123 ->
  lex_scalar (c :: t) = Some (j, u) -> parse_value 1 (w ++ s ++ u) = Ret (Some (j, u)).
Proof.
  intros W -> S N1 N2 H. cbn [parse_value]. rewrite !expect_spaces, !expect_head, skip_spaces by auto.
  apply N.eqb_neq in N1, N2. rewrite N1, N2. cbn [skip_ws]. rewrite S, H. auto.
Qed.

Definition value_ok (j : json) (s : list N) : Prop := forall u, follow u ->
  exists f, forall w, spaces w -> parse_value f (w ++ s ++ u) = Ret (Some (j, u)).

Lemma value_fuel j s u f f' w : spaces w -> (forall w, spaces w -> parse_value f (w ++ s ++ u) = Ret (Some (j, u))) -> (f <= f')%nat ->
  parse_value f' (w ++ s ++ u) = Ret (Some (j, u)).
Proof. intros W H L. exact (proj1 (parse_mono f) _ _ f' (H w W) L). Qed.

Lemma scalar_head j s : json_text j s -> forall u, match s ++ u with c :: _ => is_ws c = false /\ c <> 93 /\ c <> 125 | [] => False end.
Proof.
  intros H u.
  assert (D : forall c, digit c -> is_ws c = false /\ c <> 93 /\ c <> 125).
  { intros c Hc. apply is_digit_iff in Hc. apply digit_facts in Hc. tauto. }
  assert (I : forall i x, integer i -> match i ++ x with c :: _ => is_ws c = false /\ c <> 93 /\ c <> 125 | [] => False end).
  { intros i x [[Ni Fi] _]. destruct i as [|c i]; [congruence|]. inversion_clear Fi. cbn. auto. }
  destruct H; try (cbn; splits; (reflexivity || discriminate)).
  - apply I; auto.
  - rewrite <- !app_assoc. destruct H as [->| ->]; [cbn [app]; apply I; auto|]. cbn. splits; (reflexivity || discriminate).
Qed.

Lemma not_close j s u d : json_text j s -> forall w, spaces w -> d = 93 \/ d = 125 -> expect d (w ++ s ++ u) = None.
Proof.
  intros H w W Hd. rewrite expect_spaces; auto. pose proof (scalar_head j s H u) as X. destruct (s ++ u) as [|c t]; [destruct X|].
  destruct X as (X & N1 & N2). rewrite expect_head; auto. destruct (N.eqb_spec c d); auto. destruct Hd; congruence.
Qed.

Lemma json_complete :
  (forall j s, json_text j s -> value_ok j s) /\
  (forall l s, json_elems l s -> forall u, exists f, parse_elems f (s ++ 93 :: u) = Ret (Some (l, u)) /\ expect 93 (s ++ 93 :: u) = None) /\
  (forall l s, json_fields l s -> forall u, exists f, parse_fields f (s ++ 125 :: u) = Ret (Some (l, u)) /\ expect 125 (s ++ 125 :: u) = None).
Proof.
  apply json_mutind.
  - intros u _. exists 1%nat. intros w W. eapply value_scalar; [auto|reflexivity| | | |]; try reflexivity; discriminate.
  - intros u _. exists 1%nat. intros w W. eapply value_scalar; [auto|reflexivity| | | |]; try reflexivity; discriminate.
  - intros u _. exists 1%nat. intros w W. eapply value_scalar; [auto|reflexivity| | | |]; try reflexivity; discriminate.
  - intros ds n Hi Hd u Fu. exists 1%nat. intros w W. apply decimal_value in Hd as <-.
    pose proof (lex_unsigned_complete false ds [] [] u Hi (or_introl eq_refl) (or_introl eq_refl) Fu) as X. cbn [app] in X.
    pose proof Hi as [[Ni Fi] _]. destruct ds as [|c ds]; [congruence|]. inversion_clear Fi. pose proof H as Hc.
    apply is_digit_iff in Hc. pose proof (digit_facts c Hc) as (D1 & D2 & D3 & _ & _).
    eapply value_scalar; [auto|reflexivity|auto|auto|auto|]. unfold lex_scalar. unfold digit in H.
    destruct (N.eqb_spec c 34); [lia|]. destruct (N.eqb_spec c 45); [lia|]. rewrite Hc. exact X.
  - intros sign i f e Hs Hi Hf He Ne u Fu. exists 1%nat. intros w W. destruct Hs as [->| ->].
    + pose proof (lex_unsigned_complete false i f e u Hi Hf He Fu) as X.
      assert (Y : match f with [] => match e with [] => JNum (digits_value i) | _ :: _ => JOther end | _ :: _ => JOther end = JOther)
        by (destruct f; [destruct e; [destruct (Ne eq_refl)|auto]|auto]).
      cbv iota in X. rewrite Y in X. pose proof Hi as [[Ni Fi] _]. destruct i as [|c ds]; [congruence|]. inversion_clear Fi. pose proof H as Hc.
      apply is_digit_iff in Hc. pose proof (digit_facts c Hc) as (D1 & D2 & D3 & _ & _).
      eapply (value_scalar w ([] ++ (c :: ds) ++ f ++ e) u c (ds ++ f ++ e ++ u)); auto.
      { cbn. rewrite <- !app_assoc. auto. }
      unfold lex_scalar. unfold digit in H.
      destruct (N.eqb_spec c 34); [lia|]. destruct (N.eqb_spec c 45); [lia|]. rewrite Hc. exact X.
    + pose proof (lex_unsigned_complete true i f e u Hi Hf He Fu) as X.
      eapply (value_scalar w ([45] ++ i ++ f ++ e) u 45 (i ++ f ++ e ++ u)); auto; try discriminate.
      cbn. rewrite <- !app_assoc. auto.
  - intros s t H u Fu. exists 1%nat. intros w W. apply spells_decode in H as (l & P & D).
    eapply (value_scalar w (34 :: s ++ [34]) u 34 (s ++ 34 :: u)); auto; try discriminate.
    + cbn. rewrite <- app_assoc. auto.
    + cbn [lex_scalar]. change (34 =? 34) with true. cbv iota. rewrite (pieces_lex _ _ u P), D. auto.
  - intros s H u Fu. exists 1%nat. intros w W. apply key_decode in H as (l & P & D).
    eapply (value_scalar w (34 :: s ++ [34]) u 34 (s ++ 34 :: u)); auto; try discriminate.
    + cbn. rewrite <- app_assoc. auto.
    + cbn [lex_scalar]. change (34 =? 34) with true. cbv iota. rewrite (pieces_lex _ _ u P), D. auto.
  - intros w0 W0 u _. exists 1%nat. intros w W. cbn [parse_value]. rewrite expect_spaces by auto. cbn [app]. rewrite expect_head by auto.
    change (91 =? 91) with true. cbv iota. rewrite <- app_assoc, expect_spaces by auto. reflexivity.
  - intros l s H IH u _. destruct (IH u) as (f & P & N). exists (S f). intros w W. cbn [parse_value]. rewrite expect_spaces by auto.
    cbn [app]. rewrite expect_head by auto. change (91 =? 91) with true. cbv iota. rewrite <- app_assoc. cbn [app]. rewrite N, P. auto.
  - intros w0 W0 u _. exists 1%nat. intros w W. cbn [parse_value]. rewrite (expect_spaces 91 w), (expect_spaces 123 w) by auto. cbn [app]. rewrite (expect_head 123 91), (expect_head 123 123) by reflexivity.
    change (123 =? 91) with false. change (123 =? 123) with true. cbv iota. rewrite <- app_assoc, (expect_spaces 125 w0) by auto. reflexivity.
  - intros fields s H IH u _. destruct (IH u) as (f & P & N). exists (S f). intros w W. cbn [parse_value]. rewrite (expect_spaces 91 w), (expect_spaces 123 w) by auto.
    cbn [app]. rewrite (expect_head 123 91), (expect_head 123 123) by reflexivity. change (123 =? 91) with false. change (123 =? 123) with true. cbv iota.
    rewrite <- app_assoc. cbn [app]. rewrite N, P. cbn [bind]. rewrite object_of_some. auto.
  - intros fields s j H IH Hj u _. destruct (IH u) as (f & P & N). exists (S f). intros w W. cbn [parse_value]. rewrite (expect_spaces 91 w), (expect_spaces 123 w) by auto.
    cbn [app]. rewrite (expect_head 123 91), (expect_head 123 123) by reflexivity. change (123 =? 91) with false. change (123 =? 123) with true. cbv iota.
    rewrite <- app_assoc. cbn [app]. rewrite N, P. cbn [bind].
    destruct (object_of_cases fields) as [(fs & -> & _)|(j' & _ & ->)]; auto.
    apply in_map_iff in Hj as ([k v] & X & _). discriminate.
  - intros w1 j s w2 W1 H IH W2 u.
    destruct (IH (w2 ++ 93 :: u) (follow_spaces w2 93 u W2 ltac:(cbn; auto))) as (f & P). exists (S f). rewrite <- !app_assoc. split.
    + cbn [parse_elems]. rewrite (P w1 W1). cbn [bind]. rewrite expect_spaces, expect_head by auto. reflexivity.
    + eapply not_close; eauto.
  - intros w1 j s w2 l r W1 H IH W2 H2 IH2 u. destruct (IH2 u) as (f2 & P2 & _).
    destruct (IH (w2 ++ 44 :: r ++ 93 :: u) (follow_spaces w2 44 _ W2 ltac:(cbn; auto))) as (f & P). exists (S (f + f2)).
    rewrite <- !app_assoc. cbn [app]. split.
    + cbn [parse_elems]. rewrite (value_fuel _ _ _ f (f + f2) w1 W1 P) by lia. cbn [bind].
      rewrite (expect_spaces 93 w2), (expect_spaces 44 w2), (expect_head 44 93), (expect_head 44 44) by auto. change (44 =? 93) with false. change (44 =? 44) with true. cbv iota.
      rewrite (proj1 (proj2 (parse_mono f2)) _ _ (f + f2)%nat P2) by lia. auto.
    + eapply not_close; eauto.
  - intros w1 k sk w2 w3 j s w4 W1 K W2 W3 H IH W4 u. apply key_decode in K as (l & Pl & D).
    destruct (IH (w4 ++ 125 :: u) (follow_spaces w4 125 u W4 ltac:(cbn; auto))) as (f & P). exists (S f).
    rewrite <- app_assoc; cbn [app]; rewrite <- app_assoc; cbn [app]; rewrite <- app_assoc; cbn [app]; rewrite <- !app_assoc. split.
    + cbn [parse_fields]. rewrite expect_spaces, expect_head by auto. change (34 =? 34) with true. cbv iota.
      rewrite (pieces_lex _ _ _ Pl). rewrite expect_spaces, expect_head by auto. change (58 =? 58) with true. cbv iota.
      rewrite (P w3 W3). cbn [bind]. rewrite expect_spaces, expect_head by auto. rewrite D. reflexivity.
    + rewrite expect_spaces, expect_head by auto. reflexivity.
  - intros w1 k sk w2 w3 j s w4 l0 r W1 K W2 W3 H IH W4 H2 IH2 u. apply key_decode in K as (l & Pl & D). destruct (IH2 u) as (f2 & P2 & _).
    destruct (IH (w4 ++ 44 :: r ++ 125 :: u) (follow_spaces w4 44 _ W4 ltac:(cbn; auto))) as (f & P). exists (S (f + f2)).
    rewrite <- app_assoc; cbn [app]; rewrite <- app_assoc; cbn [app]; rewrite <- app_assoc; cbn [app]; rewrite <- !app_assoc; cbn [app]. split.
    + cbn [parse_fields]. rewrite expect_spaces, expect_head by auto. change (34 =? 34) with true. cbv iota.
      rewrite (pieces_lex _ _ _ Pl). rewrite expect_spaces, expect_head by auto. change (58 =? 58) with true. cbv iota.
      rewrite (value_fuel _ _ _ f (f + f2) w3 W3 P) by lia. cbn [bind]. rewrite (expect_spaces 125 w4), (expect_spaces 44 w4), (expect_head 44 125), (expect_head 44 44) by auto. rewrite D.
      change (44 =? 125) with false. change (44 =? 44) with true. cbv iota zeta.
      rewrite (proj2 (proj2 (parse_mono f2)) _ _ (f + f2)%nat P2) by lia. auto.
    + rewrite expect_spaces, expect_head by auto. reflexivity.
Qed.

Lemma json_read_document t j : json_read t = Ret (Some j) <-> json_document j t.
Proof.
  rewrite json_read_some. split.
  - intros (f & r & P & Hr). apply parse_sound in P as (w & s & W & -> & P). destruct (skip_ws_spaces r) as (w2 & W2 & E).
    rewrite Hr, app_nil_r in E. subst w2. exists w, s, r. auto.
  - intros (w1 & s & w2 & W1 & H & W2 & ->). destruct (proj1 json_complete j s H w2) as (f & P).
    { destruct W2; cbn; auto. }
    exists f, w2. split; auto. rewrite <- (app_nil_r w2) at 1. rewrite skip_spaces; auto.
Qed.
