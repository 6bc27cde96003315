(** Proofs about the model of the reader of the Central Council's XML format. *)
From Verif Require Import Base Spec ListFacts Bell Stage Row Utils SameStageVec Block PlaceNot Class Method
  Library Serde SpecLib MethodFacts LibFacts PropsBell Json SpecJson GrammarFacts CcXml SpecXml.
Local Open Scope list_scope.

(** ** Elements *)

Lemma only_split l : forall (f : element -> bool) c,
  find f (only_elements l) = Some c <->
  exists before after, l = before ++ inl c :: after /\ f c = true /\ forall d, In (inl d) before -> f d = false.
Proof.
  induction l as [|[e|t] l IH]; intros f c; cbn [only_elements find].
  - split; [discriminate|]. intros (b & a & E & _). destruct b; discriminate.
  - destruct (f e) eqn:Ef.
    + split.
      * intros [= <-]. exists [], l. splits; auto. intros d [].
      * intros (b & a & E & Hc & Hb). destruct b as [|x b]; cbn in E; injection E; intros; subst; auto.
        rewrite (Hb e) in Ef by (left; auto). discriminate.
    + rewrite IH. split.
      * intros (b & a & -> & Hc & Hb). exists (inl e :: b), a. splits; auto. intros d [[= ->]|H]; auto.
      * intros (b & a & E & Hc & Hb). destruct b as [|x b]; cbn in E; injection E; intros; subst; [congruence|].
        exists b, a. splits; auto. intros d H. apply Hb. right. auto.
  - rewrite IH. split.
    + intros (b & a & -> & Hc & Hb). exists (inr t :: b), a. splits; auto. intros d [H|H]; [discriminate|auto].
    + intros (b & a & E & Hc & Hb). destruct b as [|x b]; cbn in E; [discriminate|]. injection E; intros; subst. exists b, a. splits; auto. intros d H. apply Hb. right. auto.
Qed.

Lemma get_child_ok e name c : get_child e name = Some c <-> first_child e name c.
Proof.
  unfold get_child, el_children, first_child. rewrite only_split.
  set (f := fun c0 => str_eqb (el_name c0) name && str_eqb (el_namespace c0) NAMESPACE).
  assert (F : forall d, f d = true <-> exists attrs nodes, @inl element str d = inl (Element name council attrs nodes)).
  { intros [n ns a l]. unfold f. cbn. rewrite andb_true_iff, !str_eqb_iff. split.
    - intros [-> ->]. exists a, l. reflexivity.
    - intros (a' & l' & [= -> -> _ _]). split; reflexivity. }
  split; intros (b & a & E & Hc & Hb); exists b, a; (split; [exact E|]).
  - split; [apply F; auto|]. intros n Hn (at' & nd & ->). apply Hb in Hn. apply not_true_iff_false in Hn. apply Hn, F. eauto.
  - split; [apply F; auto|]. intros d Hd. apply not_true_iff_false. intros X. apply F in X. apply (Hb _ Hd X).
Qed.

Lemma text_words e : el_text e = words e.
Proof.
  unfold el_text, words. enough (H : forall l acc, fold_left (fun acc n => match n with inl _ => acc | inr t => acc ++ t end) l acc =
    acc ++ flat_map (fun n : element + str => match n with inl _ => [] | inr t => t end) l) by apply (H _ []).
  induction l as [|[c|t] l IH]; intros acc; cbn [fold_left flat_map].
  - rewrite app_nil_r. auto.
  - rewrite IH. reflexivity.
  - rewrite IH, <- app_assoc. reflexivity.
Qed.

Lemma filter_named name e : filter (fun c => str_eqb (el_name c) name) (el_children e) = named name e.
Proof.
  unfold el_children, named. induction (el_nodes e) as [|[c|t] l IH]; cbn [only_elements filter flat_map]; auto.
  rewrite IH. destruct (list_eq_dec N.eq_dec (el_name c) name) as [E|E].
  - apply str_eqb_iff in E. rewrite E. reflexivity.
  - destruct (str_eqb (el_name c) name) eqn:E'; [|reflexivity]. apply str_eqb_iff in E'. congruence.
Qed.

Lemma attr_ok e name v : el_attr e name = Some v <-> attribute e name v.
Proof.
  unfold el_attr, attribute. induction (el_attrs e) as [|(k, w) l IH].
  - split; [discriminate|]. intros (b & a & E & _). destruct b; discriminate.
  - rewrite hm_get_cons. destruct (str_eqb k name) eqn:E.
    + apply str_eqb_iff in E. subst k. split.
      * intros [= ->]. exists [], l. split; auto.
      * intros (b & a & E & N). destruct b as [|x b]; cbn in E; injection E; intros; subst; auto.
        exfalso. apply N. left. auto.
    + rewrite IH. split.
      * intros (b & a & -> & N). exists ((k, w) :: b), a. split; auto. intros [H|H]; auto.
        cbn in H. subst. rewrite (proj2 (str_eqb_iff name name)) in E by auto. discriminate.
      * intros (b & a & E' & N). destruct b as [|x b]; cbn in E'; injection E'; intros; subst.
        { rewrite (proj2 (str_eqb_iff name name)) in E by auto. discriminate. }
        exists b, a. split; auto. intros H. apply N. right. auto.
Qed.

Lemma attr_true_ok e name : attr_is_true e name = true <-> attribute e name (s2l "true").
Proof.
  unfold attr_is_true. rewrite <- attr_ok. destruct (el_attr e name) as [v|]; [|split; discriminate].
  rewrite str_eqb_iff. split; [intros ->; auto|intros [= ->]; auto].
Qed.

(** ** Numbers and classes *)

Lemma parse_digits_ok ds : forall acc v, (acc < 2 ^ 64)%N ->
  (parse_digits acc ds = Some v <->
   Forall digit ds /\ v = fold_left (fun n c => n * 10 + (c - 48))%N ds acc /\ (v < 2 ^ 64)%N).
Proof.
  induction ds as [|c ds IH]; intros acc v Ha; cbn [parse_digits fold_left].
  - split; [intros [= <-]; auto|]. intros (_ & -> & _). reflexivity.
  - assert (M : forall l a, (a <= fold_left (fun n c => n * 10 + (c - 48)) l a)%N).
    { clear. induction l as [|x l IH]; intros a; cbn; [lia|]. specialize (IH (a * 10 + (x - 48))%N). lia. }
    destruct ((48 <=? c)%N && (c <=? 57)%N) eqn:E.
    + apply andb_true_iff in E as [E1 E2]. apply N.leb_le in E1, E2.
      destruct (_ <? _)%N eqn:El.
      * apply N.ltb_lt in El. rewrite IH by auto. split.
        -- intros (F & H). split; auto. constructor; auto. split; auto.
        -- intros (F & H). inversion F; auto.
      * apply N.ltb_ge in El. split; [discriminate|]. intros (_ & -> & H). specialize (M ds (acc * 10 + (c - 48))%N). lia.
    + split; [discriminate|]. intros (F & _). inversion F as [|? ? [H1 H2] _]; subst.
      apply andb_false_iff in E as [E|E]; apply N.leb_gt in E; lia.
Qed.

Lemma parse_usize_ok t v : parse_usize t = Some v <-> number t (N.to_nat v).
Proof.
  unfold number. rewrite N2Nat.id.
  assert (P : forall ds, ds <> [] -> (parse_digits 0 ds = Some v <-> digits ds /\ decimal ds v /\ (v < 2 ^ 64)%N)).
  { intros ds N. rewrite parse_digits_ok by reflexivity. fold (digits_value ds). unfold digits. split.
    - intros (F & -> & H). splits; auto. apply value_decimal. auto.
    - intros ((_ & F) & D & H). splits; auto. symmetry. apply decimal_value. auto. }
  unfold parse_usize. destruct t as [|c t].
  - split; [discriminate|]. intros (ds & [E|E] & [N _] & _); [subst; congruence|discriminate].
  - destruct (N.eqb_spec c 43) as [->|Nc].
    + destruct t as [|d t].
      * split; [discriminate|]. intros (ds & [E|E] & [N F] & _).
        { subst. inversion F as [|? ? [H _]]; subst. lia. }
        injection E as <-. congruence.
      * rewrite P by discriminate. split.
        -- intros H. exists (d :: t). splits; try apply H. right. auto.
        -- intros (ds & [E|E] & H).
           { subst. destruct H as [[_ F] _]. inversion F as [|? ? [H _]]; subst. lia. }
           injection E as <-. auto.
    + rewrite P by discriminate. split.
      * intros H. exists (c :: t). auto.
      * intros (ds & [E|E] & H); [subst; auto|]. injection E as -> <-. congruence.
Qed.

Lemma class_of_word_ok t : (exists c, class_of_word t = Ret c) \/ class_of_word t = Panic.
Proof. unfold class_of_word. repeat (destruct (str_eqb t _); eauto). Qed.

Lemma class_of_word_iff t c : class_of_word t = Ret c <-> In (t, c) class_names.
Proof.
  unfold class_of_word, class_names. cbn [In].
  repeat (match goal with |- context [str_eqb t ?w] => destruct (str_eqb t w) eqn:? end;
    [match goal with H : str_eqb t _ = true |- _ => apply str_eqb_iff in H; subst t end;
     split; [intros [= <-]; auto 10|intuition (try discriminate; congruence)]|]).
  split; [discriminate|].
  intuition; match goal with H : (_, _) = (_, _) |- _ => injection H; intros; subst t end; discriminate.
Qed.

(** ** Reading *)

Lemma unwrap_cases {A B} (o : option A) (f : A -> exec B) : (exists a, o = Some a /\ bind (unwrap o) f = f a) \/ (o = None /\ bind (unwrap o) f = Panic).
Proof. destruct o; cbn; eauto. Qed.

Lemma first_child_fun e name c d : first_child e name c -> first_child e name d -> c = d.
Proof. rewrite <- !get_child_ok. congruence. Qed.

Lemma first_child_none e name : get_child e name = None -> forall c, ~ first_child e name c.
Proof. intros H c Hc. apply get_child_ok in Hc. congruence. Qed.

Lemma number_fun t n m : number t n -> number t m -> n = m.
Proof.
  intros H1 H2. rewrite <- (Nat2N.id n) in H1. rewrite <- (Nat2N.id m) in H2.
  apply parse_usize_ok in H1, H2. rewrite H1 in H2. injection H2. lia.
Qed.

Lemma bool_same (a b : bool) (P : Prop) : (a = true <-> P) -> (b = true <-> P) -> a = b.
Proof. destruct a, b; intuition congruence. Qed.

Lemma properties_fun p s c s' c' : properties_say p s c -> properties_say p s' c' -> s = s' /\ c = c'.
Proof.
  intros (st & cl & H1 & H2 & _ & H4 & H5 & H6 & H7 & H8) (st' & cl' & I1 & I2 & _ & I4 & I5 & I6 & I7 & I8).
  assert (st' = st) by (eapply first_child_fun; eauto). assert (cl' = cl) by (eapply first_child_fun; eauto). subst.
  split; [eapply number_fun; eauto|]. apply class_of_word_iff in H5, I5.
  destruct c as [j l d k], c' as [j' l' d' k']. cbn in *.
  assert (l = l') by (eapply bool_same; eauto). assert (d = d') by (eapply bool_same; eauto). congruence.
Qed.

Lemma read_properties_ok p : (exists s c, read_properties p = Ret (s, c) /\ properties_say p s c) \/
  (read_properties p = Panic /\ forall s c, ~ properties_say p s c).
Proof.
  unfold read_properties.
  destruct (get_child p (s2l "stage")) as [st|] eqn:E1; cbn [unwrap bind].
  2:{ right. split; auto. intros s c (st & cl & H & _). eapply first_child_none; eauto. }
  rewrite text_words. destruct (parse_usize (words st)) as [v|] eqn:E2; cbn [unwrap bind].
  2:{ right. split; auto. intros s c (st' & cl & H & Hn & _). apply get_child_ok in H. assert (st' = st) by congruence. subst.
      rewrite <- (Nat2N.id s) in Hn. apply parse_usize_ok in Hn. congruence. }
  apply parse_usize_ok in E2. destruct (N.to_nat v) as [|s0] eqn:Es.
  { right. split; auto. intros s c (st' & cl & H & Hn & Hs & _). apply get_child_ok in H. assert (st' = st) by congruence. subst.
    assert (s = 0) by (eapply number_fun; eauto). lia. }
  change (stage_new (S s0)) with (@Ret stage (S s0)). cbn [bind].
  destruct (get_child p (s2l "classification")) as [cl|] eqn:E3; cbn [unwrap bind].
  2:{ right. split; auto. intros s c (st' & cl & _ & _ & _ & H & _). eapply first_child_none; eauto. }
  rewrite text_words. destruct (class_of_word_ok (words cl)) as [(k & Ek)|Ek]; rewrite Ek; cbn [bind].
  - left. do 2 eexists. split; [reflexivity|]. exists st, cl. cbn. splits; auto; try lia; try (apply get_child_ok; auto).
    + apply class_of_word_iff. auto.
    + apply attr_true_ok.
    + apply attr_true_ok.
  - right. split; auto. intros s c (st' & cl' & _ & _ & _ & H & Hk & _). apply get_child_ok in H. assert (cl' = cl) by congruence. subst.
    apply class_of_word_iff in Hk. congruence.
Qed.

Lemma read_method_ok c ms m : (exists cm, method_says c m cm /\ read_method c ms m = Ret (hm_insert str_eqb ms (cm_title cm) cm)) \/
  (read_method c ms m = Panic /\ forall cm, ~ method_says c m cm).
Proof.
  unfold read_method.
  destruct (get_child m (s2l "title")) as [t|] eqn:E1; cbn [unwrap bind].
  2:{ right. split; auto. intros cm (_ & (e & H & _) & _). eapply first_child_none; eauto. }
  destruct (get_child m (s2l "name")) as [n|] eqn:E2; cbn [unwrap bind].
  2:{ right. split; auto. intros cm (_ & _ & (e & H & _) & _). eapply first_child_none; eauto. }
  destruct (get_child m (s2l "notation")) as [p|] eqn:E3; cbn [unwrap bind].
  2:{ right. split; auto. intros cm (_ & _ & _ & (e & H & _)). eapply first_child_none; eauto. }
  left. apply get_child_ok in E1, E2, E3. rewrite !text_words.
  exists (CompactMethod (words n) (words t) c (words p)). split; [|reflexivity].
  unfold method_says. cbn. splits; eauto.
Qed.

Lemma method_says_fun c m cm cm' : method_says c m cm -> method_says c m cm' -> cm = cm'.
Proof.
  intros (H0 & (e1 & H1 & H1') & (e2 & H2 & H2') & (e3 & H3 & H3')) (I0 & (f1 & I1 & I1') & (f2 & I2 & I2') & (f3 & I3 & I3')).
  assert (f1 = e1) by (eapply first_child_fun; eauto). assert (f2 = e2) by (eapply first_child_fun; eauto).
  assert (f3 = e3) by (eapply first_child_fun; eauto). subst. destruct cm, cm'. cbn in *. congruence.
Qed.

Lemma forall2_fun {A B} (P : A -> B -> Prop) : (forall a b b', P a b -> P a b' -> b = b') ->
  forall l m m', Forall2 P l m -> Forall2 P l m' -> m = m'.
Proof.
  intros H l m m' F. revert m'. induction F as [|a b l m Hab F IH]; intros m' F'; inversion F'; subst; auto.
  f_equal; eauto.
Qed.

(** the last of a series of insertions into a map of titles *)
Definition put (f : nat -> str -> option compact_method) (e : nat * compact_method) : nat -> str -> option compact_method :=
  apply_one f (Some (fst e, cm_title (snd e), snd e)).

Lemma read_set_methods c l : forall ms, NoDup (map fst ms) ->
  (exists cms ms', Forall2 (method_says c) l cms /\ foldM (read_method c) l ms = Ret ms' /\ NoDup (map fst ms') /\
     forall s f, (forall k, hm_get str_eqb ms k = f s k) -> forall k, hm_get str_eqb ms' k = fold_left put (map (pair s) cms) f s k) \/
  (foldM (read_method c) l ms = Panic /\ forall cms, ~ Forall2 (method_says c) l cms).
Proof.
  induction l as [|m l IH]; intros ms D; cbn [foldM].
  - left. exists [], ms. splits; auto.
  - destruct (read_method_ok c ms m) as [(cm & Hm & E)|[E N]]; rewrite E; cbn [bind].
    + destruct (IH (hm_insert str_eqb ms (cm_title cm) cm)) as [(cms & ms' & F & E' & D' & L)|[E' N]].
      { apply hm_insert_nodup; auto. apply str_eqb_iff. }
      * left. exists (cm :: cms), ms'. splits; auto. intros s f Hf k. cbn [map fold_left]. apply L. intros k'.
        rewrite (hm_get_insert _ str_eqb_iff). unfold put, apply_one. cbn [fst snd]. rewrite Nat.eqb_refl. cbn [andb].
        destruct (str_eqb (cm_title cm) k'); auto.
      * right. split; auto. intros cms F. inversion F; subst. eapply N; eauto.
    + right. split; auto. intros cms F. inversion F; subst. eapply N; eauto.
Qed.

Lemma put_other s s' cms : s' <> s -> forall f k, fold_left put (map (pair s) cms) f s' k = f s' k.
Proof.
  intros Ns. induction cms as [|cm cms IH]; intros f k; cbn [map fold_left]; auto. rewrite IH. unfold put, apply_one. cbn [fst snd].
  destruct (Nat.eqb_spec s s'); [congruence|auto].
Qed.

Lemma put_ext l : forall f g, (forall s k, f s k = g s k) -> forall s k, fold_left put l f s k = fold_left put l g s k.
Proof.
  induction l as [|o l IH]; intros f g H s k; cbn [fold_left]; auto. apply IH. intros s' k'. unfold put, apply_one. destruct (_ && _); auto.
Qed.

Lemma read_set_ok lib e : keys_differ lib ->
  (exists said lib', set_says e said /\ read_method_set lib e = Ret lib' /\ keys_differ lib' /\
     forall s k, lookup lib' s k = fold_left put (map (pair (fst said)) (snd said)) (lookup lib) s k) \/
  (read_method_set lib e = Panic /\ forall said, ~ set_says e said).
Proof.
  intros [D1 D2]. unfold read_method_set.
  destruct (get_child e (s2l "properties")) as [p|] eqn:E1; cbn [unwrap bind].
  2:{ right. split; auto. intros said (p & c & H & _). eapply first_child_none; eauto. }
  destruct (read_properties_ok p) as [(s & c & E2 & Hp)|[E2 N]]; rewrite E2; cbn [bind].
  2:{ right. split; auto. intros said (p' & c & H & Hp & _). apply get_child_ok in H. assert (p' = p) by congruence. subst. eapply N; eauto. }
  rewrite filter_named. set (ms := match hm_get Nat.eqb lib s with Some m => m | None => [] end).
  assert (Dm : NoDup (map fst ms)).
  { unfold ms. destruct (hm_get Nat.eqb lib s) as [m|] eqn:E; [|constructor]. apply (hm_get_in _ Nat.eqb_eq) in E. eauto. }
  destruct (read_set_methods c (named (s2l "method") e) ms Dm) as [(cms & ms' & F & E' & D' & L)|[E' N]]; rewrite E'; cbn [bind].
  - left. exists (s, cms). eexists. split; [|split; [reflexivity|split]].
    + exists p, c. cbn. splits; auto. apply get_child_ok. auto.
    + split; [apply hm_insert_nodup; auto; apply Nat.eqb_eq|]. intros s0 m0 Hin.
      assert (NoDup (map fst (hm_insert Nat.eqb lib s ms'))) by (apply hm_insert_nodup; auto; apply Nat.eqb_eq).
      apply (hm_in_get _ Nat.eqb_eq) in Hin; auto. rewrite (hm_get_insert _ Nat.eqb_eq) in Hin.
      destruct (s =? s0); [injection Hin as <-; auto|]. apply (hm_get_in _ Nat.eqb_eq) in Hin. eauto.
    + intros s0 k. cbn [fst snd]. unfold lookup at 1. rewrite (hm_get_insert _ Nat.eqb_eq). destruct (Nat.eqb_spec s s0) as [<-|Ns].
      * apply L. intros k'. unfold lookup, ms. destruct (hm_get Nat.eqb lib s); reflexivity.
      * rewrite put_other by auto. reflexivity.
  - right. split; auto. intros [s1 cms] (p' & c' & H & Hp' & F). cbn in *. apply get_child_ok in H. assert (p' = p) by congruence. subst.
    destruct (properties_fun _ _ _ _ _ Hp Hp') as [-> ->]. eapply N; eauto.
Qed.

Lemma read_sets_ok l : forall lib, keys_differ lib ->
  (exists sets lib', Forall2 set_says l sets /\ foldM read_method_set l lib = Ret lib' /\ keys_differ lib' /\
     forall s k, lookup lib' s k = fold_left put (listed sets) (lookup lib) s k) \/
  (foldM read_method_set l lib = Panic /\ forall sets, ~ Forall2 set_says l sets).
Proof.
  induction l as [|e l IH]; intros lib D; cbn [foldM].
  - left. exists [], lib. splits; auto.
  - destruct (read_set_ok lib e D) as [(said & lib1 & Hs & E & D1 & L1)|[E N]]; rewrite E; cbn [bind].
    + destruct (IH lib1 D1) as [(sets & lib' & F & E' & D' & L)|[E' N]].
      * left. exists (said :: sets), lib'. splits; auto. intros s k. rewrite L. destruct said as [s0 cms]. cbn [listed flat_map].
        rewrite fold_left_app. apply put_ext. intros; apply L1.
      * right. split; auto. intros sets F. inversion F; subst. eapply N; eauto.
    + right. split; auto. intros sets F. inversion F; subst. eapply N; eauto.
Qed.

Lemma set_says_fun e a b : set_says e a -> set_says e b -> a = b.
Proof.
  intros (p & c & H1 & H2 & H3) (p' & c' & I1 & I2 & I3). assert (p' = p) by (eapply first_child_fun; eauto). subst.
  destruct (properties_fun _ _ _ _ _ H2 I2) as [E ->]. destruct a, b. cbn in *. f_equal; auto.
  eapply forall2_fun; eauto. apply method_says_fun.
Qed.

Lemma says_fun root a b : says root a -> says root b -> a = b.
Proof. intros [_ H] [_ I]. eapply forall2_fun; eauto. apply set_says_fun. Qed.

Lemma fold_put l : forall f s k, fold_left put l f s k = fold_left apply_one (map (fun e => Some (fst e, cm_title (snd e), snd e)) l) f s k.
Proof. induction l as [|e l IH]; intros f s k; cbn [fold_left map]; auto. Qed.

Lemma lists_last_ok sets s k cm : fold_left put (listed sets) (fun _ _ => None) s k = Some cm <-> k = cm_title cm /\ lists_last sets s cm.
Proof.
  rewrite fold_put, fold_last. unfold lists_last. split.
  - intros [(pre & post & E & H)|[H _]]; [|discriminate].
    apply map_eq_app in E as (a & b & E & <- & Eb).
    destruct b as [|[s0 cm0] b]; [discriminate|]. cbn in Eb. injection Eb; intros; subst.
    split; auto. exists a, b. split; auto. intros cm' Hin Et. apply (H cm'). apply in_map_iff. exists (s, cm'). cbn. rewrite Et. auto.
  - intros [-> (a & b & E & H)]. left. rewrite E, map_app. cbn. do 2 eexists. split; [reflexivity|].
    intros cm' Hin. apply in_map_iff in Hin as ([s0 c0] & E' & Hin). cbn in E'. injection E' as -> Et ->. eapply H; eauto.
Qed.

Lemma parsed_ok parse_xml xml root sets : parse_xml xml = Some root -> says root sets ->
  exists lib, parse_cc_lib parse_xml xml = Ret lib /\ keys_differ lib /\
    forall s k cm, entry lib s k cm <-> k = cm_title cm /\ lists_last sets s cm.
Proof.
  intros E [(date & Hd) F]. unfold parse_cc_lib, read_methods. rewrite E. cbn [unwrap bind].
  apply attr_ok in Hd. rewrite Hd. cbn [unwrap bind]. rewrite filter_named.
  destruct (read_sets_ok (named (s2l "methodSet") root) [] keys_differ_nil) as [(sets' & lib & F' & E' & D & L)|[_ N]].
  2:{ exfalso. eapply N; eauto. }
  assert (sets' = sets) by (eapply forall2_fun; eauto; apply set_says_fun). subst.
  exists lib. splits; auto. intros s k cm. rewrite <- lookup_entry, L by auto. apply lists_last_ok.
Qed.

Lemma parse_panics parse_xml xml root : parse_xml xml = Some root -> (forall sets, ~ says root sets) ->
  parse_cc_lib parse_xml xml = Panic.
Proof.
  intros E N. unfold parse_cc_lib, read_methods. rewrite E. cbn [unwrap bind].
  destruct (el_attr root (s2l "date")) as [d|] eqn:Hd; cbn [unwrap bind]; auto. rewrite filter_named.
  destruct (read_sets_ok (named (s2l "methodSet") root) [] keys_differ_nil) as [(sets' & lib & F' & E' & D & L)|[E' _]]; auto.
  exfalso. apply (N sets'). split; auto. exists d. apply attr_ok. auto.
Qed.

(** ** Writing and reading back a library whose keys are its titles *)

Lemma unpacked_lower lower gc s cm : unpacked lower gc = Some (s, lower (cm_title cm), cm) <->
  unpacked (fun t => t) gc = Some (s, cm_title cm, cm).
Proof.
  rewrite !unpacked_stands. destruct gc as [g cs]. unfold stands_for. split; intros H; decompose [and] H; splits; auto.
Qed.

Lemma relabelled lower lo so go lib : (forall l, Permutation l (lo l)) -> (forall l, Permutation l (so l)) ->
  (forall l, Permutation l (go l)) ->
  (forall s k cm, entry lib s k cm -> k = cm_title cm /\ exists n, stage_name s = Some n) ->
  exists compact lib', lib_to_serde lo so go lib = Ret compact /\ lib_from_json (lib_to_json compact) = Some compact /\
    lib_from_serde lower compact = Ret lib' /\ keys_differ lib' /\
    (forall s k cm, entry lib' s k cm -> k = lower (cm_title cm) /\ entry lib s (cm_title cm) cm) /\
    (forall s cm, entry lib s (cm_title cm) cm ->
       exists cm', entry lib' s (lower (cm_title cm)) cm' /\ lower (cm_title cm') = lower (cm_title cm)).
Proof.
  intros P1 P2 P3 Pr.
  destruct (to_serde_ok lo so P1 P2 go P3 lib) as (ser & E & He & Hc & Hs).
  { intros s k cm H. apply (Pr s k cm H). }
  specialize (He (fun t => t)). cbv beta in He.
  assert (He' : forall s k cm, (exists gc, In gc (methods_of ser) /\ unpacked (fun t => t) gc = Some (s, k, cm)) <-> entry lib s k cm).
  { apply He. intros s k cm H. apply (Pr s k cm H). }
  exists ser.
  assert (J : lib_from_json (lib_to_json ser) = Some ser).
  { apply lib_json. apply Forall_forall. intros g Hg. split.
    - destruct (Hs g Hg) as (k & cm & He0). destruct (Pr _ _ _ He0) as [_ Hn].
      apply PropsBell.C03_stage_names_round_trip in Hn. apply N.le_lt_trans with (N.of_nat 22); [lia|reflexivity].
    - specialize (Hc g Hg). apply N.le_lt_trans with (N.of_nat 8); [lia|reflexivity]. }
  destruct (from_serde_gen lower ser [] keys_differ_nil) as [[(g & Hg & B) _]|(lib' & E' & D' & Hs' & F' & L')].
  { exfalso. destruct (Hs g Hg) as (k & cm & He0). destruct (Pr _ _ _ He0) as [_ (n & En)].
    destruct B as [B|[B|(cs & _ & _ & B)]].
    + rewrite B in En. discriminate.
    + specialize (Hc g Hg). lia.
    + congruence. }
  exists lib'. unfold lib_from_serde. splits; auto.
  - intros s k cm H. apply (lookup_entry lib' s k cm D') in H. rewrite L', fold_last in H.
    destruct H as [(pre & post & Em & _)|[X _]]; [|discriminate].
    assert (Hin : In (Some (s, k, cm)) (map (unpacked lower) (methods_of ser))) by (rewrite Em; apply in_or_app; right; left; auto).
    apply in_map_iff in Hin as (gc & U & Hin).
    assert (k = lower (cm_title cm)) as ->.
    { apply unpacked_stands in U. destruct gc. unfold stands_for in U. tauto. }
    split; auto. apply He'. exists gc. split; auto. apply unpacked_lower in U. auto.
  - intros s cm H. apply He' in H as (gc & Hin & U). apply (unpacked_lower lower) in U.
    assert (Hin' : In (Some (s, lower (cm_title cm), cm)) (map (unpacked lower) (methods_of ser))) by (apply in_map_iff; eauto).
    destruct (last_in (fun o => exists cm', o = Some (s, lower (cm_title cm), cm')) (map (unpacked lower) (methods_of ser)))
      as (pre & o & post & Em & (cm' & ->) & N).
    { intros [[[s0 k0] cm0]|]; [|right; intros (? & [=])].
      destruct (Nat.eq_dec s0 s) as [->|Ns]; [|right; intros (? & [=]); congruence].
      destruct (list_eq_dec N.eq_dec k0 (lower (cm_title cm))) as [->|Nk]; [left; eauto|right; intros (? & [=]); congruence]. }
    { eauto. }
    exists cm'. split.
    + apply lookup_entry; auto. rewrite L', fold_last. left. exists pre, post. split; auto. intros x Hx. apply (N _ Hx). eauto.
    + assert (Hin2 : In (Some (s, lower (cm_title cm), cm')) (map (unpacked lower) (methods_of ser))) by (rewrite Em; apply in_or_app; right; left; auto).
      apply in_map_iff in Hin2 as (gc2 & U2 & _). apply unpacked_stands in U2. destruct gc2. unfold stands_for in U2.
      decompose [and] U2. auto.
Qed.
