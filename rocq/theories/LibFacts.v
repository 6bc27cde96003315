(** Proofs about the model of method libraries. *)
From Verif Require Import Base Spec ListFacts Bell Stage Row Utils SameStageVec Block PlaceNot Class Method
  Library Serde SpecLib MethodFacts.
Local Open Scope list_scope.

(** ** Hash maps *)

Section HM.
Context {K V : Type} (eqb : K -> K -> bool).
Hypothesis EQ : forall a b, eqb a b = true <-> a = b.

Lemma eqb_refl_ a : eqb a a = true.
Proof. apply EQ. auto. Qed.

Lemma eqb_false_ a b : eqb a b = false <-> a <> b.
Proof. rewrite <- not_true_iff_false, EQ. tauto. Qed.

Lemma hm_get_cons k0 (v0 : V) m k : hm_get eqb ((k0, v0) :: m) k = if eqb k0 k then Some v0 else hm_get eqb m k.
Proof. unfold hm_get. cbn [find fst]. destruct (eqb k0 k); reflexivity. Qed.

Lemma hm_get_in (m : list (K * V)) k v : hm_get eqb m k = Some v -> In (k, v) m.
Proof.
  induction m as [|(k0, v0) m IH]; [discriminate|]. rewrite hm_get_cons. destruct (eqb k0 k) eqn:E.
  - intros [= ->]. apply EQ in E. subst. left; auto.
  - intros H. right. auto.
Qed.

Lemma hm_in_get (m : list (K * V)) k v : NoDup (map fst m) -> In (k, v) m -> hm_get eqb m k = Some v.
Proof.
  induction m as [|(k0, v0) m IH]; intros D H; [destruct H|]. rewrite hm_get_cons. cbn in D.
  apply NoDup_cons_iff in D as [N D]. destruct H as [E|H].
  - injection E as -> ->. rewrite eqb_refl_. reflexivity.
  - destruct (eqb k0 k) eqn:E; auto. apply EQ in E. subst. exfalso. apply N. apply in_map_iff. exists (k, v). auto.
Qed.

Lemma hm_get_none (m : list (K * V)) k : hm_get eqb m k = None <-> ~ In k (map fst m).
Proof.
  induction m as [|(k0, v0) m IH]; [cbn; tauto|]. rewrite hm_get_cons. cbn [map fst In].
  destruct (eqb k0 k) eqn:E.
  - apply EQ in E. split; [discriminate|tauto].
  - apply eqb_false_ in E. rewrite IH. tauto.
Qed.

Lemma hm_get_insert m k (v : V) k' : hm_get eqb (hm_insert eqb m k v) k' = if eqb k k' then Some v else hm_get eqb m k'.
Proof.
  induction m as [|(k0, v0) m IH]; cbn [hm_insert].
  - rewrite hm_get_cons. reflexivity.
  - destruct (eqb k0 k) eqn:E.
    + apply EQ in E. subst. rewrite !hm_get_cons. destruct (eqb k k'); reflexivity.
    + rewrite !hm_get_cons, IH. destruct (eqb k0 k') eqn:E'; auto.
      apply EQ in E'. subst. destruct (eqb k k') eqn:E2; auto. apply EQ in E2. subst. rewrite eqb_refl_ in E. discriminate.
Qed.

Lemma hm_insert_keys m k (v : V) x : In x (map fst (hm_insert eqb m k v)) <-> x = k \/ In x (map fst m).
Proof.
  induction m as [|(k0, v0) m IH]; cbn [hm_insert map fst In]; [intuition auto|].
  destruct (eqb k0 k) eqn:E; cbn [map fst In].
  - apply EQ in E. subst. intuition auto.
  - rewrite IH. tauto.
Qed.

Lemma hm_insert_nodup m k (v : V) : NoDup (map fst m) -> NoDup (map fst (hm_insert eqb m k v)).
Proof.
  induction m as [|(k0, v0) m IH]; cbn [hm_insert map fst]; intros D.
  - repeat constructor. intros [].
  - apply NoDup_cons_iff in D as [N D]. destruct (eqb k0 k) eqn:E; cbn [map fst]; constructor; auto.
    rewrite hm_insert_keys. intros [->|H]; auto. rewrite eqb_refl_ in E. discriminate.
Qed.
End HM.

Lemma str_eqb_iff a b : str_eqb a b = true <-> a = b.
Proof.
  revert b. induction a as [|x a IH]; intros [|y b]; cbn; try (split; congruence).
  rewrite andb_true_iff, N.eqb_eq, IH. split; [intros [-> ->]; auto|intros [= -> ->]; auto].
Qed.

Lemma class_id_inj a b : to_class_id a = to_class_id b -> a = b.
Proof. destruct a, b; cbn; congruence || discriminate. Qed.

Lemma from_to_class_id c : from_class_id (to_class_id c) = Ret c.
Proof. destruct c; reflexivity. Qed.

Lemma from_class_id_ret v c : from_class_id v = Ret c <-> to_class_id c = v.
Proof.
  split.
  - do 9 (destruct v as [|v]; [intros [= <-]; reflexivity|]). discriminate.
  - intros <-. apply from_to_class_id.
Qed.

Lemma from_class_id_panic v : from_class_id v = Panic <-> 8 < v.
Proof. do 9 (destruct v as [|v]; [split; [discriminate|lia]|]). split; auto. lia. Qed.

Lemma from_class_id_cases v : (exists c, from_class_id v = Ret c /\ v <= 8) \/ (from_class_id v = Panic /\ 8 < v).
Proof. do 9 (destruct v as [|v]; [left; eexists; split; [reflexivity|lia]|]). right. split; auto. lia. Qed.

Lemma full_class_eqb_iff a b : full_class_eqb a b = true <-> a = b.
Proof.
  destruct a as [j l d c], b as [j' l' d' c']. unfold full_class_eqb, class_eqb. cbn.
  rewrite !andb_true_iff, !eqb_true_iff, Nat.eqb_eq. split.
  - intros [[[-> ->] ->] H]. apply class_id_inj in H. subst. reflexivity.
  - intros [= -> -> -> ->]. auto.
Qed.

Lemma group_key_eqb_iff a b : group_key_eqb a b = true <-> a = b.
Proof.
  destruct a, b. unfold group_key_eqb. cbn. rewrite andb_true_iff, Nat.eqb_eq, full_class_eqb_iff.
  split; [intros [-> ->]; auto|intros [= -> ->]; auto].
Qed.

(** ** Looking up *)

Lemma take_while_spec {A} (p : A -> bool) l : exists rest, l = take_while p l ++ rest /\ Forall (fun x => p x = true) (take_while p l) /\
  (rest = [] \/ exists y t, rest = y :: t /\ p y = false).
Proof.
  induction l as [|x l IH]; cbn [take_while].
  - exists []. auto.
  - destruct (p x) eqn:E.
    + destruct IH as (rest & H1 & H2 & H3). exists rest. splits; auto. cbn. f_equal. auto.
    + exists (x :: l). splits; auto. right. eauto.
Qed.

Lemma rsplit_ok t : last_word t (rsplit_space_next t).
Proof.
  unfold last_word, rsplit_space_next. destruct (take_while_spec (fun c => negb (c =? 32)%N) (rev t)) as (rest & H1 & H2 & H3).
  split.
  - intros I. apply in_rev in I. rewrite Forall_forall in H2. apply H2 in I. discriminate.
  - apply (f_equal (@rev N)) in H1. rewrite rev_involutive, rev_app_distr in H1. destruct H3 as [->|(y & r & -> & E)].
    + left. auto.
    + right. apply negb_false_iff, N.eqb_eq in E. subst y. cbn [rev] in H1. rewrite <- app_assoc in H1. exists (rev r). exact H1.
Qed.

Lemma last_word_fun t w w' : last_word t w -> last_word t w' -> w = w'.
Proof.
  assert (G : forall (b b' : list N) w w', ~ In 32%N w -> ~ In 32%N w' -> b ++ 32%N :: w = b' ++ 32%N :: w' -> w = w').
  { clear. induction b as [|x b IH]; intros [|y b'] w w' N N' E; cbn in E.
    - congruence.
    - injection E as <- E. exfalso. apply N. rewrite E. apply in_or_app. right. left. auto.
    - injection E as -> E. exfalso. apply N'. rewrite <- E. apply in_or_app. right. left. auto.
    - injection E as _ E. eauto. }
  intros [N H] [N' H']. destruct H as [->|(b & ->)], H' as [E|(b' & E)]; auto.
  - subst. exfalso. apply N. apply in_or_app. right. left. auto.
  - subst. exfalso. apply N'. apply in_or_app. right. left. auto.
  - eauto.
Qed.

Definition lookup (lib : method_lib) (s : nat) (k : str) : option compact_method :=
  match hm_get Nat.eqb lib s with Some ms => hm_get str_eqb ms k | None => None end.

Lemma lookup_entry lib s k cm : keys_differ lib -> (lookup lib s k = Some cm <-> entry lib s k cm).
Proof.
  intros [D1 D2]. unfold lookup, entry. split.
  - destruct (hm_get Nat.eqb lib s) as [ms|] eqn:E; [|discriminate]. intros H.
    apply (hm_get_in _ Nat.eqb_eq) in E. apply (hm_get_in _ str_eqb_iff) in H. eauto.
  - intros (ms & H1 & H2). rewrite (hm_in_get _ Nat.eqb_eq _ _ _ D1 H1). apply (hm_in_get _ str_eqb_iff); eauto.
Qed.

Lemma get_option_ok lib t : get_by_title_option lib t =
  match stage_from_lower_case_name (rsplit_space_next t) with
  | Some s => match lookup lib s t with Some cm => m <- to_method cm s;; Ret (Some m) | None => Ret None end
  | None => Ret None
  end.
Proof.
  unfold get_by_title_option, lookup. destruct (stage_from_lower_case_name _); auto. destruct (hm_get Nat.eqb lib n); auto.
Qed.

Lemma found_lookup lower lib title s cm : keys_differ lib ->
  (found lower lib title s cm <->
   stage_from_lower_case_name (rsplit_space_next (lower title)) = Some s /\ lookup lib s (lower title) = Some cm).
Proof.
  intros D. unfold found. split.
  - intros (w & H1 & H2 & H3). rewrite (last_word_fun _ _ _ (rsplit_ok (lower title)) H1).
    split; auto. apply lookup_entry; auto.
  - intros [H1 H2]. eexists. split; [apply rsplit_ok|]. split; [exact H1|]. apply lookup_entry; auto.
Qed.

(** ** Unpacking the compact form *)

Lemma generate_title_cases name c s : (exists n t, stage_name s = Some n /\ generate_title name c s = Ret t) \/
  (stage_name s = None /\ generate_title name c s = Panic).
Proof.
  unfold generate_title. destruct (stage_name s) as [n|]; cbn [unwrap bind]; [left|right; auto]. eauto.
Qed.

Section Unpack.
Context (lower : str -> str).

(** the entry a method is unpacked to *)
Definition unpacked (gc : method_group * compact_method_serde) : option (nat * str * compact_method) :=
  let (g, cs) := gc in
  match from_class_id (g_class_id g) with
  | Ret cl =>
      let c := FullClass (g_is_jump g) (g_is_little g) (g_is_differential g) cl in
      let t := match cs_title cs with Some t => Ret t | None => generate_title (cs_name cs) c (g_stage g) end in
      match t with
      | Ret t => Some (g_stage g, lower t, CompactMethod (cs_name cs) t c (cs_place_notation cs))
      | _ => None
      end
  | _ => None
  end.

Lemma unpacked_stands gc s k cm : unpacked gc = Some (s, k, cm) <-> stands_for lower gc s k cm.
Proof.
  destruct gc as [g cs]. unfold unpacked, stands_for. destruct cm as [n t [j l d c] p]. cbn.
  split.
  - destruct (from_class_id (g_class_id g)) as [cl| | |] eqn:E; try discriminate. apply from_class_id_ret in E.
    destruct (cs_title cs) as [t0|].
    + intros H. injection H as <- <- <- <- <- <- <- <- <-. splits; auto.
    + destruct (generate_title _ _ _) as [t0| | |] eqn:Et; try discriminate.
      intros H. injection H as <- <- <- <- <- <- <- <- <-. splits; auto.
  - intros (-> & -> & -> & -> & -> & -> & E & H & ->). apply from_class_id_ret in E. rewrite E.
    destruct H as [-> | [-> ->]]; reflexivity.
Qed.

Definition apply_one (f : nat -> str -> option compact_method) (o : option (nat * str * compact_method)) : nat -> str -> option compact_method :=
  match o with
  | Some (s, k, cm) => fun s' k' => if (s =? s') && str_eqb k k' then Some cm else f s' k'
  | None => f
  end.

Lemma unpack_method_ok s c g cs ms : g_stage g = s -> from_class_id (g_class_id g) = Ret (fc_class c) ->
  is_jump c = g_is_jump g -> is_little c = g_is_little g -> is_differential c = g_is_differential g ->
  (unpacked (g, cs) = None /\ unpack_method lower s c ms cs = Panic) \/
  exists k cm, unpacked (g, cs) = Some (s, k, cm) /\ unpack_method lower s c ms cs = Ret (hm_insert str_eqb ms k cm).
Proof.
  destruct c as [j l d cl]. cbn. intros <- E -> -> ->. unfold unpack_method, unpacked. rewrite E.
  destruct (cs_title cs) as [t|]; cbn [bind].
  - right. eauto.
  - destruct (generate_title_cases (cs_name cs) (FullClass (g_is_jump g) (g_is_little g) (g_is_differential g) cl) (g_stage g))
      as [(n & t & _ & ->)|[_ ->]]; cbn [bind]; [right; eauto|left; auto].
Qed.

Lemma unpack_methods_ok s c g : g_stage g = s -> from_class_id (g_class_id g) = Ret (fc_class c) ->
  is_jump c = g_is_jump g -> is_little c = g_is_little g -> is_differential c = g_is_differential g ->
  forall css ms, NoDup (map fst ms) ->
  ((exists cs, In cs css /\ unpacked (g, cs) = None) /\ foldM (unpack_method lower s c) css ms = Panic) \/
  exists ms', foldM (unpack_method lower s c) css ms = Ret ms' /\ NoDup (map fst ms') /\
    Forall (fun cs => exists k cm, unpacked (g, cs) = Some (s, k, cm)) css /\
    forall f, (forall k, hm_get str_eqb ms k = f s k) ->
      forall k, hm_get str_eqb ms' k = fold_left apply_one (map (fun cs => unpacked (g, cs)) css) f s k.
Proof.
  intros E1 E2 E3 E4 E5. induction css as [|cs css IH]; intros ms D; cbn [foldM].
  - right. exists ms. splits; auto.
  - destruct (unpack_method_ok s c g cs ms E1 E2 E3 E4 E5) as [[U E]|(k & cm & U & E)]; rewrite E; cbn [bind].
    + left. split; auto. exists cs. split; auto. left; auto.
    + destruct (IH (hm_insert str_eqb ms k cm)) as [[(x & Hx & Ux) P]|(ms' & P & D' & F & H)].
      * apply hm_insert_nodup; auto. apply str_eqb_iff.
      * left. split; auto. exists x. split; auto. right; auto.
      * right. exists ms'. splits; auto; [constructor; eauto|].
        intros f Hf k'. cbn [map fold_left]. rewrite U. apply H.
        intros k2. rewrite (hm_get_insert _ str_eqb_iff). cbn [apply_one]. rewrite Nat.eqb_refl. cbn [andb].
        destruct (str_eqb k k2); auto.
Qed.

Lemma fold_other s s' l : Forall (fun o => match o with Some (s0, _, _) => s0 = s | None => True end) l -> s' <> s ->
  forall f k, fold_left apply_one l f s' k = f s' k.
Proof.
  intros F Ns. induction F as [|o l H F IH]; intros f k; cbn [fold_left]; auto. rewrite IH.
  destruct o as [[[s0 k0] cm]|]; auto. cbn. subst s0. destruct (Nat.eqb_spec s s'); auto. congruence.
Qed.

Lemma fold_ext l : forall f g, (forall s k, f s k = g s k) -> forall s k, fold_left apply_one l f s k = fold_left apply_one l g s k.
Proof.
  induction l as [|o l IH]; intros f g H s k; cbn [fold_left]; auto. apply IH. intros s' k'.
  destruct o as [[[s0 k0] cm]|]; cbn; auto. destruct ((s0 =? s') && str_eqb k0 k'); auto.
Qed.

Lemma unpack_group_ok lib g : keys_differ lib ->
  ((g_stage g = 0 \/ 8 < g_class_id g \/ exists cs, In cs (g_methods g) /\ cs_title cs = None /\ stage_name (g_stage g) = None) /\
   unpack_group lower lib g = Panic) \/
  exists lib', unpack_group lower lib g = Ret lib' /\ keys_differ lib' /\ (0 < g_stage g /\ g_class_id g <= 8) /\
    Forall (fun cs => exists k cm, unpacked (g, cs) = Some (g_stage g, k, cm)) (g_methods g) /\
    forall s k, lookup lib' s k = fold_left apply_one (map (fun cs => unpacked (g, cs)) (g_methods g)) (lookup lib) s k.
Proof.
  intros [D1 D2]. unfold unpack_group, stage_new, stage_try_from. destruct (g_stage g) as [|s0] eqn:Es.
  - left. cbn. auto.
  - cbn [unwrap_res bind]. rewrite <- Es. destruct (from_class_id_cases (g_class_id g)) as [(cl & E & Hc)|[E Hc]]; rewrite E; cbn [bind].
    2:{ left. auto. }
    set (c := FullClass _ _ _ _). set (ms := match hm_get Nat.eqb lib (g_stage g) with Some m => m | None => [] end).
    assert (Dm : NoDup (map fst ms)).
    { unfold ms. destruct (hm_get Nat.eqb lib (g_stage g)) eqn:H; [|constructor]. apply (hm_get_in _ Nat.eqb_eq) in H. eauto. }
    destruct (unpack_methods_ok (g_stage g) c g eq_refl E eq_refl eq_refl eq_refl (g_methods g) ms Dm)
      as [[(cs & Hcs & U) P]|(ms' & P & D' & F & H)]; rewrite P; cbn [bind].
    + left. split; auto. right. right. exists cs. split; auto. unfold unpacked in U. rewrite E in U.
      destruct (cs_title cs) as [t|]; [discriminate|]. split; auto.
      destruct (generate_title_cases (cs_name cs) (FullClass (g_is_jump g) (g_is_little g) (g_is_differential g) cl) (g_stage g))
        as [(n & t & _ & Et)|[Et _]]; auto. rewrite Et in U. discriminate.
    + right. eexists. split; [reflexivity|]. split; [|split; [split; [rewrite Es|]; lia|split; [auto|]]].
      * split; [apply hm_insert_nodup; auto; apply Nat.eqb_eq|]. intros s ms0 Hin.
        assert (Dk : NoDup (map fst (hm_insert Nat.eqb lib (g_stage g) ms'))) by (apply hm_insert_nodup; auto; apply Nat.eqb_eq).
        apply (hm_in_get _ Nat.eqb_eq _ _ _ Dk) in Hin. rewrite (hm_get_insert _ Nat.eqb_eq) in Hin.
        destruct (Nat.eqb (g_stage g) s); [injection Hin as <-; auto|]. apply (hm_get_in _ Nat.eqb_eq) in Hin. eauto.
      * intros s k. unfold lookup at 1. rewrite (hm_get_insert _ Nat.eqb_eq). destruct (Nat.eqb_spec (g_stage g) s) as [<-|Ne].
        -- apply H. intros k'. unfold ms, lookup. destruct (hm_get Nat.eqb lib (g_stage g)); auto.
        -- rewrite (fold_other (g_stage g)); auto. apply Forall_forall. intros o Ho. apply in_map_iff in Ho as (cs & <- & Hin).
           rewrite Forall_forall in F. destruct (F cs Hin) as (k0 & cm & ->). auto.
Qed.

Definition bad_group (g : method_group) : Prop :=
  g_stage g = 0 \/ 8 < g_class_id g \/ exists cs, In cs (g_methods g) /\ cs_title cs = None /\ stage_name (g_stage g) = None.

Lemma from_serde_gen l : forall lib, keys_differ lib ->
  ((exists g, In g l /\ bad_group g) /\ foldM (unpack_group lower) l lib = Panic) \/
  exists lib', foldM (unpack_group lower) l lib = Ret lib' /\ keys_differ lib' /\
    Forall (fun g => ~ bad_group g) l /\
    Forall (fun gc => exists k cm, unpacked gc = Some (g_stage (fst gc), k, cm)) (methods_of l) /\
    forall s k, lookup lib' s k = fold_left apply_one (map unpacked (methods_of l)) (lookup lib) s k.
Proof.
  induction l as [|g l IH]; intros lib D; cbn [foldM].
  - right. exists lib. splits; auto; constructor.
  - destruct (unpack_group_ok lib g D) as [[B P]|(lib1 & P & D1 & Hs & F1 & H1)]; rewrite P; cbn [bind].
    + left. split; auto. exists g. split; auto. left; auto.
    + destruct (IH lib1 D1) as [[(g' & Hg & B) P']|(lib' & P' & D' & Hs' & F' & H')].
      * left. split; auto. exists g'. split; auto. right; auto.
      * right. exists lib'. splits; auto.
        -- constructor; auto. intros [B|[B|(cs & Hcs & B1 & B2)]]; try lia.
           rewrite Forall_forall in F1. destruct (F1 cs Hcs) as (k & cm & U). unfold unpacked in U. rewrite B1 in U.
           destruct (from_class_id (g_class_id g)) as [cl| | |]; try discriminate.
           destruct (generate_title_cases (cs_name cs) (FullClass (g_is_jump g) (g_is_little g) (g_is_differential g) cl) (g_stage g))
             as [(n & t & En & _)|[_ Et]]; [congruence|]. rewrite Et in U. discriminate.
        -- unfold methods_of. cbn [flat_map]. apply Forall_app. split; auto. apply Forall_forall. intros gc Hin.
           apply in_map_iff in Hin as (cs & <- & Hin). rewrite Forall_forall in F1. cbn [fst]. auto.
        -- intros s k. rewrite H'. unfold methods_of. cbn [flat_map]. rewrite map_app, fold_left_app, map_map.
           apply fold_ext. auto.
Qed.

Lemma keys_differ_nil : keys_differ [].
Proof. split; [constructor|]. intros s ms []. Qed.

(** the last of a series of insertions wins *)
Lemma fold_last l : forall f s k cm,
  (fold_left apply_one l f s k = Some cm <->
   (exists pre post, l = pre ++ Some (s, k, cm) :: post /\ forall cm', ~ In (Some (s, k, cm')) post) \/
   f s k = Some cm /\ forall cm', ~ In (Some (s, k, cm')) l).
Proof.
  induction l as [|o l IH]; intros f s k cm; cbn [fold_left].
  - split; [intros H; right; split; auto|]. intros [(pre & post & E & _)|[H _]]; auto. destruct pre; discriminate.
  - rewrite IH. split.
    + intros [(pre & post & -> & H)|[H N]].
      * left. exists (o :: pre), post. auto.
      * destruct o as [[[s0 k0] cm0]|]; cbn in H.
        -- destruct ((s0 =? s) && str_eqb k0 k) eqn:E.
           ++ apply andb_true_iff in E as [E1 E2]. apply Nat.eqb_eq in E1. apply str_eqb_iff in E2. injection H as ->. subst.
              left. exists [], l. auto.
           ++ right. split; auto. intros cm' [[= -> -> _]|Hin]; [|eapply N; eauto].
              rewrite Nat.eqb_refl, (proj2 (str_eqb_iff k k)) in E by auto. discriminate.
        -- right. split; auto. intros cm' [H'|Hin]; [discriminate|eapply N; eauto].
    + intros [(pre & post & E & H)|[H N]].
      * destruct pre as [|o' pre]; cbn in E; injection E as -> ->.
        -- right. split; auto. cbn. rewrite Nat.eqb_refl, (proj2 (str_eqb_iff k k)) by auto. reflexivity.
        -- left. exists pre, post. auto.
      * right. split; [|intros cm' Hin; eapply N; right; eauto].
        destruct o as [[[s0 k0] cm0]|]; cbn; auto. destruct ((s0 =? s) && str_eqb k0 k) eqn:E; auto.
        apply andb_true_iff in E as [E1 E2]. apply Nat.eqb_eq in E1. apply str_eqb_iff in E2. subst. exfalso. eapply N. left. reflexivity.
Qed.
End Unpack.

(** ** Packing *)

Section Pack.
Context (lib_order : list (stage * list (str * compact_method)) -> list (stage * list (str * compact_method))).
Context (stage_order : list (str * compact_method) -> list (str * compact_method)).
Hypothesis PO : forall l, Permutation l (lib_order l).
Hypothesis PS : forall l, Permutation l (stage_order l).

(** methods held by groups *)
Definition held (gs : list ((stage * full_class) * list compact_method)) (s : nat) (c : full_class) (cm : compact_method) : Prop :=
  exists l, hm_get group_key_eqb gs (s, c) = Some l /\ In cm l.

Lemma held_push gs s cm s' c' cm' : held (hm_update group_key_eqb gs (s, cm_full_class cm) [] (fun v => v ++ [cm])) s' c' cm' <->
  held gs s' c' cm' \/ (s' = s /\ c' = cm_full_class cm' /\ cm' = cm) .
Proof.
  unfold held, hm_update. rewrite (hm_get_insert _ group_key_eqb_iff).
  destruct (group_key_eqb (s, cm_full_class cm) (s', c')) eqn:E.
  - apply group_key_eqb_iff in E. injection E as <- <-.
    destruct (hm_get group_key_eqb gs (s, cm_full_class cm)) as [l|].
    + split.
      * intros (l' & [= <-] & Hin). apply in_app_or in Hin as [Hin|[<-|[]]]; eauto.
      * intros [(l' & [= <-] & Hin)|(_ & _ & ->)]; eexists; split; try reflexivity; apply in_or_app; cbn; auto.
    + split.
      * intros (l' & [= <-] & Hin). destruct Hin as [<-|[]]; eauto.
      * intros [(l' & [=] & Hin)|(_ & _ & ->)]; eexists; split; try reflexivity. cbn. auto.
  - apply (eqb_false_ _ group_key_eqb_iff) in E. split; [auto|]. intros [H|(-> & -> & ->)]; auto. congruence.
Qed.

Lemma push_nodup gs s cm : NoDup (map fst gs) ->
  NoDup (map fst (hm_update group_key_eqb gs (s, cm_full_class cm) [] (fun v => v ++ [cm]))).
Proof. apply hm_insert_nodup. apply group_key_eqb_iff. Qed.

Lemma group_ok lib : NoDup (map fst (group_methods lib_order stage_order lib)) /\
  forall s c cm, held (group_methods lib_order stage_order lib) s c cm <-> c = cm_full_class cm /\ exists k, entry lib s k cm.
Proof.
  unfold group_methods.
  set (inner := fun s gs (e : str * compact_method) => let '(_, cm) := e in
    hm_update group_key_eqb gs (s, cm_full_class cm) [] (fun v => v ++ [cm])).
  assert (I1 : forall s l gs, NoDup (map fst gs) -> NoDup (map fst (fold_left (inner s) l gs)) /\
    forall s' c cm, held (fold_left (inner s) l gs) s' c cm <-> held gs s' c cm \/ (s' = s /\ c = cm_full_class cm /\ exists k, In (k, cm) l)).
  { intros s. induction l as [|(k, cm0) l IH]; intros gs D; cbn [fold_left].
    - split; auto. intros s' c cm. split; auto. intros [H|(_ & _ & k & [])]; auto.
    - destruct (IH (inner s gs (k, cm0))) as [D' H']; [apply push_nodup; auto|]. split; auto. intros s' c cm.
      rewrite H'. unfold inner at 1. rewrite held_push. split.
      + intros [[H|(-> & -> & ->)]|(-> & -> & k' & Hin)]; auto; right; splits; eauto.
        * exists k. left; auto.
        * exists k'. right; auto.
      + intros [H|(-> & -> & k' & [E|Hin])]; auto.
        * injection E as _ ->. auto.
        * right. eauto. }
  assert (I2 : forall l gs, NoDup (map fst gs) ->
    NoDup (map fst (fold_left (fun groups '(s, methods) => fold_left (inner s) (stage_order methods) groups) l gs)) /\
    forall s c cm, held (fold_left (fun groups '(s, methods) => fold_left (inner s) (stage_order methods) groups) l gs) s c cm <->
      held gs s c cm \/ (c = cm_full_class cm /\ exists k ms, In (s, ms) l /\ In (k, cm) ms)).
  { induction l as [|(s0, ms0) l IH]; intros gs D; cbn [fold_left].
    - split; auto. intros s c cm. split; auto. intros [H|(_ & k & ms & [] & _)]; auto.
    - destruct (I1 s0 (stage_order ms0) gs D) as [D1 H1]. destruct (IH _ D1) as [D2 H2]. split; auto.
      intros s c cm. rewrite H2, H1. split.
      + intros [[H|(-> & -> & k & Hin)]|(-> & k & ms & Hin & Hk)]; auto; right; split; auto.
        * exists k, ms0. split; [left; auto|]. apply (Permutation_in _ (Permutation_sym (PS ms0))). auto.
        * exists k, ms. split; [right; auto|auto].
      + intros [H|(-> & k & ms & [E|Hin] & Hk)]; auto.
        * injection E as -> ->. left. right. splits; auto. exists k. apply (Permutation_in _ (PS ms)). auto.
        * right. eauto. }
  destruct (I2 (lib_order lib) []) as [D H]; [constructor|]. split; [exact D|]. intros s c cm. 
  etransitivity; [apply H|]. unfold entry. split.
  - intros [(l & E & _)|(-> & k & ms & Hin & Hk)]; [discriminate|]. split; auto. exists k, ms. split; auto.
    apply (Permutation_in _ (Permutation_sym (PO lib))). auto.
  - intros (-> & k & ms & Hin & Hk). right. split; auto. exists k, ms. split; auto. apply (Permutation_in _ (PO lib)). auto.
Qed.

Lemma insert_forall (P : list compact_method -> Prop) m k v : P v -> Forall (fun e => P (snd e)) m ->
  Forall (fun e => P (snd e)) (hm_insert group_key_eqb m k v).
Proof.
  intros Hv F. induction F as [|[k0 v0] m H F IH]; cbn; [constructor; auto|]. destruct (group_key_eqb k0 k); constructor; auto.
Qed.

Lemma groups_nonempty lib : Forall (fun e => snd e <> []) (group_methods lib_order stage_order lib).
Proof.
  unfold group_methods. generalize (lib_order lib). intros l.
  enough (forall gs, Forall (fun e => snd e <> []) gs -> Forall (fun e : (stage * full_class) * list compact_method => snd e <> [])
    (fold_left (fun groups '(s, methods) => fold_left (fun groups '(_, cm) =>
      hm_update group_key_eqb groups (s, cm_full_class cm) [] (fun v => v ++ [cm])) (stage_order methods) groups) l gs)) by auto.
  induction l as [|(s, ms) l IH]; intros gs F; cbn [fold_left]; auto. apply IH. clear IH.
  revert gs F. induction (stage_order ms) as [|(k, cm) t IH]; intros gs F; cbn [fold_left]; auto. apply IH.
  unfold hm_update. apply (insert_forall (fun v => v <> [])); auto. destruct (hm_get _ _ _) as [v|]; [destruct v|]; discriminate.
Qed.

Context (group_order : list ((stage * full_class) * list compact_method) ->
                       list ((stage * full_class) * list compact_method)).
Hypothesis PG : forall l, Permutation l (group_order l).

Lemma mapM_panic {A B} (f : A -> exec B) l : (forall x, In x l -> f x = Panic \/ exists y, f x = Ret y) ->
  (exists x, In x l /\ f x = Panic) -> mapM f l = Panic.
Proof.
  induction l as [|x l IH]; intros H (y & Hy & E); [destruct Hy|]. cbn [mapM].
  destruct (H x (or_introl eq_refl)) as [Ex|(z & Ex)]; rewrite Ex; cbn [bind]; auto.
  destruct Hy as [->|Hy]; [congruence|]. rewrite IH; auto. { intros; apply H; right; auto. } eauto.
Qed.

Lemma mapM_all {A B} (f : A -> exec B) l : (forall x, In x l -> exists y, f x = Ret y) ->
  exists ys, mapM f l = Ret ys /\ forall y, In y ys <-> exists x, In x l /\ f x = Ret y.
Proof.
  induction l as [|x l IH]; intros H.
  - exists []. split; auto. intros y. split; [intros []|intros (x & [] & _)].
  - destruct (H x (or_introl eq_refl)) as (z & Ex). destruct IH as (ys & E & Hy); [intros; apply H; right; auto|].
    exists (z :: ys). cbn [mapM]. rewrite Ex. cbn [bind]. rewrite E. split; auto. intros y. cbn [In]. rewrite Hy. split.
    + intros [<-|(x' & Hx & E')]; eauto.
    + intros (x' & [<-|Hx] & E'); [left; congruence|right; eauto].
Qed.

Lemma in_groups lib s c l : In ((s, c), l) (group_order (group_methods lib_order stage_order lib)) <->
  hm_get group_key_eqb (group_methods lib_order stage_order lib) (s, c) = Some l.
Proof.
  destruct (group_ok lib) as [D _]. split.
  - intros H. apply (hm_in_get _ group_key_eqb_iff); auto. apply (Permutation_in _ (Permutation_sym (PG _))). auto.
  - intros H. apply (Permutation_in _ (PG _)). apply (hm_get_in _ group_key_eqb_iff). auto.
Qed.

Lemma to_serde_ok lib : (forall s k cm, entry lib s k cm -> exists n, stage_name s = Some n) ->
  exists ser, lib_to_serde lib_order stage_order group_order lib = Ret ser /\
    (forall lower, (forall s k cm, entry lib s k cm -> k = lower (cm_title cm)) ->
      forall s k cm, (exists gc, In gc (methods_of ser) /\ unpacked lower gc = Some (s, k, cm)) <-> entry lib s k cm) /\
    (forall g, In g ser -> g_class_id g <= 8) /\
    (forall g, In g ser -> exists k cm, entry lib (g_stage g) k cm).
Proof.
  intros Hn. destruct (group_ok lib) as [D H]. unfold lib_to_serde.
  set (gs := group_order (group_methods lib_order stage_order lib)).
  assert (HG : forall s c l cm, In ((s, c), l) gs -> In cm l -> c = cm_full_class cm /\ exists k, entry lib s k cm).
  { intros s c l cm Hin Hc. apply in_groups in Hin. apply H. exists l. auto. }
  assert (C1 : forall s c l cm, In ((s, c), l) gs -> In cm l -> exists cs, compact_to_serde s c cm = Ret cs).
  { intros s c l cm Hin Hc. destruct (HG _ _ _ _ Hin Hc) as (-> & k & He). destruct (Hn _ _ _ He) as (n & En).
    unfold compact_to_serde. destruct (generate_title_cases (cm_name cm) (cm_full_class cm) s) as [(n' & t & _ & Et)|[E _]]; [|congruence].
    rewrite Et. cbn. eauto. }
  assert (C2 : forall g, In g gs -> exists mg, group_to_serde g = Ret mg).
  { intros [[s c] l] Hin. unfold group_to_serde. destruct (mapM_all (compact_to_serde s c) l) as (ys & E & _).
    - intros cm Hc. eapply C1; eauto.
    - rewrite E. cbn. eauto. }
  destruct (mapM_all group_to_serde gs C2) as (ser & E & Hser). exists ser. split; auto.
  assert (GE : forall s c l mg, In ((s, c), l) gs -> group_to_serde ((s, c), l) = Ret mg ->
    g_stage mg = s /\ g_is_jump mg = is_jump c /\ g_is_little mg = is_little c /\ g_is_differential mg = is_differential c /\
    g_class_id mg = to_class_id (fc_class c) /\
    forall cs, In cs (g_methods mg) <-> exists cm, In cm l /\ compact_to_serde s c cm = Ret cs).
  { intros s c l mg Hin Eg. unfold group_to_serde in Eg. destruct (mapM_all (compact_to_serde s c) l) as (ys & Em & Hy).
    - intros cm Hc. eapply C1; eauto.
    - rewrite Em in Eg. cbn in Eg. injection Eg as <-. cbn. splits; auto. }
  split; [|split].
  - intros lower Hk s k cm. split.
    + intros ((g & cs) & Hin & U). unfold methods_of in Hin. apply in_flat_map in Hin as (g' & Hg & Hc).
      apply in_map_iff in Hc as (cs' & [= -> ->] & Hc). apply Hser in Hg as ([[s0 c] l] & Hgs & Eg).
      destruct (GE _ _ _ _ Hgs Eg) as (G1 & G2 & G3 & G4 & G5 & G6). apply G6 in Hc as (cm0 & Hl & Ec).
      destruct (HG _ _ _ _ Hgs Hl) as (-> & k0 & He).
      unfold compact_to_serde in Ec. destruct (generate_title (cm_name cm0) (cm_full_class cm0) s0) as [t| | |] eqn:Et; try discriminate.
      cbn in Ec. injection Ec as <-. unfold unpacked in U. rewrite G5, from_to_class_id, G1, G2, G3, G4 in U. cbn in U.
      destruct cm0 as [n0 t0 [j0 l0 d0 c0] p0]. cbn in *.
      destruct (str_eqb t t0) eqn:Es.
      * apply str_eqb_iff in Es. subst t. rewrite Et in U. injection U as <- <- <-. rewrite (Hk _ _ _ He) in He. exact He.
      * injection U as <- <- <-. rewrite (Hk _ _ _ He) in He. exact He.
    + intros He. assert (Hh : held (group_methods lib_order stage_order lib) s (cm_full_class cm) cm) by (apply H; eauto).
      destruct Hh as (l & Hl & Hc). apply in_groups in Hl. fold gs in Hl.
      destruct (C2 _ Hl) as (mg & Eg). destruct (GE _ _ _ _ Hl Eg) as (G1 & G2 & G3 & G4 & G5 & G6).
      destruct (C1 _ _ _ _ Hl Hc) as (cs & Ec). exists (mg, cs). split.
      * unfold methods_of. apply in_flat_map. exists mg. split; [apply Hser; eauto|]. apply in_map. apply G6. eauto.
      * unfold compact_to_serde in Ec. destruct (generate_title (cm_name cm) (cm_full_class cm) s) as [t| | |] eqn:Et; try discriminate.
        cbn in Ec. injection Ec as <-. unfold unpacked. rewrite G5, from_to_class_id, G1, G2, G3, G4. cbn.
        rewrite (Hk _ _ _ He). destruct cm as [n0 t0 [j0 l0 d0 c0] p0]. cbn in *.
        destruct (str_eqb t t0) eqn:Es; [|reflexivity]. apply str_eqb_iff in Es. subst t. rewrite Et. reflexivity.
  - intros g Hg. apply Hser in Hg as ([[s0 c] l] & Hgs & Eg). destruct (GE _ _ _ _ Hgs Eg) as (_ & _ & _ & _ & -> & _).
    destruct (fc_class c); cbn; lia.
  - intros g Hg. apply Hser in Hg as ([[s0 c] l] & Hgs & Eg). destruct (GE _ _ _ _ Hgs Eg) as (-> & _ & _ & _ & _ & G6).
    pose proof (groups_nonempty lib) as Ne. rewrite Forall_forall in Ne.
    assert (Nl : l <> []) by (apply (Ne ((s0, c), l)); apply (Permutation_in _ (Permutation_sym (PG _))); auto).
    destruct l as [|cm l]; [congruence|]. assert (Hl : In cm (cm :: l)) by (left; auto). destruct (HG _ _ _ _ Hgs Hl) as (_ & k & He). eauto.
Qed.

Lemma to_serde_panic lib s k cm : entry lib s k cm -> stage_name s = None ->
  lib_to_serde lib_order stage_order group_order lib = Panic.
Proof.
  intros He Hs. destruct (group_ok lib) as [D H]. unfold lib_to_serde.
  assert (C1 : forall s c cm, compact_to_serde s c cm = Panic /\ stage_name s = None \/ exists cs, compact_to_serde s c cm = Ret cs).
  { intros s0 c cm0. unfold compact_to_serde. destruct (generate_title_cases (cm_name cm0) c s0) as [(n' & t & _ & Et)|[En Et]]; rewrite Et; cbn; eauto. }
  assert (Hh : held (group_methods lib_order stage_order lib) s (cm_full_class cm) cm) by (apply H; eauto).
  destruct Hh as (l & Hl & Hc). apply in_groups in Hl.
  assert (C2 : forall s c l, (mapM (compact_to_serde s c) l = Panic) \/ exists ys, mapM (compact_to_serde s c) l = Ret ys).
  { clear - C1. intros s c. induction l as [|x l IH]; cbn [mapM]; eauto.
    destruct (C1 s c x) as [[-> _]|(cs & ->)]; cbn [bind]; auto. destruct IH as [-> | (ys & ->)]; cbn; eauto. }
  apply mapM_panic.
  - intros [[s0 c0] l0] _. unfold group_to_serde. destruct (C2 s0 c0 l0) as [-> | (ys & ->)]; cbn; eauto.
  - exists ((s, cm_full_class cm), l). split; auto. unfold group_to_serde.
    rewrite mapM_panic; auto.
    + intros x _. destruct (C1 s (cm_full_class cm) x) as [[-> _]|?]; auto.
    + exists cm. split; auto. destruct (C1 s (cm_full_class cm) cm) as [[-> _]|(cs & E)]; auto.
      unfold compact_to_serde in E. destruct (generate_title_cases (cm_name cm) (cm_full_class cm) s) as [(n' & t & En & _)|[_ Et]]; [congruence|].
      rewrite Et in E. discriminate.
Qed.
End Pack.

(** ** JSON *)

Lemma mapO_map {A B C} (f : B -> option C) (g : A -> B) (h : A -> C) l : (forall x, In x l -> f (g x) = Some (h x)) ->
  mapO f (map g l) = Some (map h l).
Proof.
  induction l as [|x l IH]; intros H; cbn; auto. rewrite (H x) by (left; auto). cbn. rewrite IH; auto.
  intros; apply H; right; auto.
Qed.

Lemma compact_json cs : compact_from_json (compact_to_json cs) = Some cs.
Proof. destruct cs as [[t|] n p]; reflexivity. Qed.

Lemma group_json g : (N.of_nat (g_stage g) < 2 ^ 64)%N -> (N.of_nat (g_class_id g) < 2 ^ 8)%N ->
  group_from_json (group_to_json g) = Some g.
Proof.
  destruct g as [s j l d c ms]. cbn [g_stage g_class_id]. intros H1 H2.
  assert (M : mapO compact_from_json (map compact_to_json ms) = Some ms).
  { rewrite (mapO_map _ _ (fun x => x)); [rewrite map_id; auto|]. intros. apply compact_json. }
  apply N.ltb_lt in H1, H2. unfold group_to_json, group_from_json. cbn [g_stage g_is_jump g_is_little g_is_differential g_class_id g_methods].
  destruct j, l, d; cbn - [N.ltb N.pow N.of_nat N.to_nat mapO]; rewrite H1, H2; cbn - [N.of_nat N.to_nat mapO]; rewrite M, !Nat2N.id; reflexivity.
Qed.

Lemma lib_json l : Forall (fun g => (N.of_nat (g_stage g) < 2 ^ 64)%N /\ (N.of_nat (g_class_id g) < 2 ^ 8)%N) l ->
  lib_from_json (lib_to_json l) = Some l.
Proof.
  intros F. unfold lib_to_json, lib_from_json. cbn - [mapO map].
  rewrite (mapO_map _ _ (fun x => x)); [rewrite map_id; auto|]. intros g Hg. rewrite Forall_forall in F. destruct (F g Hg). apply group_json; auto.
Qed.

(** ** The last element with a property *)
Lemma last_in {A} (P : A -> Prop) l : (forall x, P x \/ ~ P x) -> (exists x, In x l /\ P x) ->
  exists pre x post, l = pre ++ x :: post /\ P x /\ forall y, In y post -> ~ P y.
Proof.
  intros Dec. induction l as [|a l IH]; intros (x & Hin & Hx); [destruct Hin|].
  assert (D : (exists y, In y l /\ P y) \/ forall y, In y l -> ~ P y).
  { clear - Dec. induction l as [|b l [(y & H & Hy)|N]]; [right; intros y []|left; exists y; split; [right|]; auto|].
    destruct (Dec b) as [Hb|Hb]; [left; exists b; split; [left|]; auto|]. right. intros y [<-|H]; auto. }
  destruct D as [D|N].
  - destruct (IH D) as (pre & y & post & -> & Hy & N). exists (a :: pre), y, post. auto.
  - destruct Hin as [->|Hin]; [|exfalso; eapply N; eauto]. exists [], x, l. auto.
Qed.

Lemma nth_error_rev {A} (l : list A) i : i < length l -> nth_error (rev l) i = nth_error l (length l - S i).
Proof.
  intros H. destruct l as [|d l0] eqn:E; [cbn in H; lia|]. rewrite <- E in *. clear E.
  rewrite (nth_error_nth' (rev l) d), (nth_error_nth' l d) by (rewrite ?rev_length; lia). f_equal. apply rev_nth. auto.
Qed.

(** ** Characters *)
Lemma char_len_pos c : 1 <= utf8_len c.
Proof. unfold utf8_len. repeat match goal with |- context [if ?b then _ else _] => destruct b end; lia. Qed.

Lemma bell_chars_are_ascii b c : bell_to_char b = Some c -> byte_len [c] = 1.
Proof.
  intros H. apply nth_error_In in H. unfold BELL_NAMES in H.
  repeat (destruct H as [<-|H]; [reflexivity|]). destruct H.
Qed.
