(** The derived deserialisers accept exactly the values with the fields of a library. *)
From Verif Require Import Base ListFacts Library Serde Json JsonFacts SpecJson GrammarFacts LibFacts Utf8 Cache SpecCache.
Local Open Scope list_scope.

Lemma filter_absent name fs : absent name fs <-> filter (fun f : str * json => str_eqb (fst f) name) fs = [].
Proof.
  unfold absent. induction fs as [|[k v] fs IH]; cbn [map filter fst In].
  - tauto.
  - destruct (str_eqb k name) eqn:E.
    + apply str_eqb_eq in E. split; [intros H; exfalso; apply H; auto|discriminate].
    + rewrite <- IH. split; [tauto|]. intros H [->|H']; auto. assert (X : str_eqb name name = true) by (apply str_eqb_eq; auto). congruence.
Qed.

Lemma field_none name fs : field name fs = None <-> absent name fs.
Proof.
  unfold absent, field. induction fs as [|[k v] fs IH]; cbn [map find fst In]; [tauto|].
  destruct (str_eqb k name) eqn:E.
  - apply str_eqb_eq in E. split; [discriminate|]. intros H; exfalso; apply H; auto.
  - rewrite IH. split; [|tauto]. intros H [->|H']; auto. assert (X : str_eqb name name = true) by (apply str_eqb_eq; auto). congruence.
Qed.

Lemma repeated_absent name fs : absent name fs -> repeated name fs = false.
Proof. intros H. apply filter_absent in H. unfold repeated. rewrite H. reflexivity. Qed.

Lemma once_iff name fs v : once name fs v <-> field name fs = Some v /\ repeated name fs = false.
Proof.
  assert (R : str_eqb name name = true) by (apply str_eqb_eq; auto).
  split.
  - intros (a & b & -> & H). apply filter_absent in H. rewrite filter_app in H. apply app_eq_nil in H as [Ha Hb].
    split.
    + apply filter_absent, field_none in Ha. revert Ha. unfold field. clear Hb. induction a as [|[k x] a IH]; cbn [find app fst].
      * rewrite R. auto.
      * destruct (str_eqb k name); [discriminate|auto].
    + unfold repeated. rewrite filter_app. cbn [filter fst]. rewrite R, Ha, Hb. reflexivity.
  - intros [H Hr]. unfold repeated in Hr. revert H Hr. unfold field, once. induction fs as [|[k x] fs IH]; cbn [find filter fst option_map]; [discriminate|].
    destruct (str_eqb k name) eqn:E.
    + apply str_eqb_eq in E as ->. cbn [option_map snd length]. intros [= ->] H. apply Nat.ltb_ge in H.
      exists [], fs. split; auto. apply filter_absent. cbn [app]. destruct (filter _ fs); [auto|cbn in H; lia].
    + intros H Hr. destruct (IH H Hr) as (a & b & -> & A). exists ((k, x) :: a), b. split; auto.
      apply filter_absent. cbn [app filter fst]. rewrite E. apply filter_absent; auto.
Qed.

Lemma obind_some {A B} (o : option A) (f : A -> option B) b : obind o f = Some b <-> exists a, o = Some a /\ f a = Some b.
Proof. destruct o; cbn; split; [eauto|intros (a' & [= ->] & H); auto|discriminate|intros (? & ? & _); discriminate]. Qed.

Lemma mapO_forms {A} (f : json -> option A) (P : A -> json -> Prop) : (forall j a, f j = Some a <-> P a j) ->
  forall js l, mapO f js = Some l <-> Forall2 P l js.
Proof.
  intros H. induction js as [|j js IH]; intros l; cbn [mapO].
  - split; [intros [= <-]; constructor|]. intros F. inversion F. auto.
  - rewrite obind_some. split.
    + intros (a & E & E2). apply obind_some in E2 as (l' & E2 & [= <-]). constructor; [apply H; auto|apply IH; auto].
    + intros F. inversion F as [|a j' l' js' X Y]; subst. exists a. split; [apply H; auto|]. apply obind_some. exists l'. split; auto. apply IH; auto.
Qed.

Lemma from_str_iff j t : from_str_json j = Some t <-> j = JStr t.
Proof. destruct j; cbn; split; congruence. Qed.
Lemma from_bool_iff j b : from_bool_json j = Some b <-> j = JBool b.
Proof. destruct j; cbn; split; congruence. Qed.
Lemma from_uint_iff bound j n : from_uint_json bound j = Some n <-> j = JNum (N.of_nat n) /\ (N.of_nat n < bound)%N.
Proof.
  destruct j as [| |x| | | |]; cbn; try (split; [discriminate|intros [? _]; discriminate]).
  destruct (N.ltb_spec x bound); split; try discriminate.
  - intros [= <-]. rewrite N2Nat.id. auto.
  - intros [[= ->] _]. rewrite Nat2N.id. auto.
  - intros [[= ->] ?]. lia.
Qed.
Lemma from_arr_iff {A} (f : json -> option A) P j l : (forall j a, f j = Some a <-> P a j) ->
  from_arr_json f j = Some l <-> exists js, j = JArr js /\ Forall2 P l js.
Proof.
  intros H. destruct j as [| | | |js| |]; cbn; try (split; [discriminate|intros (js & ? & _); discriminate]).
  rewrite (mapO_forms f P H). split; [eauto|]. intros (js' & [= ->] & F). auto.
Qed.

Lemma obind_once {A} name fs (g : json -> option A) a : repeated name fs = false ->
  obind (field name fs) g = Some a <-> exists v, once name fs v /\ g v = Some a.
Proof. intros R. rewrite obind_some. split; intros (v & H & G); exists v; rewrite once_iff in *; tauto. Qed.

Lemma title_iff v t : match v with JNull => Some None | _ => option_map Some (from_str_json v) end = Some t <-> title_form t v.
Proof.
  split.
  - destruct v; cbn; try discriminate; intros [= <-]; constructor.
  - intros H. inversion H; auto.
Qed.

Lemma compact_iff j cs : compact_from_json j = Some cs <-> method_form cs j.
Proof.
  split.
  - destruct j as [| | | |l|fs|]; try discriminate.
    + destruct l as [|t [|n [|p [|]]]]; try discriminate. cbn [compact_from_json].
      intros H. apply obind_some in H as (title & T & H). apply obind_some in H as (name & Nm & H).
      apply obind_some in H as (pn & P & [= <-]). apply title_iff in T. apply from_str_iff in Nm, P. subst. constructor; auto.
    + cbn [compact_from_json existsb]. destruct (repeated (s2l "t") fs) eqn:R1; [discriminate|].
      destruct (repeated (s2l "n") fs) eqn:R2; [discriminate|]. destruct (repeated (s2l "p") fs) eqn:R3; [discriminate|]. cbn [orb].
      intros H. apply obind_some in H as (title & T & H). apply obind_some in H as (name & Nm & H).
      apply obind_some in H as (pn & P & [= <-]).
      apply obind_once in Nm as (v & O & Nm); auto. apply from_str_iff in Nm as ->.
      apply obind_once in P as (v & O' & P); auto. apply from_str_iff in P as ->. constructor; auto.
      destruct (field (s2l "t") fs) as [v|] eqn:F.
      * right. exists v. split; [apply once_iff; auto|]. apply title_iff. destruct v; auto.
      * left. injection T as <-. split; auto. apply field_none; auto.
  - intros H. destruct H as [title name pn fs Ht Hn Hp|title name pn v Ht].
    + cbn [compact_from_json existsb]. apply once_iff in Hn as [Fn Rn]. apply once_iff in Hp as [Fp Rp].
      assert (X : repeated (s2l "t") fs = false /\
        match field (s2l "t") fs with None | Some JNull => Some None | Some j => option_map Some (from_str_json j) end = Some title).
      { destruct Ht as [[A ->]|(v & O & T)].
        - split; [apply repeated_absent; auto|]. apply field_none in A. rewrite A. auto.
        - apply once_iff in O as [F R]. split; auto. rewrite F. apply title_iff in T. destruct v; auto. }
      destruct X as [R F]. rewrite R, Rn, Rp. cbn [orb].
      rewrite F. cbn [obind]. rewrite Fn. cbn [obind from_str_json]. rewrite Fp. auto.
    + cbn [compact_from_json]. apply title_iff in Ht. rewrite Ht. auto.
Qed.

Lemma flag_iff name fs b : repeated name fs = false -> flag_from_json name fs = Some b <-> flag_form name b fs.
Proof.
  intros R. unfold flag_from_json, flag_form. rewrite <- field_none, once_iff. destruct (field name fs) as [v|].
  - rewrite from_bool_iff. split; [intros ->; auto|]. intros [[? _]|[[= ->] _]]; [discriminate|auto].
  - split; [intros [= <-]; auto|]. intros [[_ ->]|[? _]]; [auto|discriminate].
Qed.

Lemma flag_repeated name fs b : flag_form name b fs -> repeated name fs = false.
Proof. intros [[A _]|O]; [apply repeated_absent; auto|apply once_iff in O; tauto]. Qed.

Lemma group_iff j g : group_from_json j = Some g <-> group_form g j.
Proof.
  split.
  - destruct j as [| | | |l|fs|]; try discriminate.
    + destruct l as [|a [|b [|c [|d [|e [|f [|]]]]]]]; try discriminate. cbn [group_from_json].
      intros H. apply obind_some in H as (x1 & H1 & H). apply obind_some in H as (x2 & H2 & H). apply obind_some in H as (x3 & H3 & H).
      apply obind_some in H as (x4 & H4 & H). apply obind_some in H as (x5 & H5 & H). apply obind_some in H as (x6 & H6 & [= <-]).
      apply from_uint_iff in H1 as [-> L1], H5 as [-> L5]. apply from_bool_iff in H2, H3, H4. subst.
      apply (from_arr_iff _ _ _ _ compact_iff) in H6 as (js & -> & F). constructor; auto.
    + cbn [group_from_json]. destruct (existsb _ _) eqn:R; [discriminate|]. cbn [existsb] in R. rewrite !orb_false_iff in R.
      destruct R as (R1 & R2 & R3 & R4 & R5 & R6 & _).
      intros H. apply obind_some in H as (x1 & H1 & H). apply obind_some in H as (x2 & H2 & H). apply obind_some in H as (x3 & H3 & H).
      apply obind_some in H as (x4 & H4 & H). apply obind_some in H as (x5 & H5 & H). apply obind_some in H as (x6 & H6 & [= <-]).
      apply obind_once in H1 as (v1 & O1 & H1); auto. apply obind_once in H5 as (v5 & O5 & H5); auto. apply obind_once in H6 as (v6 & O6 & H6); auto.
      apply flag_iff in H2, H3, H4; auto. apply from_uint_iff in H1 as [-> L1], H5 as [-> L5].
      apply (from_arr_iff _ _ _ _ compact_iff) in H6 as (js & -> & F). econstructor; eauto.
  - intros H. destruct H as [x1 x2 x3 x4 x5 x6 js fs O1 L1 F2 F3 F4 O5 L5 O6 F|x1 x2 x3 x4 x5 x6 js L1 L5 F].
    + cbn [group_from_json existsb]. apply once_iff in O1 as [E1 R1], O5 as [E5 R5], O6 as [E6 R6].
      pose proof (flag_repeated _ _ _ F2) as R2. pose proof (flag_repeated _ _ _ F3) as R3. pose proof (flag_repeated _ _ _ F4) as R4.
      rewrite R1, R2, R3, R4, R5, R6. cbn [orb]. apply flag_iff in F2, F3, F4; auto.
      rewrite E1, E5, E6, F2, F3, F4. cbn [obind].
      rewrite (proj2 (from_uint_iff (2 ^ 64) _ x1)) by auto. cbn [obind]. rewrite (proj2 (from_uint_iff (2 ^ 8) _ x5)) by auto. cbn [obind].
      rewrite (proj2 (from_arr_iff _ _ (JArr js) x6 compact_iff)) by eauto. auto.
    + cbn [group_from_json]. rewrite (proj2 (from_uint_iff (2 ^ 64) _ x1)) by auto. cbn [obind from_bool_json].
      rewrite (proj2 (from_uint_iff (2 ^ 8) _ x5)) by auto. cbn [obind].
      rewrite (proj2 (from_arr_iff _ _ (JArr js) x6 compact_iff)) by eauto. auto.
Qed.

Lemma lib_iff j l : lib_from_json j = Some l <-> lib_form l j.
Proof.
  split.
  - destruct j as [| | | |js|fs|]; try discriminate.
    + destruct js as [|a [|]]; try discriminate. cbn [lib_from_json]. intros H.
      apply (from_arr_iff _ _ _ _ group_iff) in H as (js & -> & F). constructor; auto.
    + cbn [lib_from_json]. destruct (repeated _ fs) eqn:R; [discriminate|]. intros H. apply obind_once in H as (v & O & H); auto.
      apply (from_arr_iff _ _ _ _ group_iff) in H as (js & -> & F). econstructor; eauto.
  - intros H. destruct H as [gs js fs O F|gs js F].
    + cbn [lib_from_json]. apply once_iff in O as [E R]. rewrite R, E. cbn [obind].
      apply (from_arr_iff _ _ _ _ group_iff). eauto.
    + apply (from_arr_iff _ _ _ _ group_iff). eauto.
Qed.

Lemma text_form_iff t c : text_form t c <-> exists j, json_read t = Ret (Some j) /\ lib_from_json j = Some c.
Proof. split; intros (j & D & L); exists j; rewrite json_read_document, lib_iff in *; auto. Qed.
