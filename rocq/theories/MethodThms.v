(** Properties C59, C60, C63 and C67: methods and calls. *)

(* Generated from tools/props/Method.src: the proofs behind PropsMethod.v. *)
From Verif Require Import Base Spec ListFacts Bell Stage Row RowFacts MulFacts GroupFacts
  Utils SameStageVec SpecVec SsvFacts Block SpecBlock BlockFacts PlaceNot SpecPn PnFacts PnFacts2 PnFacts3 PropsBell PropsPn
  Class Method Call SpecMethod MethodFacts.
Local Open Scope list_scope.

Lemma pf_C59_plain_course :
  forall m s ars lo, block_holds (first_lead m) s ars lo -> is_identity (hd [] (all_rows_of ars lo)) ->
    exists k pc pars pe,
      0 < k /\ (exists e, power lo k e /\ is_identity e) /\
      (forall j e, 0 < j < k -> power lo j e -> ~ is_identity e) /\
      (forall fuel, k <= fuel -> plain_course fuel m = Ret pc) /\
      block_holds pc s pars pe /\ is_identity pe /\ length pars = k * length ars /\
      (forall j i r l, j < k -> nth_error ars i = Some (r, l) ->
         exists h r', power lo j h /\ composition h r r' /\
           nth_error pars (j * length ars + i) = Some (r', RowAnnot i l) /\
           row_in_plain_course m (j * length ars + i) = Ret r').
Proof.
  intros m s ars lo H I. apply holds_brep in H. pose proof (brep_vrows _ _ _ _ H) as [F V].
  pose proof (rep_pos _ _ _ (proj1 H)) as Hs.
  set (g := fun i l => RowAnnot i l). pose proof (brep_index_annots s ars lo (first_lead m) g H) as Hm.
  set (lar := map _ _) in Hm.
  assert (Ml : map fst lar = map fst ars).
  { unfold lar. rewrite map_map. cbn [fst]. generalize 0. clear. induction ars as [|x ars IH]; intros k; cbn; auto. f_equal; auto. }
  assert (Ll : length lar = length ars).
  { rewrite <- (map_length fst lar), Ml, map_length. auto. }
  assert (Nl : forall i r l, nth_error ars i = Some (r, l) -> nth_error lar i = Some (r, RowAnnot i l)).
  { intros i r l E. unfold lar. rewrite nth_error_map.
    assert (C : nth_error (combine (seq 0 (length ars)) ars) i = Some (i, (r, l))).
    { clear - E. change (Some (i, (r, l))) with (Some (0 + i, (r, l))). revert i E. generalize 0.
      induction ars as [|x ars IH]; intros k i E; destruct i as [|i]; try discriminate.
      - injection E as ->. cbn. rewrite Nat.add_0_r. reflexivity.
      - cbn [length seq combine nth_error]. rewrite (IH (S k) i E). replace (S k + i) with (k + S i) by lia. reflexivity. }
    rewrite C. reflexivity. }
  assert (R : hd [] (all_rows_of lar lo) = row_rounds s).
  { apply identity_rounds in I. unfold all_rows_of in *. rewrite Ml. rewrite I at 1. f_equal.
    assert (Fa : Forall (vrow s) (map fst ars ++ [lo])) by (apply Forall_app; auto).
    destruct (map fst ars ++ [lo]) as [|x t] eqn:E; [destruct (map fst ars); discriminate|].
    inversion Fa as [|? ? Vx _]; subst. apply Vx. }
  assert (Fl : Forall (vrow s) (map fst lar)) by (rewrite Ml; auto).
  assert (Vr : vrow s (row_rounds s)) by (apply valid_rounds; auto).
  destruct (least_order s lo V) as (k & Hk & Ek & Hmin).
  assert (P : forall j, rmul (rpow lo j) (row_rounds s) = rpow lo j).
  { intros j. apply rmul_rounds_r. apply (vrow_rpow s lo j V). }
  assert (Elo : lo = rmul lo (row_rounds s)) by (rewrite rmul_rounds_r; auto; apply V).
  assert (L : forall fuel, k <= fuel -> exists pc, plain_course fuel m = Ret pc /\ brep s (course lo lar k) (row_rounds s) pc).
  { intros fuel Hf. unfold plain_course, lead_len. erewrite brep_len by eauto. rewrite <- Ll.
    eapply (loop_ok s lar lo (row_rounds s) lo Vr V Fl Elo R k ltac:(rewrite P; exact Ek) fuel 1); try lia.
    - intros j Hj. rewrite P. apply Hmin. lia.
    - rewrite (course_1 s), (rpow_1 s), rmul_rounds_r by (auto; apply V). exact Hm. }
  destruct (L k (Nat.le_refl k)) as (pc & Epc & Bpc). exists k, pc, (course lo lar k), (row_rounds s).
  split; auto. split.
  { exists (rpow lo k). split; [eapply power_rpow; eauto|]. rewrite Ek. apply rounds_identity. }
  split.
  { intros j e Hj Pj Ie. apply power_fun in Pj. subst e. apply (Hmin j Hj). apply identity_rounds in Ie. rewrite Ie.
    f_equal. apply (vrow_rpow s lo j V). }
  split.
  { intros fuel Hf. destruct (L fuel Hf) as (pc' & E' & B').
    rewrite E'. f_equal. eapply brep_eq; eauto. }
  split; [apply brep_holds; auto|]. split; [apply rounds_identity|]. split; [rewrite course_length, Ll; auto|].
  intros j i r l Hj E.
  assert (Hi : i < length ars) by (apply nth_error_Some; congruence).
  assert (Vr' : vrow s r).
  { rewrite Forall_map, Forall_forall in F. apply nth_error_In in E. apply (F _ E). }
  exists (rpow lo j), (rmul (rpow lo j) r). split; [eapply power_rpow; eauto|].
  split; [apply (composition_vrow s); auto; apply vrow_rpow; auto|]. split.
  - rewrite <- Ll, nth_course by lia. rewrite (Nl _ _ _ E). reflexivity.
  - unfold row_in_plain_course, lead_len, lead_head, row_in_plain_lead. erewrite !brep_len by eauto.
    rewrite (proj2 (Nat.eqb_neq (length ars) 0)) by lia. cbn [negb assert_ bind]. erewrite brep_leftover by eauto. cbn [bind].
    rewrite Nat.div_add_l, (Nat.div_small i), Nat.add_0_r by lia.
    rewrite Nat.add_comm, Nat.mod_add, Nat.mod_small by lia.
    rewrite (pow_u_ok s) by auto. cbn [bind].
    rewrite (ssv_index_ok s _ _ i r (proj1 H)).
    + cbn [bind]. rewrite (row_mul_ok s); auto. apply vrow_rpow; auto.
    + rewrite nth_error_app1 by (rewrite map_length; auto). rewrite nth_error_map, E. reflexivity.
Qed.

Lemma pf_C59_row_in_plain_course :
  forall m s ars lo fuel pc pars pe i,
    block_holds (first_lead m) s ars lo -> is_identity (hd [] (all_rows_of ars lo)) -> ars <> [] ->
    plain_course fuel m = Ret pc -> block_holds pc s pars pe ->
    exists r a, nth_error pars (i mod length pars) = Some (r, a) /\ row_in_plain_course m i = Ret r.
Proof.
  intros m s ars lo fuel pc pars pe i H I N E B.
  destruct (pf_C59_plain_course m s ars lo H I) as (k & pc' & pars' & pe' & Hk & (e & Pe & Ie) & _ & Ec & B' & _ & Ll & Hn).
  assert (pc' = pc) as ->.
  { assert (E' : plain_course (k + fuel) m = Ret pc').
    { apply Ec; lia. }
    assert (Mono : forall f n b c, plain_course_loop f n b = Ret c -> plain_course_loop (k + f) n b = Ret c).
    { clear. induction f as [|f IH]; intros n b c E; [discriminate|]. rewrite <- plus_n_Sm. cbn [plain_course_loop] in *.
      destruct (block_leftover_row b) as [r| | |]; cbn [bind] in *; auto; try discriminate.
      destruct (is_rounds r); auto. destruct (block_extend_from_within _ _ _) as [b'| | |]; cbn [bind] in *; auto; discriminate. }
    unfold plain_course in *. rewrite (Mono _ _ _ _ E) in E'. congruence. }
  assert (pars' = pars) as ->.
  { destruct B as (_ & _ & _ & _ & _ & B & _), B' as (_ & _ & _ & _ & _ & B' & _). congruence. }
  assert (Lp : 0 < length ars) by (destruct ars; [congruence|cbn; lia]).
  set (q := i mod length pars). assert (Hq : q < length pars) by (apply Nat.mod_upper_bound; nia).
  assert (Hj : q / length ars < k) by (apply Nat.div_lt_upper_bound; lia).
  assert (Hi : q mod length ars < length ars) by (apply Nat.mod_upper_bound; lia).
  destruct (nth_error ars (q mod length ars)) as [(r, l)|] eqn:En; [|apply nth_error_None in En; lia].
  destruct (Hn _ _ _ _ Hj En) as (h & r' & Ph & Cr & E1 & E2).
  rewrite Nat.mul_comm, <- Nat.div_mod in E1, E2 by lia.
  exists r', (RowAnnot (q mod length ars) l). split; auto. rewrite <- E2.
  apply holds_brep in H. pose proof (brep_vrows _ _ _ _ H) as [F V].
  unfold row_in_plain_course, lead_len, lead_head, row_in_plain_lead. erewrite !brep_len by eauto.
  erewrite !brep_leftover by eauto. destruct (negb (length ars =? 0)); cbn [assert_ bind]; auto.
  apply power_fun in Pe. rewrite Pe in Ie. apply identity_rounds in Ie.
  rewrite (proj2 (vrow_rpow s lo k V)) in Ie.
  rewrite !(pow_u_ok s) by auto. cbn [bind].
  rewrite (rpow_mod s lo k V Hk Ie (i / length ars)), (rpow_mod s lo k V Hk Ie (q / length ars)).
  unfold q. rewrite Ll.
  assert (A1 : (i mod (k * length ars)) mod length ars = i mod length ars).
  { rewrite (Nat.mul_comm k), Nat.mod_mul_r by lia. rewrite Nat.mul_comm, Nat.mod_add by lia. apply Nat.mod_mod; lia. }
  assert (A2 : ((i mod (k * length ars)) / length ars) mod k = (i / length ars) mod k).
  { rewrite (Nat.mul_comm k), Nat.mod_mul_r by lia. rewrite Nat.mul_comm, Nat.div_add by lia.
    rewrite (Nat.div_small (i mod length ars)) by (apply Nat.mod_upper_bound; lia). apply Nat.mod_mod; lia. }
  rewrite A1, A2. reflexivity.
Qed.

Lemma pf_C59_terminates_iff :
  forall m s ars lo t, block_holds (first_lead m) s ars lo ->
    valid_row t -> length t = s -> composition t (hd [] (all_rows_of ars lo)) lo ->
    ((exists fuel pc, plain_course fuel m = Ret pc) <->
     (exists j p e, 0 < j /\ power t j p /\ composition p (hd [] (all_rows_of ars lo)) e /\ is_identity e)) /\
    (forall fuel, plain_course fuel m <> Panic /\ plain_course fuel m <> Ub).
Proof.
  intros m s ars lo t H Vt L C. apply holds_brep in H. pose proof (brep_vrows _ _ _ _ H) as [F V].
  pose proof (rep_pos _ _ _ (proj1 H)) as Hs.
  set (g := fun i l => RowAnnot i l). pose proof (brep_index_annots s ars lo (first_lead m) g H) as Hm.
  set (lar := map _ _) in Hm.
  assert (Ml : map fst lar = map fst ars).
  { unfold lar. rewrite map_map. cbn [fst]. generalize 0. clear. induction ars as [|x ars IH]; intros k; cbn; auto. f_equal; auto. }
  assert (Ll : length lar = length ars).
  { rewrite <- (map_length fst lar), Ml, map_length. auto. }
  assert (R : hd [] (all_rows_of lar lo) = hd [] (all_rows_of ars lo)) by (unfold all_rows_of; rewrite Ml; auto).
  set (f := hd [] (all_rows_of ars lo)) in *.
  assert (Vf : vrow s f).
  { pose proof (all_rows_vrow _ _ _ _ H) as Fa. unfold f. rewrite hd_all_rows. apply nth_Forall; auto. rewrite all_rows_length. lia. }
  assert (Fl : Forall (vrow s) (map fst lar)) by (rewrite Ml; auto).
  pose proof (composition_fun _ _ _ C) as Elo.
  assert (Vt' : vrow s t) by (split; auto).
  assert (Hm1 : brep s (course t lar 1) (rmul (rpow t 1) f) (block_map_annots_with_index (first_lead m) g)).
  { rewrite (course_1 s), (rpow_1 s), <- Elo by auto. exact Hm. }
  assert (Dec : (exists j, 0 < j /\ rmul (rpow t j) f = row_rounds s /\ forall i, 1 <= i < j -> rmul (rpow t i) f <> row_rounds s) \/
                (forall j, 1 <= j -> rmul (rpow t j) f <> row_rounds s)).
  { destruct (finite_order s t Vt') as (k & Hk & Ek).
    assert (D : forall B, (exists j, 0 < j < B /\ rmul (rpow t j) f = row_rounds s /\ forall i, 1 <= i < j -> rmul (rpow t i) f <> row_rounds s) \/
                          (forall j, 1 <= j < B -> rmul (rpow t j) f <> row_rounds s)).
    { induction B as [|B [(j & Hj & E)|IHB]]; [right; intros; lia|left; exists j; split; [lia|auto]|].
      destruct (Nat.eq_dec B 0) as [->|HB]; [right; intros; lia|].
      destruct (list_eq_dec Nat.eq_dec (rmul (rpow t B) f) (row_rounds s)) as [E|E].
      - left. exists B. splits; auto; lia.
      - right. intros j Hj. destruct (Nat.eq_dec j B) as [->|]; auto. apply IHB; lia. }
    destruct (D (S k)) as [(j & Hj & E1 & E2)|N].
    - left. exists j. splits; auto; lia.
    - right. intros j Hj E. rewrite (rpow_mod s t k Vt' Hk Ek) in E.
      destruct (Nat.eq_dec (j mod k) 0) as [Z|Z].
      + rewrite Z in E. apply (N k); [lia|]. rewrite Ek. cbn [rpow] in E. rewrite L in E. exact E.
      + apply (N (j mod k)); auto. pose proof (Nat.mod_upper_bound j k ltac:(lia)). lia. }
  assert (Conv : forall j, rmul (rpow t j) f = row_rounds s -> exists p e, power t j p /\ composition p f e /\ is_identity e).
  { intros j E. exists (rpow t j), (row_rounds s). splits.
    - eapply power_rpow; eauto.
    - rewrite <- E. apply (composition_vrow s); auto. apply vrow_rpow; auto.
    - apply rounds_identity. }
  assert (Inv : forall j p e, power t j p -> composition p f e -> is_identity e -> rmul (rpow t j) f = row_rounds s).
  { intros j p e P Ce I. apply power_fun in P. subst p. apply composition_fun in Ce. subst e.
    apply identity_rounds in I. rewrite I. f_equal. rewrite length_rmul. apply Vf. }
  destruct Dec as [(j & Hj & Ej & Hmin)|N].
  - assert (T : forall fuel, j <= fuel -> exists pc, plain_course fuel m = Ret pc).
    { intros fuel Hf. unfold plain_course, lead_len. erewrite brep_len by eauto. rewrite <- Ll.
      destruct (loop_ok s lar lo f t Vf Vt' Fl Elo R j Ej fuel 1 _ ltac:(lia) Hmin Hm1 ltac:(lia)) as (b' & E' & _). eauto. }
    split.
    + split; [|intros _; exists j; apply T; auto]. intros _. destruct (Conv j Ej) as (p & e & ?). exists j, p, e. tauto.
    + intros fuel.
      assert (Mono : forall f n b k, plain_course_loop f n b = Panic \/ plain_course_loop f n b = Ub ->
        plain_course_loop (k + f) n b = plain_course_loop f n b).
      { clear. induction f as [|f IH]; intros n b k E; [destruct E; discriminate|]. rewrite <- plus_n_Sm. cbn [plain_course_loop] in *.
        destruct (block_leftover_row b) as [r| | |]; cbn [bind] in *; auto.
        destruct (is_rounds r); auto. destruct (block_extend_from_within _ _ _) as [b'| | |]; cbn [bind] in *; auto. }
      destruct (T (j + fuel) ltac:(lia)) as (pc & Ep). unfold plain_course in *.
      split; intros E; rewrite Mono in Ep by auto; congruence.
  - assert (D : forall fuel, plain_course fuel m = NoFuel).
    { intros fuel. unfold plain_course, lead_len. erewrite brep_len by eauto. rewrite <- Ll.
      apply (loop_diverges s lar lo f t Vf Vt' Fl Elo R fuel 1); auto. }
    split; [split|].
    + intros (fuel & pc & E). rewrite D in E. discriminate.
    + intros (j & p & e & Hj & P & Ce & I). exfalso. apply (N j); [lia|]. eapply Inv; eauto.
    + intros fuel. rewrite D. split; discriminate.
Qed.

Lemma pf_C59_plain_course_loops_for_ever_refuted :
  exists m, block_holds (first_lead m) 2 [([1; 0], None)] [1; 0] /\
    (forall fuel, plain_course fuel m = NoFuel) /\
    exists m', block_holds (first_lead m') 2 [] [0; 1] /\ forall i, row_in_plain_course m' i = Panic.
Proof.
  set (c := FullClass false false false Principle).
  exists (Method [] [] c (Block (Ssv [1; 0; 1; 0] 2) [None])).
  assert (B : block_holds (Block (Ssv [1; 0; 1; 0] 2) [None : option (list N)]) 2 [([1; 0], None)] [1; 0]).
  { unfold block_holds. splits; auto; try reflexivity; try vr. constructor; [|constructor]. cbn [fst]. split; [vr|reflexivity]. }
  splits; auto.
  - intros fuel.
    destruct (pf_C59_terminates_iff (Method [] [] c (Block (Ssv [1; 0; 1; 0] 2) [None])) 2 [([1; 0], None)] [1; 0] [0; 1] B) as [T Np]; auto.
    { vr. } { cbn. split; auto. intros [|[|[|]]] x E; cbn in E; try discriminate; injection E as <-; cbn; eauto. }
    specialize (Np fuel). destruct (plain_course fuel _) as [pc| | |] eqn:E; auto; try (destruct Np; congruence).
    exfalso. destruct T as [T _]. destruct T as (j & p & e & Hj & P & C & I); [eauto|].
    assert (Ip : p = [0; 1]).
    { clear - P. apply power_fun in P. subst p. induction j as [|j IH]; auto. cbn [rpow]. rewrite IH. reflexivity. }
    subst p. apply composition_fun in C. subst e. cbn in I. specialize (I 0 1 eq_refl). discriminate.
  - exists (Method [] [] c (Block (Ssv [0; 1] 2) [])). split.
    + unfold block_holds. splits; auto; try reflexivity. vr.
    + intros i. reflexivity.
Qed.

Lemma pf_C59_getters :
  forall m s ars lo i, block_holds (first_lead m) s ars lo ->
    method_stage m = s /\ lead_len m = length ars /\ lead_head m = Ret lo /\
    (forall r l, nth_error ars i = Some (r, l) -> row_in_plain_lead m i = Ret r) /\
    row_in_plain_lead m (length ars) = Ret lo /\
    (length ars < i -> row_in_plain_lead m i = Panic).
Proof.
  intros m s ars lo i H. apply holds_brep in H.
  assert (L : length (all_rows_of ars lo) = length ars + 1) by (unfold all_rows_of; rewrite app_length, map_length; reflexivity).
  assert (R : forall j, row_in_plain_lead m j = match nth_error (all_rows_of ars lo) j with Some r => Ret r | None => Panic end).
  { intros j. unfold row_in_plain_lead. destruct (nth_error (all_rows_of ars lo) j) as [r|] eqn:E.
    - apply (ssv_index_ok _ _ _ _ _ (proj1 H) E).
    - apply (ssv_index_panic _ _ _ _ (proj1 H)). apply nth_error_None. exact E. }
  splits.
  - apply (proj1 H).
  - unfold lead_len, block_len. rewrite (proj2 H), map_length. reflexivity.
  - apply (brep_leftover s ars lo); auto.
  - intros r l E. rewrite R. unfold all_rows_of. rewrite nth_error_app1 by (rewrite map_length; apply nth_error_Some; congruence).
    rewrite nth_error_map, E. reflexivity.
  - rewrite R. unfold all_rows_of. rewrite nth_error_app2 by (rewrite map_length; auto). rewrite map_length, Nat.sub_diag. reflexivity.
  - intros Li. rewrite R. destruct (nth_error _ i) eqn:E; auto. assert (i < length (all_rows_of ars lo)) by (apply nth_error_Some; congruence). lia.
Qed.

Lemma pf_C60_labels :
  forall m s ars lo ops, block_holds (first_lead m) s ars lo ->
    Forall (fun o => op_index o < length ars) ops ->
    exists m' ars', label_calls m ops = Ret m' /\ block_holds (first_lead m') s ars' lo /\
      map fst ars' = map fst ars /\
      (forall i r l, nth_error ars i = Some (r, l) -> get_label m' i = Ret (last_label ops i l)) /\
      (forall x, Sorted.StronglySorted lt (label_indices m' x) /\
         forall i, In i (label_indices m' x) <-> i < length ars /\ get_label m' i = Ret (Some x)) /\
      m_title m' = m_title m /\ m_name m' = m_name m /\ m_class m' = m_class m.
Proof.
  intros m s ars lo ops H F. apply holds_brep in H.
  assert (G : exists m' ars', label_calls m ops = Ret m' /\ brep s ars' lo (first_lead m') /\
      map fst ars' = map fst ars /\
      (forall i r l, nth_error ars i = Some (r, l) -> nth_error ars' i = Some (r, last_label ops i l)) /\
      m_title m' = m_title m /\ m_name m' = m_name m /\ m_class m' = m_class m).
  { revert m ars H F. induction ops as [|o ops IH]; intros m ars H F.
    - exists m, ars. splits; auto.
    - inversion F as [|? ? Ho F']; subst.
      destruct (nth_error ars (op_index o)) as [(r, l)|] eqn:E; [|apply nth_error_None in E; lia].
      destruct (brep_set_annot s ars lo (first_lead m) (op_index o) (op_label o) r l H E) as (b & Eb & Hb).
      set (m1 := Method (m_title m) (m_name m) (m_class m) b).
      assert (Ec : label_call m o = Ret m1).
      { destruct o; cbn [label_call op_index op_label] in *; unfold set_lead_end_label, set_label, LABEL_LEAD_END; rewrite Eb; reflexivity. }
      assert (N : forall i, nth_error (replace_nth ars (op_index o) (r, op_label o)) i =
                            if op_index o =? i then Some (r, op_label o) else nth_error ars i).
      { clear - E. apply nth_error_split in E as (l1 & l2 & -> & E). rewrite <- E, replace_nth_split. intros i.
        destruct (Nat.eqb_spec (length l1) i) as [<-|N].
        - rewrite nth_error_app2, Nat.sub_diag by lia. reflexivity.
        - destruct (Nat.lt_ge_cases i (length l1)) as [L|L].
          + rewrite !nth_error_app1 by lia. reflexivity.
          + rewrite !nth_error_app2 by lia. destruct (i - length l1) eqn:D; [lia|reflexivity]. }
      assert (Mf : map fst (replace_nth ars (op_index o) (r, op_label o)) = map fst ars).
      { apply nth_error_ext. intros i. rewrite !nth_error_map, N. destruct (Nat.eqb_spec (op_index o) i) as [<-|]; auto.
        rewrite E. reflexivity. }
      destruct (IH m1 _ Hb) as (m' & ars' & E1 & H1 & M1 & N1 & T1 & T2 & T3).
      { rewrite <- (map_length fst), Mf, map_length. exact F'. }
      exists m', ars'. cbn [label_calls]. rewrite Ec. cbn [bind]. splits; auto; try congruence.
      intros i r' l' Ei. cbn [last_label]. apply N1. rewrite N.
      destruct (Nat.eqb_spec (op_index o) i) as [<-|]; auto. congruence. }
  destruct G as (m' & ars' & E & H' & M & N & T1 & T2 & T3).
  assert (La : length ars' = length ars) by (rewrite <- (map_length fst), M, map_length; auto).
  exists m', ars'. splits; auto.
  - apply brep_holds; auto.
  - intros i r l Ei. unfold get_label. erewrite brep_get_annot by eauto. rewrite (N _ _ _ Ei). reflexivity.
  - intros x. unfold label_indices. destruct (positions_ok (fun a => match a with Some t => str_eqb t x | None => false end)
      (blk_annots (first_lead m'))) as [P1 P2]. split; auto. intros i. rewrite P2. unfold get_label, block_get_annot. split.
    + intros (a & Ea & Pa). rewrite Ea. destruct a as [y|]; [|discriminate]. apply str_eqb_eq in Pa as ->. split; auto.
      rewrite <- La, <- (map_length snd ars'), <- (proj2 H'). apply nth_error_Some. congruence.
    + intros [_ Ei]. destruct (nth_error _ i) as [a|] eqn:Ea; [|discriminate]. injection Ei as ->.
      eexists; split; eauto. apply str_eqb_eq. auto.
Qed.

Lemma pf_C60_out_of_range_panics :
  forall m s ars lo i l, block_holds (first_lead m) s ars lo -> length ars <= i ->
    get_label m i = Panic /\ set_label m i l = Panic.
Proof.
  intros m s ars lo i l H L. apply holds_brep in H. unfold get_label, set_label, block_set_annot.
  erewrite brep_get_annot by eauto. rewrite (proj2 H), nth_error_map.
  rewrite (proj2 (nth_error_None _ _) L). auto.
Qed.

Lemma pf_C63_title :
  forall name c s,
    (forall n, stage_name s = Some n ->
       generate_title name c s = Ret (joined (name_words name ++ title_words c ++ [n]))) /\
    (stage_name s = None -> generate_title name c s = Panic).
Proof.
  intros name c s. unfold generate_title.
  assert (B : forall a b, byte_len a <? byte_len (a ++ b) = match b with [] => false | _ => true end).
  { intros a b. rewrite blen_app. destruct b as [|x b].
    - cbn. rewrite Nat.add_0_r. apply Nat.ltb_irrefl.
    - apply Nat.ltb_lt. rewrite blen_cons. assert (0 < utf8_len x); [|lia].
      unfold utf8_len. repeat (match goal with |- context [if ?b then _ else _] => destruct b end); lia. }
  rewrite B. split; [|intros ->; reflexivity]. intros n ->. cbn [unwrap bind]. f_equal.
  assert (J : forall ws w, joined (w ++ ws) = joined w ++ match w, ws with [], _ => joined ws | _, [] => [] | _, _ => [32%N] ++ joined ws end).
  { clear. intros ws w. induction w as [|x w IH]; auto. destruct w as [|y w].
    - cbn. destruct ws; rewrite ?app_nil_r; reflexivity.
    - change (joined ((x :: y :: w) ++ ws)) with (x ++ [32%N] ++ joined ((y :: w) ++ ws)). rewrite IH.
      change (joined (x :: y :: w)) with (x ++ [32%N] ++ joined (y :: w)). rewrite <- !app_assoc. reflexivity. }
  assert (T : fmt_name c true = joined (title_words c) /\ (title_words c = [] <-> fmt_name c true = [])).
  { destruct c as [[] [] [] []]; vm_compute; split; auto; split; intros; congruence. }
  destruct T as [T1 T2]. rewrite T1 in *.
  rewrite J. destruct name as [|x name]; cbn [name_words app joined].
  - rewrite J. destruct (title_words c) as [|w ws] eqn:E.
    + reflexivity.
    + destruct (joined (w :: ws)) as [|y t] eqn:Ej; [exfalso; assert (w :: ws = []) by (apply T2; auto); discriminate|].
      rewrite <- !app_assoc. reflexivity.
  - destruct (title_words c ++ [n]) as [|z zs] eqn:Ez; [destruct (title_words c); discriminate|]. rewrite <- Ez. rewrite J.
    destruct (title_words c) as [|w ws] eqn:E.
    + cbn [joined app]. rewrite <- !app_assoc. reflexivity.
    + destruct (joined (w :: ws)) as [|y t] eqn:Ej; [exfalso; assert (w :: ws = []) by (apply T2; auto); discriminate|].
      cbn [s2l app joined]; repeat (rewrite <- ?app_assoc; cbn [app]). reflexivity.
Qed.

Lemma pf_C63_title_exists_iff :
  forall name c s, (exists t, generate_title name c s = Ret t) <-> 1 <= s <= 22.
Proof.
  intros name c s. rewrite <- (proj1 C03_stage_names_round_trip s).
  destruct (pf_C63_title name c s) as [T1 T2]. split.
  - intros (t & E). destruct (stage_name s) as [n|]; eauto. rewrite T2 in E; [discriminate|auto].
  - intros (n & E). eauto.
Qed.

Lemma pf_C67_calls :
  forall pns s, pns <> [] -> Forall (fun pn => legal pn /\ pn_stage pn = s) pns ->
    exists b s_ rs lo ts, le_bob pns = Ret b /\ le_single pns = Ret s_ /\
      notation b = 45%N /\ notation s_ = 115%N /\
      rung (seq 0 s) pns rs lo /\
      Forall2 (fun pn t => pn_transposition pn = Ret t) pns ts /\ is_product ts lo /\
      forall c, c = b \/ c = s_ ->
        location c = s2l "LE" /\ cover_len c = length pns /\ call_len c = length pns /\ call_stage c = s /\
        block_holds (call_block c) s (map (fun r => (r, tt)) (removelast (seq 0 s :: rs))) lo /\
        call_transposition c = Ret lo.
Proof.
  intros pns s N F.
  assert (Hs : 0 < s).
  { destruct pns as [|pn pns]; [congruence|]. inversion F as [|? ? [[L _] <-] _]; auto. }
  assert (V : vrow s (seq 0 s)) by (rewrite <- rounds_seq; apply valid_rounds; auto).
  destruct (C45_to_block unit tt pns (seq 0 s) s N F (proj1 V) (proj2 V)) as (b & rs & lo & _ & R & H & E).
  specialize (E eq_refl). pose proof (holds_brep _ _ _ _ H) as Hb.
  destruct (rung_product s _ _ _ _ F V R) as (ts & T1 & T2).
  exists (Call NOTATION_BOB LABEL_LEAD_END (length pns) b), (Call NOTATION_SINGLE LABEL_LEAD_END (length pns) b), rs, lo, ts.
  unfold le_bob, le_single, pn_block_len. rewrite E. cbn [bind]. splits; auto.
  - specialize (T2 [seq 0 s] (prod_one _)). cbn [app] in T2.
    destruct ts as [|t0 ts]; [inversion T1; subst; congruence|].
    assert (Vts : Forall (vrow s) (t0 :: ts)).
    { clear - F T1. revert T1. generalize (t0 :: ts). intros l T1. induction T1 as [|pn t pns l E T1 IH]; [constructor|]. inversion F as [|? ? [L Sn] F']; subst.
      constructor; auto. destruct (pn_transposition_ok pn L) as (t' & E' & Vt & _). congruence. }
    assert (Ex : forall xs, xs <> [] -> Forall (vrow s) xs -> exists p, is_product xs p /\ vrow s p).
    { clear. intros xs. induction xs as [|x xs IH] using rev_ind; [congruence|]. intros _ Fx. apply Forall_app in Fx as [Fx Fy].
      inversion Fy; subst. destruct xs as [|y ys]; [exists x; split; [constructor|auto]|].
      destruct (IH ltac:(discriminate) Fx) as (p & P & Vp). exists (rmul p x). split; [|apply valid_rmul; auto].
      econstructor; eauto. apply (composition_vrow s); auto. }
    destruct (Ex (t0 :: ts) ltac:(discriminate) Vts) as (p & P & Vp).
    pose proof (is_product_cons s (seq 0 s) (t0 :: ts) p Vts V Vp P) as P'.
    assert (Ep : rmul (seq 0 s) p = p) by (rewrite <- rounds_seq; apply rmul_rounds_l_vrow; auto).
    rewrite Ep in P'.
    assert (Fun : forall xs p q, is_product xs p -> is_product xs q -> p = q).
    { clear. intros xs p q Hp. revert q. induction Hp as [x|xs p y q Hp IH C]; intros z Hz.
      - inversion Hz as [|xs p y q Hp C E]; subst; auto. exfalso. destruct xs as [|a xs]; [inversion Hp; destruct xs; discriminate|]. destruct xs; discriminate.
      - inversion Hz as [x E|xs' p' y' q' Hp' C' E]; subst.
        + exfalso. destruct xs as [|a xs]; [inversion Hp; destruct xs; discriminate|destruct xs; discriminate].
        + apply app_inj_tail in E as [-> ->]. specialize (IH _ Hp'). subst p'. apply composition_fun in C, C'. congruence. }
    rewrite (Fun _ _ _ T2 P'). exact P.
  - assert (Ln : block_len b = length pns).
    { erewrite brep_len by eauto. rewrite map_length, removelast_firstn_len, firstn_length. cbn [length].
      rewrite (rung_length _ _ _ _ R). lia. }
    intros c [-> | ->]; unfold cover_len, call_len, call_stage, call_transposition; cbn [location covers call_block]; splits; auto; apply H.
Qed.
