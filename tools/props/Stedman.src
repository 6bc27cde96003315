(** Property theorems C145: Stedman. *)
(*IMPORTS*)
From Verif Require Import Base Spec ListFacts Bell Stage Row RowFacts MulFacts GroupFacts
  Utils SameStageVec SpecVec SsvFacts Block SpecBlock BlockFacts PlaceNot SpecPn SpecLaws PnFacts PnFacts2 PnFacts3 LawFacts
  Class SpecClass ClassFacts ClassFacts2 ClassFacts3 Method SpecMethod MethodFacts SymFacts3 ShapeFacts BellPathFacts SpecHunt HuntFacts BobFacts GrandsireFacts SpecStedman StedmanFacts.
From Verif Require Import SsvThms BlockThms PnThms LawsThms ClassThms MethodThms CtorThms CtorFacts.
Local Open Scope list_scope.
(*BODY*)
(** C145: the changes of Stedman are legal, and on up to 33 bells they can be written. *)
Theorem C145_changes :
  forall n, Nat.Odd n -> 5 <= n -> length (stedman n) = 12 /\ Forall (fun pn => legal pn /\ pn_stage pn = n) (stedman n) /\
    (n <= 33 -> pn_block_parse (with_dots (stedman n)) n = Ret (Ok (stedman n))).
Proof.
  intros n [m Em] H. assert (S0 : st_ok n m) by (split; lia). pose proof (st_legal n m S0) as F. split; [apply st_length|]. split; auto. intros L. apply pf_C81_changes_with_dots; auto; [lia|]. apply st_nonempty.
Qed.

(** C145: its plain course has [n] leads of 12 rows; no row comes twice; no bell is back in its place at a lead head before the
    end of the course; and every bell is throughout in the places where the treble is some number of leads later. *)
Theorem C145_plain_course :
  forall n m, Nat.Odd n -> 5 <= n -> pn_block_to_block_from_rounds None (stedman n) = Ret (first_lead m) ->
    exists pc pars, (forall fuel, n <= fuel -> plain_course fuel m = Ret pc) /\ block_holds pc n pars (seq 0 n) /\
      length pars = n * 12 /\ NoDup (map fst pars) /\
      (forall b k r, b < n -> 0 < k < n -> nth_error (map fst pars) (k * 12) = Some r -> nth_error r b <> Some b) /\
      (forall b, b < n -> exists k, k < n /\
         forall t r r' p, nth_error (map fst pars) t = Some r -> nth_error (map fst pars) ((t + k * 12) mod (n * 12)) = Some r' ->
           (nth_error r p = Some b <-> nth_error r' p = Some 0)).
Proof.
  intros n m [h Eh] H2 Em. assert (S0 : st_ok n h) by (split; lia). assert (Hn : 0 < n) by lia. pose proof (st_legal n h S0) as F. pose proof (st_nonempty n) as N.
  destruct (lead_course n (stedman n) m Hn N F Em) as (K & pc & pars & pe & EK & Pc & H & Rows). rewrite st_length in *.
  pose proof (ends_fun _ _ _ _ _ EK (st_ends n h S0)) as ->.
  destruct (lead_crs n (stedman n) Hn N F (@None str)) as (b0 & ars & E0 & H0 & M0 & _). rewrite Em in E0. injection E0 as <-. rewrite st_length in *.
  assert (I : is_identity (hd [] (all_rows_of ars (crs n (trof n (stedman n)) 12)))).
  { unfold all_rows_of. rewrite M0. unfold crows. cbn [seq map app hd crs]. apply rounds_identity. }
  assert (Lp : length pars = n * 12) by (rewrite <- (map_length fst), Rows; unfold course_rows; rewrite map_length, seq_length; auto).
  assert (Epe : pe = seq 0 n).
  { destruct (pf_C59_plain_course m n ars _ H0 I) as (K' & pc' & pars' & pe' & HK & (e & Pe & Ie) & Mi & Fu & Hp & Epe & _).
    pose proof (Fu (K' + n) ltac:(lia)) as E1. rewrite (Pc (K' + n) ltac:(lia)) in E1. injection E1 as <-.
    assert (X : pe' = pe) by (destruct H as (_ & _ & _ & _ & _ & _ & X); destruct Hp as (_ & _ & _ & _ & _ & _ & Y); congruence). subst pe'.
    apply identity_rounds in Epe. destruct H as (_ & _ & _ & _ & L & _). rewrite L in Epe. rewrite Epe. apply rounds_seq. }
  subst pe. change (course_rows n 12 (trof n (stedman n)) n) with (map (srow n) (seq 0 (n * 12))) in Rows.
  assert (At : forall t r, nth_error (map fst pars) t = Some r -> t < n * 12 /\ r = srow n t).
  { intros t r Er. assert (Lt : t < n * 12) by (rewrite <- Lp, <- (map_length fst); apply nth_error_Some; congruence). split; auto.
    rewrite Rows, nth_error_map, (nth_error_nth' _ 0), seq_nth in Er by (rewrite ?seq_length; auto). cbn [option_map Nat.add] in Er. injection Er as <-. reflexivity. }
  exists pc, pars. splits; auto.
  - rewrite Rows. apply NoDup_map_inj; [|apply seq_NoDup]. intros x y Hx Hy. apply in_seq in Hx, Hy. apply (st_inj n h S0); lia.
  - intros b k r Hb Hk Er Eb. destruct (At _ _ Er) as [_ ->]. apply (nth_error_nth _ _ 0) in Eb.
    rewrite (srow_split n h S0), Nat.div_mul, Nat.mod_mul in Eb by lia. change (srow n 0) with (row_rounds n) in Eb. rewrite rmul_rounds_r in Eb by (apply vrow_rpow; eapply st_head_v; eauto).
    apply (st_home n h) in Eb; auto. rewrite Nat.mod_small in Eb; lia.
  - intros b Hb. destruct (st_same_work n h b S0 Hb) as (k & Hk & W). exists k. split; auto. intros t r r' p Er Er'. destruct (At _ _ Er) as [Lt ->]. destruct (At _ _ Er') as [Lt' ->].
    assert (Pe : srow n ((t + k * 12) mod (n * 12)) = srow n (t + k * 12)).
    { destruct (Nat.lt_ge_cases (t + k * 12) (n * 12)) as [L|L]; [rewrite Nat.mod_small by auto; reflexivity|].
      replace (t + k * 12) with ((t + k * 12 - n * 12) + n * 12) at 2 by lia. replace (t + k * 12) with ((t + k * 12 - n * 12) + 1 * (n * 12)) at 1 by lia.
      rewrite Nat.mod_add, Nat.mod_small by lia. rewrite (srow_add n h _ n S0). destruct (st_ends n h S0) as (_ & R & _). fold (srow n (n * 12)) in R. rewrite (st_pow_row n h n S0), R. symmetry. apply (rmul_rounds_l_vrow n). eapply srow_v; eauto. }
    rewrite Pe. pose proof (srow_v n h t S0) as [_ L1]. pose proof (srow_v n h (t + k * 12) S0) as [_ L2].
    destruct (Nat.lt_ge_cases p n) as [Lpn|Lpn].
    + rewrite !(nth_error_nth' _ 0) by lia. specialize (W t p Lpn). split; intros Q; injection Q as Q; f_equal; apply W; auto.
    + rewrite !(proj2 (nth_error_None _ _)) by lia. split; discriminate.
Qed.

(** C145: it is a principle, not differential, so that its standard title is its name and the stage. *)
Theorem C145_class :
  forall hash_order name n stage text, (forall l, collected_set l (hash_order l)) -> Nat.Odd n -> 5 <= n -> stage_name n = Some stage ->
    pn_block_parse text n = Ret (Ok (stedman n)) ->
    exists m h, from_place_not_string hash_order name n text = Ret (Ok m) /\
      pn_block_to_block_from_rounds None (stedman n) = Ret (first_lead m) /\
      lead_head m = Ret h /\ (forall b, ~ hunt_bell h b) /\
      fc_class (m_class m) = Principle /\ is_differential (m_class m) = false /\ is_jump (m_class m) = false /\
      m_title m = joined (name_words name ++ [stage]).
Proof.
  intros ho name n stage text Ho [h Eh] Hn Sn Ep. assert (S0 : st_ok n h) by (split; lia). assert (H0 : 0 < n) by lia. pose proof (st_legal n h S0) as F. pose proof (st_nonempty n) as N.
  destruct (block_parse_inv text n _ H0 Ep) as [_ Bc].
  destruct (pf_C71_from_place_not_string ho name n text (stedman n) stage Ho Sn Bc N) as (m & rs & lo & Em & Ru & B & _ & _ & _ & _ & _ & Ec & Ej & Et).
  destruct (lead_crs n (stedman n) H0 N F (@None str)) as (b & ars & Eb & Hb & Ma & Nj). rewrite st_length in *.
  assert (Fl : first_lead m = b).
  { unfold from_place_not_string in Em. rewrite Ep in Em. cbn [bind] in Em. rewrite Eb in Em. cbn [bind] in Em.
    unfold with_name in Em. destruct (classify ho b) as [c| | |]; cbn [bind] in Em; try discriminate.
    destruct (generate_title name c (block_stage b)) as [ti| | |]; cbn [bind] in Em; try discriminate. injection Em as <-. reflexivity. }
  subst b. change (crs n (trof n (stedman n)) 12) with (st_head n) in *. exists m, (st_head n). split; auto. split; auto.
  split; [destruct Hb as (_ & _ & _ & _ & _ & _ & X); exact X|].
  assert (Nars : ars <> []) by (intros ->; discriminate Ma).
  assert (I : is_identity (hd [] (map fst ars))) by (rewrite Ma; cbn; apply rounds_identity).
  assert (Nj' : forall i r1 r2, change_at (map fst ars) (st_head n) i r1 r2 -> no_jump r1 r2) by (intros i r1 r2; rewrite Ma; apply Nj).
  destruct (pf_C62_classification _ (first_lead m) n ars _ ho Hb Nars I Nj' Ho) as (fc & Efc & _ & Df & Pr & _). rewrite Ec in Efc. injection Efc as <-.
  pose proof (st_head_v n h S0) as [Vh Lh].
  assert (Nh : forall x, ~ hunt_bell (st_head n) x).
  { intros x Hx. unfold hunt_bell in Hx. assert (Lx : x < n). { rewrite <- Lh. apply nth_error_Some. congruence. }
    apply (nth_error_nth _ _ 0) in Hx. pose proof (proj1 (st_home n h 1 x S0 Lx)) as Q. rewrite Nat.mod_small in Q by lia.
    assert (1 = 0); [|lia]. apply Q. rewrite <- Hx at 2. f_equal. cbn [rpow]. rewrite Lh. apply (rmul_rounds_l_vrow n). split; auto. }
  assert (Ra : forall x k, x < n -> returns_after (st_head n) x k -> k = n).
  { intros x k Hx (Hk & (g & P & E) & Mi). apply power_fun in P. subst g. apply (nth_error_nth _ _ 0) in E. apply (st_home n h) in E; auto. apply Nat.mod_divides in E; [|lia]. destruct E as [c Q].
    destruct (Nat.lt_ge_cases n k) as [L|L]; [|assert (c <> 0) by (intros ->; lia); nia]. exfalso.
    apply (Mi n (rpow (st_head n) n)); [lia|apply (power_rpow n); split; auto|]. pose proof (vrow_rpow n _ n (conj Vh Lh)) as [_ Lk].
    rewrite (nth_error_nth' _ 0) by lia. f_equal. apply (st_home n h); auto. apply Nat.mod_same. lia. }
  assert (D : is_differential (m_class m) = false).
  { destruct (is_differential (m_class m)) eqn:Ed; auto. exfalso. destruct (proj1 Df eq_refl) as (x & y & k & l & Hx & _ & Rx & Hy & _ & Ry & Ne). apply Ne. rewrite (Ra x k), (Ra y l); auto. }
  assert (P : fc_class (m_class m) = Principle) by (apply Pr; auto).
  splits; auto. rewrite Et. unfold title_words. rewrite Ej, D, P. reflexivity.
Qed.

Example C145_example :
  pn_block_parse (s2l "3.1.5.3.1.3,1") 5 = Ret (Ok (stedman 5)) /\ pn_block_parse (s2l "3.1.E.3.1.3,1") 11 = Ret (Ok (stedman 11)) /\
  exists m pc, from_place_not_string (nodup Nat.eq_dec) (s2l "Stedman") 7 (s2l "3.1.7.3.1.3,1") = Ret (Ok m) /\
    m_title m = s2l "Stedman Triples" /\ pn_block_to_block_from_rounds None (stedman 7) = Ret (first_lead m) /\
    plain_course 7 m = Ret pc /\ block_len pc = 84 /\ lead_head m = Ret [5; 2; 3; 6; 1; 4; 0].
Proof. vm_compute. split; [reflexivity|]. split; [reflexivity|]. eexists. eexists. repeat (split; [reflexivity|]). reflexivity. Qed.
