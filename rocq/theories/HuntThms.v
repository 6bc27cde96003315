(** Property theorems C131: plain hunting. *)

(* Generated from tools/props/Hunt.src: the proofs behind PropsHunt.v. *)
From Verif Require Import Base Spec ListFacts Bell Stage Row RowFacts MulFacts GroupFacts
  Utils SameStageVec SpecVec SsvFacts Block SpecBlock BlockFacts PlaceNot SpecPn SpecLaws PnFacts PnFacts2 PnFacts3 LawFacts
  Class SpecClass ClassFacts ClassFacts2 ClassFacts3 Method SpecMethod MethodFacts SymFacts3 ShapeFacts BellPathFacts SpecHunt HuntFacts.
From Verif Require Import SsvThms BlockThms PnThms LawsThms ClassThms MethodThms CtorThms CtorFacts.
Local Open Scope list_scope.

Lemma pf_C131_changes :
  forall n, 0 < n -> Forall (fun pn => legal pn /\ pn_stage pn = n) (hunting n) /\
    (n <= 33 -> pn_block_parse (with_dots (hunting n)) n = Ret (Ok (hunting n))).
Proof.
  intros n H. pose proof (hunting_legal n H) as F. split; auto. intros L. apply pf_C81_changes_with_dots; auto. apply hunting_nonempty.
Qed.

Lemma pf_C131_plain_course :
  forall n m, 0 < n -> pn_block_to_block_from_rounds None (hunting n) = Ret (first_lead m) ->
    exists pc pars, (forall fuel, n <= fuel -> plain_course fuel m = Ret pc) /\ block_holds pc n pars (seq 0 n) /\ length pars = 2 * n /\
      nth_error (map fst pars) n = Some (rev (seq 0 n)) /\
      (NoDup (map fst pars) <-> 3 <= n) /\
      (forall t, exists r, row_in_plain_course m t = Ret r /\
         forall b, b < n -> forall p, nth_error r p = Some b <-> p = hunting_place n b t) /\
      (forall b, b < n -> block_path_of pc b = Ret (Some (map (hunting_place n b) (seq 0 (2 * n)), b))).
Proof.
  intros n m Hn Em. pose proof (hunting_legal n Hn) as F. pose proof (hunting_nonempty n) as N.
  destruct (lead_course n (hunting n) m Hn N F Em) as (K & pc & pars & pe & EK & Pc & H & Rows).
  change (length (hunting n)) with 2 in *. pose proof (ends_fun _ _ _ _ _ EK (hunting_ends n Hn)) as ->.
  destruct (lead_crs n (hunting n) Hn N F (@None str)) as (b0 & ars & E0 & H0 & M0 & _). rewrite Em in E0. injection E0 as <-.
  change (length (hunting n)) with 2 in *.
  assert (Nars : ars <> []) by (intros ->; discriminate M0).
  assert (I : is_identity (hd [] (all_rows_of ars (crs n (trof n (hunting n)) 2)))) by (unfold all_rows_of; rewrite M0; cbn; apply rounds_identity).
  assert (Rh : map fst pars = map (hrow n) (seq 0 (2 * n))) by (rewrite Rows; unfold course_rows; rewrite Nat.mul_comm; reflexivity).
  assert (Lp : length pars = 2 * n) by (rewrite <- (map_length fst), Rh, map_length, seq_length; auto).
  assert (Nth : forall t, t < 2 * n -> nth_error (map fst pars) t = Some (hrow n t)).
  { intros t Ht. rewrite Rh, nth_error_map, (nth_error_nth' _ 0), seq_nth by (rewrite ?seq_length; auto). reflexivity. }
  assert (Ric : forall t, row_in_plain_course m t = Ret (hrow n t)).
  { intros t. destruct (pf_C59_row_in_plain_course m n ars _ n pc pars pe t H0 I Nars (Pc n (le_n _)) H) as (r & a & Er & E). rewrite E. f_equal.
    rewrite Lp in Er. assert (Lt : t mod (2 * n) < 2 * n) by (apply Nat.mod_upper_bound; lia). pose proof (Nth _ Lt) as Q. rewrite nth_error_map, Er in Q. cbn in Q. rewrite hrow_period in Q by auto. congruence. }
  assert (Pl : forall t b, b < n -> forall p, nth_error (hrow n t) p = Some b <-> p = hunting_place n b t).
  { intros t b Hb p. split; [apply hrow_only; auto|]. intros ->. apply hrow_place. auto. }
  assert (Epe : pe = seq 0 n).
  { destruct (pf_C59_plain_course m n ars _ H0 I) as (K' & pc' & pars' & pe' & HK & (e & Pe & Ie) & Mi & Fu & Hp & Epe & _).
    pose proof (Fu (K' + n) ltac:(lia)) as E1. rewrite (Pc (K' + n) ltac:(lia)) in E1. injection E1 as <-.
    assert (X : pe' = pe) by (destruct H as (_ & _ & _ & _ & _ & _ & X); destruct Hp as (_ & _ & _ & _ & _ & _ & Y); congruence). subst pe'.
    apply identity_rounds in Epe. destruct H as (_ & _ & _ & _ & L & _). rewrite L in Epe. rewrite Epe. apply rounds_seq. }
  subst pe. exists pc, pars. splits; auto.
  - rewrite Nth by lia. f_equal. destruct (hrow_v n n Hn) as [Vn Ln]. apply (nth_ext _ _ 0 0); [rewrite rev_length, seq_length; auto|]. intros p Hp. rewrite Ln in Hp.
    rewrite rev_nth, seq_length, seq_nth by (rewrite ?seq_length; lia). apply nth_error_nth. replace (0 + (n - S p)) with (n - 1 - p) by lia.
    apply Pl; [lia|]. unfold hunting_place. fold (start_of n (n - 1 - p)).
    destruct (Nat.even (n - 1 - p)) eqn:Ev; unfold start_of; rewrite Ev.
    + rewrite Nat.mod_small by lia. unfold out_and_in. bools.
    + replace (2 * n - 1 - (n - 1 - p) + n) with (p + 1 * (2 * n)) by lia. rewrite Nat.mod_add, Nat.mod_small by lia. unfold out_and_in. bools.
  - rewrite Rh. split.
    + intros Nd. destruct (Nat.lt_ge_cases n 3) as [L|L]; auto. exfalso.
      assert (D : n = 1 \/ n = 2) by lia. destruct D as [-> | ->]; vm_compute in Nd.
      * inversion Nd as [|x l A B]; subst. apply A. left. auto.
      * inversion Nd as [|x l A B]; subst. inversion B as [|x l A' B']; subst. apply A'. left. auto.
    + intros L. apply NoDup_map_inj; [|apply seq_NoDup]. intros x y Hx Hy. apply in_seq in Hx, Hy. apply hrow_inj; lia.
  - intros t. exists (hrow n t). split; auto.
  - intros b Hb. destruct (proj1 (pf_C26_block_paths _ pc n pars (seq 0 n) b H) Hb) as (p & l & -> & _ & F2 & El). f_equal. f_equal. f_equal.
    + rewrite Rh in F2. clear - F2 Hb. revert p F2. generalize (seq 0 (2 * n)). induction l as [|t l IH]; intros p F2; inversion F2; subst; auto. cbn [map]. f_equal; auto.
      symmetry. apply H1. apply hrow_place. auto.
    + symmetry. apply El. rewrite (nth_error_nth' _ 0), seq_nth; rewrite ?seq_length; auto.
Qed.

Lemma pf_C131_principle :
  forall hash_order name n stage text, (forall l, collected_set l (hash_order l)) -> 2 <= n -> stage_name n = Some stage ->
    pn_block_parse text n = Ret (Ok (hunting n)) ->
    exists m, from_place_not_string hash_order name n text = Ret (Ok m) /\
      pn_block_to_block_from_rounds None (hunting n) = Ret (first_lead m) /\
      fc_class (m_class m) = Principle /\ is_differential (m_class m) = false /\ is_jump (m_class m) = false /\
      m_title m = joined (name_words name ++ [stage]).
Proof.
  intros ho name n stage text Ho Hn Sn Ep. assert (H0 : 0 < n) by lia. pose proof (hunting_legal n H0) as F. pose proof (hunting_nonempty n) as N.
  destruct (block_parse_inv text n _ H0 Ep) as [_ Bc].
  destruct (pf_C71_from_place_not_string ho name n text (hunting n) stage Ho Sn Bc N) as (m & rs & lo & Em & Ru & B & _ & _ & _ & _ & _ & Ec & Ej & Et).
  destruct (lead_crs n (hunting n) H0 N F (@None str)) as (b & ars & Eb & Hb & Ma & Nj). change (length (hunting n)) with 2 in *.
  assert (Fl : first_lead m = b).
  { unfold from_place_not_string in Em. rewrite Ep in Em. cbn [bind] in Em. rewrite Eb in Em. cbn [bind] in Em.
    unfold with_name in Em. destruct (classify ho b) as [c| | |]; cbn [bind] in Em; try discriminate.
    destruct (generate_title name c (block_stage b)) as [ti| | |]; cbn [bind] in Em; try discriminate. injection Em as <-. reflexivity. }
  subst b. exists m. split; auto. split; auto.
  assert (Nars : ars <> []) by (intros ->; discriminate Ma).
  assert (I : is_identity (hd [] (map fst ars))) by (rewrite Ma; cbn; apply rounds_identity).
  assert (Nj' : forall i r1 r2, change_at (map fst ars) (crs n (trof n (hunting n)) 2) i r1 r2 -> no_jump r1 r2) by (intros i r1 r2; rewrite Ma; apply Nj).
  destruct (pf_C62_classification _ (first_lead m) n ars _ ho Hb Nars I Nj' Ho) as (fc & Efc & _ & Df & Pr & _). rewrite Ec in Efc. injection Efc as <-.
  change (crs n (trof n (hunting n)) 2) with (hrow n 2) in *.
  assert (Vtr : forall t, vrow n (trof n (hunting n) t)) by (intros; apply trof_v; auto). assert (Ptr : forall t, trof n (hunting n) (t + 2) = trof n (hunting n) t) by (intros; apply (trof_period n (hunting n)); auto).
  assert (Pw : forall k h, power (hrow n 2) k h -> h = hrow n (k * 2)) by (intros k h P; apply power_fun in P; subst h; symmetry; apply (crs_pow n 2); auto).
  assert (At : forall k x, x < n -> nth_error (hrow n (k * 2)) x = Some x -> (k * 2) mod (2 * n) = 0).
  { intros k x Hx E. apply hrow_only in E; auto. assert (E0 : x = hunting_place n x 0).
    { apply (hrow_only n x x 0 Hx). unfold hrow. cbn [crs]. rewrite rounds_seq, (nth_error_nth' _ 0), seq_nth; rewrite ?seq_length; auto. }
    rewrite E0 in E at 1. symmetry in E. apply (hrow_even n (k * 2) 0) in E; auto; [rewrite E; apply Nat.mod_0_l; lia|]. rewrite Nat.mul_comm. apply even2. }
  assert (Nh : forall x, ~ hunt_bell (hrow n 2) x).
  { intros x Hx. unfold hunt_bell in Hx. assert (Lx : x < n). { destruct (hrow_v n 2 H0) as [_ L]. rewrite <- L. apply nth_error_Some. congruence. }
    pose proof (At 1 x Lx Hx) as Q. cbn [Nat.mul Nat.add] in Q. rewrite Nat.mod_small in Q; lia. }
  assert (Ra : forall x k, x < n -> returns_after (hrow n 2) x k -> k = n).
  { intros x k Hx (Hk & (h & P & E) & Mi). apply Pw in P. subst h. apply At in E; auto. apply Nat.mod_divides in E; [|lia]. destruct E as [c Q].
    destruct (Nat.lt_ge_cases n k) as [L|L]; [|assert (c <> 0) by (intros ->; lia); nia]. exfalso.
    apply (Mi n (rpow (hrow n 2) n)); [lia|apply (power_rpow n), hrow_v; auto|]. replace (rpow (hrow n 2) n) with (row_rounds n).
    - rewrite rounds_seq, (nth_error_nth' _ 0), seq_nth; rewrite ?seq_length; auto.
    - destruct (hunting_ends n H0) as (_ & R & _). rewrite <- R. apply (crs_pow n 2); auto. }
  assert (D : is_differential (m_class m) = false).
  { destruct (is_differential (m_class m)) eqn:Ed; auto. exfalso. destruct (proj1 Df eq_refl) as (x & y & k & l & Hx & _ & Rx & Hy & _ & Ry & Ne). apply Ne. rewrite (Ra x k), (Ra y l); auto. }
  assert (P : fc_class (m_class m) = Principle) by (apply Pr; auto).
  splits; auto. rewrite Et. unfold title_words. rewrite Ej, D, P. reflexivity.
Qed.
