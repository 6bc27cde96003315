(** Property theorems C136: the number of rows of a lead. *)

(* Generated from tools/props/LeadLen.src: the proofs behind PropsLeadLen.v. *)
From Verif Require Import Base Spec ListFacts Bell Stage Row RowFacts MulFacts GroupFacts
  Utils SameStageVec SpecVec SsvFacts Block SpecBlock BlockFacts PlaceNot SpecPn
  Class SpecClass ClassFacts ClassFacts2 ClassFacts3 SpecHunt PlainFacts LeadLenFacts.
From Verif Require UpsideFacts.
From Verif Require Import ClassThms PlainThms.
Local Open Scope list_scope.

Lemma pf_C136_hunt_bells_move_an_even_number_of_times :
  forall A (b : block A) s ars lo x, block_holds b s ars lo -> ars <> [] ->
    is_identity (hd [] (map fst ars)) ->
    (forall i r1 r2, change_at (map fst ars) lo i r1 r2 -> no_jump r1 r2) -> hunt_bell lo x ->
    Nat.Even (length ars + places_made (path_in (map fst ars) x)).
Proof.
  intros A b s ars lo x H Na I NJ Hx. pose proof (holds_brep _ _ _ _ H) as B. pose proof (brep_vrows _ _ _ _ B) as [Va Vl].
  assert (Nr : map fst ars <> []) by (destruct ars; [congruence|discriminate]).
  replace (length ars) with (length (path_in (map fst ars) x)) by (unfold path_in; rewrite !map_length; auto).
  apply moves_even; [unfold path_in; destruct ars; [congruence|discriminate]|eapply hunt_closed; eauto].
Qed.

Lemma pf_C136_lead_lengths :
  forall A (b : block A) s ars lo hash_order fc, block_holds b s ars lo -> ars <> [] ->
    is_identity (hd [] (map fst ars)) ->
    (forall i r1 r2, change_at (map fst ars) lo i r1 r2 -> no_jump r1 r2) ->
    (forall l, collected_set l (hash_order l)) -> classify hash_order b = Ret fc ->
    (In (fc_class fc) [Bob; Place; Surprise; Delight; TrebleBob] -> Nat.Even (length ars)) /\
    (In (fc_class fc) [Bob; Place; Surprise; Delight; TrebleBob; TreblePlace] -> is_little fc = false ->
     exists c, length ars = s * c /\ (In (fc_class fc) [Surprise; Delight; TrebleBob] -> 3 <= c /\ Nat.Even s)).
Proof.
  intros A b s ars lo ho fc H Na I NJ HO E.
  destruct (pf_C62_classification A b s ars lo ho H Na I NJ HO) as (fc' & E' & _ & _ & Pr & _ & Ex & Dm). rewrite E in E'. injection E' as <-.
  destruct (pf_C135_plain_methods A b s ars lo ho fc H Na I NJ HO E) as [PM _].
  pose proof (pf_C136_hunt_bells_move_an_even_number_of_times A b s ars lo) as Mv.
  pose proof (holds_brep _ _ _ _ H) as B. pose proof (brep_vrows _ _ _ _ B) as [Va Vl]. set (rows := map fst ars) in *.
  assert (Lr : forall y, length (path_in rows y) = length ars). { intros y. unfold path_in, rows. rewrite !map_length. auto. }
  assert (Dom : In (fc_class fc) [Bob; Place; Surprise; Delight; TrebleBob; TreblePlace] -> exists x h, dominant rows lo x h).
  { intros Cl. apply Ex. destruct (fixed_bells lo) as [|x l] eqn:Ef.
    - exfalso. assert (Pn : fc_class fc = Principle).
      { apply Pr. intros x Hx. apply (proj1 (fixed_bells_spec lo) x) in Hx. rewrite Ef in Hx. destruct Hx. }
      rewrite Pn in Cl. cbn in Cl. intuition discriminate.
    - exists x. apply (proj1 (fixed_bells_spec lo) x). rewrite Ef. left; auto. }
  split.
  - intros Cl. destruct (Dom ltac:(cbn in *; tauto)) as (x & h & D). destruct (Dm x h D) as [M _].
    assert (BP : fc_class fc = Bob \/ fc_class fc = Place \/ h = HTrebleDodging).
    { inversion M; auto; exfalso; match goal with Q : _ = fc_class fc |- _ => rewrite <- Q in Cl end; cbn in Cl; intuition discriminate. }
    assert (Q : (fc_class fc = Bob \/ fc_class fc = Place) \/ h = HTrebleDodging) by tauto. destruct Q as [Q| ->].
    + apply PM in Q as (y & a & _ & [(k & _ & Q & _)|Q]); rewrite <- (Lr y).
      * exists k. auto.
      * exists 2. destruct Q as [-> | ->]; auto.
    + destruct D as (Hx & Px & _). pose proof (Mv x H Na I NJ Hx) as [k K]. inversion Px as [|? ?|? ? ? ? P2| | | |]. rewrite P2 in K. exists (k - 1). lia.
  - intros Cl Li. destruct (Dom Cl) as (x & h & D). destruct (Dm x h D) as [M Lt].
    assert (EC : forall y, path_class (path_in rows y) h -> equally_covered (path_in rows y)).
    { intros y Py. assert (Hh : h = HPlain \/ h = HTrebleDodging \/ h = HTreblePlace).
      { inversion M; auto; exfalso; match goal with Q : _ = fc_class fc |- _ => rewrite <- Q in Cl end; cbn in Cl; intuition discriminate. }
      assert (Sc : stationary (path_in rows y) -> equally_covered (path_in rows y)).
      { intros [q St] q' r Iq Ir. rewrite (St q' Iq), (St r Ir). auto. }
      assert (Tc : each_place_twice (path_in rows y) -> equally_covered (path_in rows y)).
      { intros Tw q r Iq Ir. rewrite !Tw; auto. }
      clear -Py Hh Sc Tc. destruct Py; auto; destruct Hh as [Hh|[Hh|Hh]]; discriminate. }
    set (Fin := exists c, length ars = s * c /\ (In (fc_class fc) [Surprise; Delight; TrebleBob] -> 3 <= c /\ Nat.Even s)).
    assert (All : forall y, dominant rows lo y h -> (forall q, q < s -> In q (path_in rows y)) -> Fin).
    { intros y Dy Al. destruct Dy as (Hy & Py & _). assert (Y : y < s) by (rewrite <- (proj2 Vl); apply nth_error_Some; unfold hunt_bell in Hy; congruence).
      pose proof (EC y Py) as Ec. assert (Cv : forall q, q < s -> visits (path_in rows y) q = visits (path_in rows y) 0) by (intros q Q; apply Ec; apply Al; lia).
      exists (visits (path_in rows y) 0). split.
      - rewrite <- (Lr y). apply covered_length; auto. intros q Iq. apply (path_lt rows s y); auto.
      - intros Cs. assert (h = HTrebleDodging) as ->.
        { inversion M; auto; exfalso; match goal with Q : _ = fc_class fc |- _ => rewrite <- Q in Cs end; cbn in Cs; intuition discriminate. }
        inversion Py as [|? ?|Ns Nt Sy Eq2 P2| | | |].
        assert (Ev : Nat.Even s).
        { assert (CP : closed_path (path_in rows y)) by (eapply hunt_closed; eauto; unfold rows; destruct ars; [congruence|discriminate]).
          assert (Lp : 0 < length (path_in rows y)) by (rewrite Lr; destruct ars; [congruence|cbn; lia]).
          destruct (UpsideFacts.dodging_even (path_in rows y) Lp) with (m := 0) (M := s - 1) as (k & Ek); auto; try (apply Al; lia).
          - intros i Hi. apply (CP i); apply nth_error_nth'; auto. apply Nat.mod_upper_bound. lia.
          - intros q Iq. assert (q < s) by (apply (path_lt rows s y); auto). lia.
          - exists (k + 1). lia. }
        split; [|auto]. assert (L2 : 2 <= length (path_in rows y)).
        { destruct (path_in rows y) as [|a [|a' l]] eqn:Ep; cbn; try lia; exfalso; apply Ns; [exists 0; intros ? []|exists a; intros ? [|[]]; auto]. }
        destruct (made_twice (path_in rows y) ltac:(lia) L2) as (q & Iq & Vq).
        assert (q < s) by (apply (path_lt rows s y); auto). rewrite Cv in Vq by auto.
        destruct (Nat.eq_dec (visits (path_in rows y) 0) 2) as [E2|E2]; [|lia]. exfalso. apply Nt. intros q' Iq'.
        assert (q' < s) by (apply (path_lt rows s y); auto). rewrite Cv; auto. }
    assert (S0 : s <> 0). { destruct D as (Hx & _). assert (x < length lo) by (apply nth_error_Some; unfold hunt_bell in Hx; congruence). rewrite (proj2 Vl) in *. lia. }
    assert (Dec : Fin \/ ~ Fin).
    { destruct (Nat.eq_dec (length ars) (s * (length ars / s))) as [Eq|Ne].
      - assert (cd : forall a b : class, {a = b} + {a <> b}) by decide equality.
        destruct (in_dec cd (fc_class fc) [Surprise; Delight; TrebleBob]) as [Is|Is]; [|left; eexists; split; [apply Eq|tauto]].
        destruct (Nat.Even_or_Odd s) as [Ev|Od]; [|right; intros (c & _ & C3); destruct (C3 Is) as [_ Ev]; apply (Nat.Even_Odd_False s); auto].
        destruct (le_lt_dec 3 (length ars / s)); [left; eexists; split; eauto|right]. intros (c & Ec & C3). destruct (C3 Is) as [C4 _]. rewrite Ec, Nat.mul_comm, Nat.div_mul in *; lia.
      - right. intros (c & Ec & _). apply Ne. rewrite Ec at 2. rewrite (Nat.mul_comm s c), Nat.div_mul by auto. lia. }
    destruct Dec as [F|F]; auto. exfalso. assert (is_little fc = true); [|congruence]. apply Lt. intros y Dy.
    destruct (missing_or_all (path_in rows y) s) as [Q|Q]; auto. exfalso. apply F. eapply All; eauto.
Qed.
