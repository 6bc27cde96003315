(** Lemmas for C142: touches of Plain Bob without odd calls. *)
From Coq Require Import Permutation Factorial.
From Verif Require Import Base Spec SpecMask ListFacts Bell Stage Parity Row RowFacts MulFacts ParityFacts GroupFacts GroupFacts2
  Utils SameStageVec SpecVec SsvFacts Block SpecBlock BlockFacts PlaceNot SpecPn PnFacts PnFacts2 PnFacts3 LawFacts LawFacts2
  Class SpecClass ClassFacts Method SpecMethod MethodFacts SymFacts3 ShapeFacts BellPathFacts SpecHunt HuntFacts BobFacts AffectFacts CalledBobFacts
  MaskFacts EvenFacts ExtentFacts CourseExtentFacts.
Local Open Scope list_scope.

Lemma first_is_place n r : 0 < n -> vrow n r -> (nth_error r 0 = Some 0 <-> place_in r 0 = 0).
Proof.
  intros Hn [V L]. split.
  - intros E. apply place_in_unique; auto.
  - intros E. rewrite <- E at 1. apply place_in_ok; auto. lia.
Qed.

(** An odd row with the treble in front. *)
Lemma odd_row_with_treble n : 3 <= n -> exists o, vrow n o /\ sgn o = true /\ nth 0 o 0 = 0.
Proof.
  intros H. destruct n as [|[|[|n]]]; try lia. set (o := 0 :: 2 :: 1 :: seq 3 n).
  assert (P : Permutation o (seq 0 (S (S (S n))))) by (unfold o; cbn [seq]; constructor; apply perm_swap).
  assert (V : vrow (S (S (S n))) o).
  { split; [|unfold o; cbn; rewrite seq_length; auto]. split; [discriminate|]. split.
    - apply (Permutation_NoDup (Permutation_sym P)). apply seq_NoDup.
    - intros b. assert (L : length o = S (S (S n))) by (unfold o; cbn; rewrite seq_length; auto). rewrite L. split.
      + intros I. apply (Permutation_in _ P) in I. apply in_seq in I. lia.
      + intros B. apply (Permutation_in _ (Permutation_sym P)). apply in_seq. lia. }
  exists o. split; auto. split; auto.
  assert (Sw : swapped o (seq 0 (S (S (S n)))) 1 2).
  { unfold swapped, o. split; [cbn; lia|]. split; [cbn; lia|]. split; [cbn; rewrite !seq_length; auto|]. split; [reflexivity|]. split; [reflexivity|].
    intros k K1 K2. destruct k as [|[|[|k]]]; try lia; reflexivity. }
  rewrite (sgn_swap o (seq 0 (S (S (S n)))) 1 2); auto; [rewrite sgn_rounds; auto|apply V].
Qed.

(** Half of the rows with the treble in front are even. *)
Lemma even_rows_with_treble n l : 3 <= n -> NoDup l -> Forall (vrow n) l -> (forall r, In r l -> nth_error r 0 = Some 0 /\ sgn r = false) -> 2 * length l <= fact (n - 1).
Proof.
  intros Hn N V K. destruct (there_are_rows_with n 0 0 ltac:(lia) ltac:(lia)) as (G & Lg & Ng & Ig).
  destruct (odd_row_with_treble n Hn) as (o & Vo & So & O0).
  assert (FG : Forall (vrow n) G) by (apply Forall_forall; intros r R; apply Ig in R as (A & B & _); split; auto).
  assert (Hh : length (evens G) = length (odds G)).
  { apply (halves n o); auto. intros x Hx. rewrite Forall_forall in FG. pose proof (FG x Hx) as Vx. pose proof (valid_rmul n o x Vo Vx) as Vm. apply Ig.
    split; [apply Vm|]. split; [apply Vm|]. apply (first_is_place n); auto; [lia|]. rewrite (nth_error_nth' _ 0) by (rewrite (proj2 Vm); lia). f_equal.
    rewrite nth_rmul by (rewrite (proj2 Vx); lia). apply Ig in Hx as (_ & _ & P). apply (first_is_place n) in P; auto; [|lia]. apply (nth_error_nth _ _ 0) in P. rewrite P. auto. }
  pose proof (Permutation_length (evens_odds G)) as Pl. rewrite app_length in Pl.
  assert (Il : length l <= length (evens G)).
  { apply NoDup_incl_length; auto. intros r R. apply in_evens. rewrite Forall_forall in V. destruct (K r R) as [A B]. pose proof (V r R) as Vr. split; auto. apply Ig.
    split; [apply Vr|]. split; [apply Vr|]. apply (first_is_place n); auto. lia. }
  lia.
Qed.

Lemma even_transposition pn t n : legal pn -> pn_stage pn = n -> 0 < n -> pn_transposition pn = Ret t -> Nat.Even ((n - length (pn_places pn)) / 2) -> sgn t = false.
Proof.
  intros L Sn Hn E Ev. destruct (pn_transposition_ok pn L) as (t' & E' & V & R). rewrite E in E'. injection E' as <-. rewrite Sn in *.
  pose proof (sgn_change pn _ _ n L Sn (valid_rounds n Hn) R) as Q. rewrite rounds_seq, sgn_rounds in Q. rewrite Q.
  rewrite <- Nat.negb_even, (proj2 (Nat.even_spec _) Ev). auto.
Qed.

Lemma lead_end_even n : 2 <= n -> (n mod 4 = 1 \/ n mod 4 = 2) -> sgn (lead_end_row n) = false.
Proof.
  intros Hn M. assert (Hn0 : 0 < n) by lia.
  assert (E : rmul (hrow n (2 * n - 1)) (trof n (hunting n) (2 * n - 1)) = row_rounds n).
  { change (crs n (trof n (hunting n)) (S (2 * n - 1)) = row_rounds n). replace (S (2 * n - 1)) with (n * 2) by lia. apply (hunting_ends n Hn0). }
  assert (T : sgn (trof n (hunting n) (2 * n - 1)) = false).
  { destruct (trof_ok n (hunting n) Hn0 (hunting_nonempty n) (hunting_legal n Hn0) (2 * n - 1)) as (pn & Ep & R).
    change (length (hunting n)) with 2 in Ep. replace (2 * n - 1) with (1 + (n - 1) * 2) in Ep at 1 by lia. rewrite Nat.mod_add in Ep by lia. change (1 mod 2) with 1 in Ep.
    pose proof (hunting_legal n Hn0) as F. rewrite Forall_forall in F. destruct (F pn (nth_error_In _ _ Ep)) as [L Sn].
    pose proof (sgn_change pn _ _ n L Sn (valid_rounds n Hn0) R) as Q. rewrite rounds_seq, sgn_rounds in Q. rewrite Q. cbn [hunting nth_error] in Ep. injection Ep as <-.
    cbn [pn_stage pn_places]. pose proof (Nat.div_mod n 4 ltac:(lia)) as D. set (k := n / 4) in *. clearbody k. destruct M as [M|M]; rewrite M in D.
    - assert (Ev : Nat.even n = false) by (rewrite D; replace (4 * k + 1) with (2 * (2 * k) + 1) by lia; apply even21). rewrite Ev. cbn [length].
      replace (n - 1) with (2 * k * 2) by lia. rewrite Nat.div_mul by lia. rewrite <- Nat.negb_even, even2. auto.
    - assert (Ev : Nat.even n = true) by (rewrite D; replace (4 * k + 2) with (2 * (2 * k + 1)) by lia; apply even2). rewrite Ev. cbn [length].
      replace (n - 2) with (2 * k * 2) by lia. rewrite Nat.div_mul by lia. rewrite <- Nat.negb_even, even2. auto. }
  assert (Vt : vrow n (trof n (hunting n) (2 * n - 1))) by (apply trof_v; auto using hunting_nonempty, hunting_legal).
  pose proof (sgn_rmul n _ _ (hrow_v n (2 * n - 1) Hn0) Vt) as Q. rewrite E, T, rounds_seq, sgn_rounds in Q. unfold lead_end_row. destruct (sgn (hrow n (2 * n - 1))); auto.
Qed.

Lemma legal_places_nodup s i l : legal_from s i l -> NoDup l.
Proof.
  induction 1 as [|i l Hi H IH|i l Hi H IH]; auto; constructor; auto. intros I. apply (legal_from_ge _ _ _ H) in I. lia.
Qed.

Lemma places_are pn l : legal pn -> NoDup l -> (forall p, In p (pn_places pn) <-> In p l) -> length (pn_places pn) = length l.
Proof. intros [_ L] N I. apply Permutation_length, NoDup_Permutation; auto. eapply legal_places_nodup; eauto. Qed.

(** The numbers of places which the calls make on an even number of bells. *)
Lemma call_places n : 4 <= n -> Nat.Even n -> exists plain bob single,
  pn_parse (s2l "12") n = Ret (Ok plain) /\ pn_parse (s2l "14") n = Ret (Ok bob) /\ pn_parse (s2l "1234") n = Ret (Ok single) /\
  Forall (fun pn => legal pn /\ pn_stage pn = n /\ In 0 (pn_places pn)) [plain; bob; single] /\
  length (pn_places plain) = 2 /\ length (pn_places bob) = 2 /\ length (pn_places single) = 4.
Proof.
  intros H Ev. assert (No : ~ Nat.Odd n) by (intros [k K]; destruct Ev; lia).
  destruct (made_of n [0; 1] (s2l "12") H) as (plain & E1 & S1 & L1 & M1).
  { intros [K|[K|K]]; discriminate. } { apply written_filter; vm_compute; reflexivity. }
  { apply unamb; [discriminate|repeat constructor; cbn; lia|cbn; lia|]. intros p q (I1 & I2 & I3 & I4). cbn in *. right. exists 0. lia. }
  { cbn; auto. } { cbn; lia. }
  destruct (made_of n [0; 3] (s2l "14") H) as (bob & E2 & S2 & L2 & M2).
  { intros [K|[K|K]]; discriminate. } { apply written_filter; vm_compute; reflexivity. }
  { apply unamb; [discriminate|repeat constructor; cbn; lia|cbn; lia|]. intros p q (I1 & I2 & I3 & I4). cbn in *. right. exists 1. lia. }
  { cbn; auto. } { cbn; lia. }
  destruct (made_of n [0; 1; 2; 3] (s2l "1234") H) as (single & E3 & S3 & L3 & M3).
  { intros [K|[K|K]]; discriminate. } { apply written_filter; vm_compute; reflexivity. }
  { apply unamb; [discriminate|repeat constructor; cbn; lia|cbn; lia|]. intros p q (I1 & I2 & I3 & I4). cbn in *.
    assert (q = p + 1). { pose proof (I4 (p + 1)). lia. } right. exists 0. lia. }
  { cbn; auto. } { cbn; lia. }
  exists plain, bob, single.
  assert (N1 : forall p, In p (pn_places plain) <-> In p [0; 1]) by (intros p; rewrite M1, places_12 by auto; cbn [In]; split; [intros [?|[?|[_ ?]]]; auto; contradiction|intros [?|[?|[]]]; auto]).
  assert (N2 : forall p, In p (pn_places bob) <-> In p [0; 3]) by (intros p; rewrite M2, places_14 by auto; cbn [In]; split; [intros [?|[?|[_ ?]]]; auto; contradiction|intros [?|[?|[]]]; auto]).
  assert (N3 : forall p, In p (pn_places single) <-> In p [0; 1; 2; 3]) by (intros p; rewrite M3, places_1234 by auto; cbn [In]; split; [intros [?|[_ ?]]; [lia|contradiction]|intros; left; lia]).
  splits; auto.
  - repeat (constructor; [split; [assumption|split; [assumption|]]|]); [apply N1|apply N2|apply N3|constructor]; left; auto.
  - rewrite (places_are plain [0; 1]); auto. repeat constructor; cbn; lia.
  - rewrite (places_are bob [0; 3]); auto. repeat constructor; cbn; lia.
  - rewrite (places_are single [0; 1; 2; 3]); auto. repeat constructor; cbn; lia.
Qed.

Lemma pn_eq_dec (a b : place_not) : {a = b} + {a <> b}.
Proof. decide equality; [apply Nat.eq_dec|apply list_eq_dec, Nat.eq_dec]. Defined.
