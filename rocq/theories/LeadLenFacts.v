(** The number of rows of a lead, and how a hunt bell covers its places. *)
From Verif Require Import Base Spec ListFacts Bell Stage Row RowFacts MulFacts GroupFacts
  Utils SameStageVec SpecVec SsvFacts Block SpecBlock BlockFacts PlaceNot SpecPn Class SpecClass ClassFacts ClassFacts2 ClassFacts3 SpecHunt PlainFacts.
Local Open Scope list_scope.

(** ** Paths of hunt bells *)
Lemma hunt_closed rows lo s x : Forall (vrow s) rows -> vrow s lo -> rows <> [] -> is_identity (hd [] rows) ->
  (forall i r1 r2, change_at rows lo i r1 r2 -> no_jump r1 r2) -> hunt_bell lo x -> closed_path (path_in rows x).
Proof.
  intros Va Vl Nr I NJ Hx.
  assert (R0 : exists r0 rest, rows = r0 :: rest) by (destruct rows as [|r0 rest]; [congruence|eauto]). destruct R0 as (r0 & rest & R0).
  assert (I0 : r0 = seq 0 s).
  { rewrite R0 in I. cbn in I. apply identity_rounds in I. rewrite I, rounds_seq. f_equal. rewrite Forall_forall in Va. apply (Va r0). rewrite R0. left; auto. }
  intros i p q Ep Eq. assert (X : x < s) by (rewrite <- (proj2 Vl); apply nth_error_Some; unfold hunt_bell in Hx; congruence).
  unfold path_in in *. rewrite map_length in Eq. rewrite nth_error_map in Ep, Eq.
  destruct (nth_error rows i) as [r1|] eqn:E1; [|discriminate]. destruct (nth_error rows ((i + 1) mod length rows)) as [r2|] eqn:E2; [|discriminate].
  cbn in Ep, Eq. injection Ep as <-. injection Eq as <-.
  assert (Li : i < length rows) by (apply nth_error_Some; congruence).
  assert (PI : forall r, In r rows -> nth_error r (place_in r x) = Some x).
  { intros r Ir. rewrite Forall_forall in Va. pose proof (Va r Ir) as Vr. apply place_in_ok; [apply Vr|rewrite (proj2 Vr); auto]. }
  pose proof (PI r1 (nth_error_In _ _ E1)) as P1. pose proof (PI r2 (nth_error_In _ _ E2)) as P2.
  destruct (Nat.eq_dec (i + 1) (length rows)) as [El|El].
  - rewrite El, Nat.mod_same in E2 by lia. rewrite R0 in E2. cbn in E2. injection E2 as <-.
    assert (place_in r0 x = x) as Ex0.
    { apply place_in_unique; [|rewrite I0, (nth_error_nth' _ 0), seq_nth by (rewrite ?seq_length; auto); auto]. rewrite Forall_forall in Va. apply (Va r0). rewrite R0. left; auto. }
    rewrite Ex0. apply (NJ i r1 lo) with (b := x); auto. split.
    + rewrite nth_error_app1; auto.
    + rewrite nth_error_app2 by lia. replace (i + 1 - length rows) with 0 by lia. auto.
  - rewrite Nat.mod_small in E2 by lia. apply (NJ i r1 r2) with (b := x); auto. split; rewrite nth_error_app1; auto; lia.
Qed.

Lemma path_lt rows s x q : Forall (vrow s) rows -> x < s -> In q (path_in rows x) -> q < s.
Proof.
  intros Va X Iq. unfold path_in in Iq. apply in_map_iff in Iq as (r & <- & Ir). rewrite Forall_forall in Va. pose proof (Va r Ir) as Vr.
  rewrite <- (proj2 Vr). apply nth_error_Some. rewrite place_in_ok; [discriminate|apply Vr|rewrite (proj2 Vr); auto].
Qed.

(** ** Counting *)
Lemma moves_even p : p <> [] -> closed_path p -> Nat.Even (length p + places_made p).
Proof.
  intros N C.
  assert (G : forall m, Nat.Even (at_ p 0 + at_ p m + m + length (filter (fun i => at_ p i =? at_ p (i + 1)) (seq 0 m)))).
  { induction m as [|m [k IH]].
    - exists (at_ p 0). cbn. lia.
    - rewrite seq_S, filter_app, app_length. cbn [filter Nat.add]. pose proof (at_step p m N C) as S1. replace (S m) with (m + 1) by lia.
      destruct (Nat.eqb_spec (at_ p m) (at_ p (m + 1))) as [E|E]; cbn [length].
      + exists (k + 1). lia.
      + destruct (Nat.eq_dec (at_ p (m + 1)) (at_ p m + 1)); [exists (k + 1)|exists k]; lia. }
  destruct (G (length p)) as [k K]. pose proof (at_per p 0 N) as P. cbn [Nat.add] in P. rewrite P in K.
  assert (places_made p = length (filter (fun i => at_ p i =? at_ p (i + 1)) (seq 0 (length p)))) as ->.
  { unfold places_made. f_equal. apply filter_ext_in. intros i I. apply in_seq in I. unfold at_. rewrite (Nat.mod_small i) by lia. auto. }
  exists (k - at_ p 0). lia.
Qed.

Lemma count_below (p : list nat) c s : (forall q, q < s -> visits p q = c) -> length (filter (fun x => x <? s) p) = s * c.
Proof.
  induction s as [|s IH]; intros H.
  - clear. induction p; auto.
  - rewrite <- Nat.add_1_l, Nat.mul_add_distr_r, <- IH by auto. rewrite Nat.mul_1_l, <- (H s) by lia. clear. unfold visits.
    induction p as [|x p IH]; auto. cbn [filter count_occ]. change (1 + s) with (S s) in *.
    destruct (Nat.ltb_spec x (S s)), (Nat.ltb_spec x s), (Nat.eq_dec x s); cbn [length]; lia.
Qed.

Lemma covered_length p c s : (forall q, In q p -> q < s) -> (forall q, q < s -> visits p q = c) -> length p = s * c.
Proof.
  intros A B. rewrite <- (count_below p c s B). f_equal. symmetry. clear B. induction p as [|x p IH]; auto. cbn [filter].
  rewrite (proj2 (Nat.ltb_lt x s)) by (apply A; left; auto). f_equal. apply IH. intros q I. apply A. right; auto.
Qed.

Lemma made_twice p : 0 < places_made p -> 2 <= length p -> exists q, In q p /\ 2 <= visits p q.
Proof.
  intros H L. unfold places_made in H. destruct (filter _ _) as [|i l] eqn:E; [cbn in H; lia|].
  assert (I : In i (i :: l)) by (left; auto). rewrite <- E in I. apply filter_In in I as [I Q]. apply in_seq in I. apply Nat.eqb_eq in Q.
  assert (M : (i + 1) mod length p < length p) by (apply Nat.mod_upper_bound; lia).
  exists (nth i p 0). split; [apply nth_In; lia|]. destruct (le_lt_dec 2 (visits p (nth i p 0))); auto. exfalso.
  assert (D : i <> (i + 1) mod length p).
  { destruct (Nat.eq_dec (i + 1) (length p)) as [X|X]; [rewrite X, Nat.mod_same by lia; lia|rewrite Nat.mod_small by lia; lia]. }
  rewrite visits_places in l0.
  assert (X : incl [i; (i + 1) mod length p] (places_of p (nth i p 0))).
  { intros j [<-|[<-|[]]]; apply in_places; split; auto; lia. }
  apply NoDup_incl_length in X; [cbn in X; lia|]. constructor; [intros [Y|[]]; congruence|constructor; [intros []|constructor]].
Qed.

Lemma missing_or_all p s : (exists q, q < s /\ ~ In q p) \/ forall q, q < s -> In q p.
Proof.
  induction s as [|s [(q & Q)|IH]]; [right; lia|left; exists q; split; [lia|apply Q]|].
  destruct (in_dec Nat.eq_dec s p) as [I|I]; [right|left; exists s; split; auto].
  intros q Q. destruct (Nat.eq_dec q s) as [->|]; auto. apply IH. lia.
Qed.
