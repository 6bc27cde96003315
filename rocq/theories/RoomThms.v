(** Property theorems C125: room asked for in advance. *)

(* Generated from tools/props/Room.src: the proofs behind PropsRoom.v. *)
From Verif Require Import Base Spec ListFacts Bell Stage Row RowFacts MulFacts Utils SameStageVec SpecVec SsvFacts Music Machine Room RoomFacts.
Local Open Scope list_scope.

Lemma pf_C125_with_capacity :
  forall w size s capacity, (0 < w)%N -> (0 < size)%N -> 0 < s ->
    exists v, holds v s [] /\
    ((capacity * N.of_nat s * size < 2 ^ (w - 1))%N -> forall ck,
       m_ssv_with_capacity (Build w ck) size s capacity = Ret (v, (capacity * N.of_nat s)%N)) /\
    ((2 ^ (w - 1) <= capacity * N.of_nat s * size)%N -> m_ssv_with_capacity (Build w true) size s capacity = Panic) /\
    (forall bells, bells = ((capacity * N.of_nat s) mod 2 ^ w)%N ->
       ((bells * size < 2 ^ (w - 1))%N -> m_ssv_with_capacity (Build w false) size s capacity = Ret (v, bells)) /\
       ((2 ^ (w - 1) <= bells * size)%N -> m_ssv_with_capacity (Build w false) size s capacity = Panic)).
Proof.
  intros w size s capacity Hw Hz Hs. exists (Ssv [] s).
  pose proof (half_lt w Hw) as Hh. set (n := (capacity * N.of_nat s)%N). split.
  { apply holds_rep. unfold rep. cbn. splits; auto. }
  unfold m_ssv_with_capacity. fold n. splits.
  - intros H ck. unfold word. cbn [width checked]. assert (n <= n * size)%N by nia.
    replace (n <? 2 ^ w)%N with true by (symmetry; apply N.ltb_lt; lia). cbn [bind]. rewrite m_room_fits by auto. reflexivity.
  - intros H. unfold word. cbn [width checked]. destruct (N.ltb_spec n (2 ^ w)); auto. cbn [bind]. rewrite m_room_panic by auto. reflexivity.
  - intros bells ->. assert (E : word (Build w false) n = Ret (n mod 2 ^ w)%N).
    { unfold word. cbn [width checked]. destruct (N.ltb_spec n (2 ^ w)); auto. rewrite N.mod_small; auto. }
    rewrite E. cbn [bind]. split; intros H; [rewrite m_room_fits by auto|rewrite m_room_panic by auto]; reflexivity.
Qed.

Lemma pf_C125_with_capacity_unchecked_refuted :
  ~ (forall s capacity v room, 0 < s -> (capacity < 2 ^ 64)%N ->
       m_ssv_with_capacity (Build 64 false) 8 s capacity = Ret (v, room) -> (capacity * N.of_nat s <= room)%N).
Proof.
  intros H. specialize (H 2 (2 ^ 63)%N (Ssv [] 2) 0%N ltac:(lia) ltac:(reflexivity) ltac:(vm_compute; reflexivity)). vm_compute in H. apply H. reflexivity.
Qed.

Lemma pf_C125_runs :
  forall w ck size s len internal, (0 < w)%N -> (0 < size)%N -> (N.of_nat s < 2 ^ w)%N ->
    (s < len -> m_runs_front (Build w ck) size s len = Ret [] /\ m_runs_back (Build w ck) size s len = Ret [] /\
       m_regex_runs (Build w ck) size s len internal = Ret []) /\
    (len <= s -> (N.of_nat (s - 3) * 2 * size < 2 ^ (w - 1))%N ->
       m_runs_front (Build w ck) size s len = Ret (runs_front s len) /\ m_runs_back (Build w ck) size s len = Ret (runs_back s len) /\
       m_regex_runs (Build w ck) size s len internal = Ret (regex_runs s len internal)) /\
    (len <= s -> (2 ^ (w - 1) <= N.of_nat (s - 3) * 2 * size)%N -> ck = true \/ (N.of_nat (s - 3) * 2 < 2 ^ w)%N ->
       m_runs_front (Build w ck) size s len = Panic /\ m_runs_back (Build w ck) size s len = Panic /\
       m_regex_runs (Build w ck) size s len internal = Panic) /\
    (len <= s -> ck = false -> (((N.of_nat (s - 3) * 2) mod 2 ^ w) * size < 2 ^ (w - 1))%N ->
       m_runs_front (Build w ck) size s len = Ret (runs_front s len) /\ m_runs_back (Build w ck) size s len = Ret (runs_back s len) /\
       m_regex_runs (Build w ck) size s len internal = Ret (regex_runs s len internal)).
Proof.
  intros w ck size s len internal Hw Hz W. pose proof (half_lt w Hw) as Hh. set (n := (N.of_nat (s - 3) * 2)%N).
  unfold m_regex_runs, m_runs_front_or_back. splits.
  - intros H. assert (E : forall p, m_runs (Build w ck) p size s len = Ret []) by (intros p; unfold m_runs; rewrite (proj2 (Nat.ltb_lt _ _) H); auto).
    unfold m_runs_front, m_runs_back, m_all_runs. rewrite !E. destruct internal; auto.
  - intros L H. assert (n <= n * size)%N by nia.
    assert (E : forall p, m_runs (Build w ck) p size s len = Ret (flat_map (fun i => p (run_iterator i len)) (range 0 (s - len + 1)))).
    { intros p. rewrite m_runs_eq by auto. fold n. unfold word. cbn [width checked].
      replace (n <? 2 ^ w)%N with true by (symmetry; apply N.ltb_lt; lia). cbn [bind]. rewrite m_room_fits by auto. reflexivity. }
    unfold m_runs_front, m_runs_back, m_all_runs. rewrite !E. cbn [bind].
    unfold regex_runs, runs_front_or_back, runs_front, runs_back, all_runs. rewrite (proj2 (Nat.ltb_ge s len) L). splits; auto. destruct internal; auto.
  - intros L H D. assert (E : forall p, m_runs (Build w ck) p size s len = Panic).
    { intros p. rewrite m_runs_eq by auto. fold n. unfold word. cbn [width checked].
      destruct (N.ltb_spec n (2 ^ w)) as [Q|Q].
      - cbn [bind]. rewrite m_room_panic by auto. reflexivity.
      - destruct D as [-> |D]; [reflexivity|fold n in D; lia]. }
    unfold m_runs_front, m_runs_back, m_all_runs. rewrite !E. destruct internal; auto.
  - intros L -> H.
    assert (E : forall p, m_runs (Build w false) p size s len = Ret (flat_map (fun i => p (run_iterator i len)) (range 0 (s - len + 1)))).
    { intros p. rewrite m_runs_eq by auto. fold n. fold n in H.
      assert (E : word (Build w false) n = Ret (n mod 2 ^ w)%N).
      { unfold word. cbn [width checked]. destruct (N.ltb_spec n (2 ^ w)); auto. rewrite N.mod_small; auto. }
      rewrite E. cbn [bind]. rewrite m_room_fits by auto. reflexivity. }
    unfold m_runs_front, m_runs_back, m_all_runs. rewrite !E. cbn [bind].
    unfold regex_runs, runs_front_or_back, runs_front, runs_back, all_runs. rewrite (proj2 (Nat.ltb_ge s len) L). splits; auto. destruct internal; auto.
Qed.

Lemma pf_C125_room_for_runs :
  forall s len, len <= s -> (length (runs_front s len) <= (s - 3) * 2 <-> 4 <= len) /\ (length (runs_back s len) <= (s - 3) * 2 <-> 4 <= len) /\
    (length (all_runs s len) <= (s - 3) * 2 <-> 4 <= len).
Proof.
  intros s len L. unfold runs_front, runs_back, all_runs. rewrite (proj2 (Nat.ltb_ge s len) L).
  assert (E : forall p : nat -> list regex, (forall i, length (p i) = 2) -> length (flat_map p (range 0 (s - len + 1))) = 2 * (s - len + 1)).
  { intros p H. unfold range. rewrite Nat.sub_0_r. apply flat_map_two; auto. }
  rewrite !E by reflexivity. lia.
Qed.
