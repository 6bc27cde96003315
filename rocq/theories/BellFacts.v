(** Proofs about bell.rs and stage.rs. *)
From Coq Require Import DecimalString DecimalNat DecimalFacts.
From Verif Require Import Base Bell Stage ListFacts Spec.
Local Open Scope list_scope.

Lemma BELL_NAMES_length : length BELL_NAMES = 33.
Proof. reflexivity. Qed.

Lemma BELL_NAMES_NoDup : NoDup BELL_NAMES.
Proof.
  unfold BELL_NAMES; cbn.
  repeat (constructor; [cbn; intuition discriminate|]). constructor.
Qed.

Lemma from_name_to_char c b : bell_from_name c = Some b <-> bell_to_char b = Some c.
Proof.
  unfold bell_from_name, bell_to_char. rewrite position_Some. split.
  - intros [(x & Hx & E) _]. apply N.eqb_eq in E as ->. exact Hx.
  - intros H. split; [exists c; split; [exact H | apply N.eqb_refl]|].
    intros j x Hj Hx. apply N.eqb_neq; intros ->.
    assert (j = b) by (eapply NoDup_nth_error_inj; eauto using BELL_NAMES_NoDup). lia.
Qed.

Lemma to_char_defined b : (exists c, bell_to_char b = Some c) <-> b < 33.
Proof.
  unfold bell_to_char. rewrite <- BELL_NAMES_length, <- nth_error_Some.
  destruct (nth_error BELL_NAMES b) as [c|]; split; intros H; try congruence; eauto.
  destruct H; discriminate.
Qed.

Lemma from_name_defined c : (exists b, bell_from_name c = Some b) <-> is_bell_name_char c.
Proof.
  assert (Hin : (exists b, bell_from_name c = Some b) <-> In c BELL_NAMES).
  { split.
    - intros (b & Hb). apply from_name_to_char in Hb. eapply nth_error_In; exact Hb.
    - intros H. apply In_nth_error in H as (b & Hb). exists b. apply from_name_to_char. exact Hb. }
  rewrite Hin. unfold BELL_NAMES, is_bell_name_char. cbn [s2l In N_of_ascii].
  split.
  - cbn. intros H. repeat (destruct H as [<- | H]; [lia|]). destruct H.
  - intros H.
    assert (Hc : (c <= 90)%N) by lia.
    assert (In c (map N.of_nat (seq 0 91))) as Hs.
    { apply in_map_iff. exists (N.to_nat c). split; [lia|]. apply in_seq. lia. }
    cbn in Hs. cbn.
    repeat (destruct Hs as [<- | Hs]; [try lia; tauto|]). destruct Hs.
Qed.

Lemma names_in_order :
  (forall k, 1 <= k <= 9 -> bell_to_char (k - 1) = Some (48 + N.of_nat k)%N) /\
  bell_to_char 9 = Some 48%N /\ bell_to_char 10 = Some 69%N /\ bell_to_char 11 = Some 84%N /\
  (forall a b ca cb, 12 <= a -> a < b -> bell_to_char a = Some ca -> bell_to_char b = Some cb ->
    (ca < cb)%N).
Proof.
  split; [|split; [|split; [|split]]]; try reflexivity.
  - intros k Hk. do 10 (destruct k as [|k]; [try reflexivity; lia|]). lia.
  - intros a b ca cb Ha Hab Hca Hcb.
    assert (Hb : b < 33) by (apply to_char_defined; eauto).
    assert (Hall : forallb (fun a => forallb (fun b =>
        negb (a <? b) || match bell_to_char a, bell_to_char b with
                         | Some x, Some y => (x <? y)%N | _, _ => false end)
        (seq 12 21)) (seq 12 21) = true) by (vm_compute; reflexivity).
    rewrite forallb_forall in Hall. specialize (Hall a). rewrite forallb_forall in Hall.
    specialize (Hall ltac:(apply in_seq; lia) b ltac:(apply in_seq; lia)).
    rewrite Hca, Hcb in Hall. apply Nat.ltb_lt in Hab. rewrite Hab in Hall. cbn in Hall.
    apply N.ltb_lt; exact Hall.
Qed.

Lemma from_number_iff n b : bell_from_number n = Some b <-> bell_number b = n.
Proof.
  unfold bell_from_number, bell_number. destruct n; split; try congruence; try lia.
  - intros [= ->]; lia.
  - intros H; f_equal; lia.
Qed.

Lemma from_number_none n : bell_from_number n = None <-> n = 0.
Proof. destruct n; cbn; split; congruence || auto. Qed.

Lemma in_stage_bells b s : In b (stage_bells s) <-> b < s.
Proof. unfold stage_bells, range. rewrite in_seq. lia. Qed.

Lemma tenor_spec s : 0 < s ->
  exists b, bell_tenor s = Ret b /\ In b (stage_bells s) /\
            (forall b', In b' (stage_bells s) -> b' <= b).
Proof.
  intros H. destruct s as [|s]; [lia|]. exists s. split; [reflexivity|].
  split; [apply in_stage_bells; lia | intros b' Hb'; apply in_stage_bells in Hb'; lia].
Qed.

Lemma stage_bells_spec s :
  (forall i b, nth_error (stage_bells s) i = Some b <-> i < s /\ b = i).
Proof.
  intros i b. unfold stage_bells, range. rewrite Nat.sub_0_r, nth_error_seq.
  destruct (Nat.ltb_spec i s); split; intros H'; try (injection H'; lia); try discriminate; try lia.
  f_equal; lia.
Qed.

(** decimal numerals *)
Lemma s2l_inj a b : s2l a = s2l b -> a = b.
Proof.
  revert b; induction a as [|x a IH]; intros [|y b] H; cbn in H; try discriminate; auto.
  injection H as H1 H2. f_equal; auto.
  rewrite <- (ascii_N_embedding x), <- (ascii_N_embedding y), H1; reflexivity.
Qed.

Lemma string_of_uint_inj a b : NilEmpty.string_of_uint a = NilEmpty.string_of_uint b -> a = b.
Proof.
  intros H. apply (f_equal NilEmpty.uint_of_string) in H.
  rewrite !NilEmpty.usu in H. congruence.
Qed.

Lemma dec_inj a b : dec a = dec b -> a = b.
Proof.
  unfold dec; intros H. apply s2l_inj, string_of_uint_inj in H.
  apply Unsigned.to_uint_inj; exact H.
Qed.

Lemma uint_digits u : Forall (fun c => (48 <= c <= 57)%N) (s2l (NilEmpty.string_of_uint u)).
Proof. induction u; cbn; constructor; auto; lia. Qed.

Lemma of_uint_acc_value u acc :
  N.of_nat (Nat.of_uint_acc u acc) =
  fold_left (fun acc c => 10 * acc + (c - 48))%N (s2l (NilEmpty.string_of_uint u)) (N.of_nat acc).
Proof.
  revert acc; induction u as [|u IH|u IH|u IH|u IH|u IH|u IH|u IH|u IH|u IH|u IH]; intros acc;
    cbn [Nat.of_uint_acc NilEmpty.string_of_uint s2l fold_left]; [reflexivity|..];
    rewrite IH; f_equal; rewrite Nat.tail_mul_spec;
    repeat match goal with |- context [N_of_ascii ?a] =>
      let v := eval vm_compute in (N_of_ascii a) in change (N_of_ascii a) with v end; lia.
Qed.

Lemma dec_value n : decimal_value (dec n) = N.of_nat n.
Proof.
  unfold decimal_value, dec.
  change 0%N with (N.of_nat 0). rewrite <- of_uint_acc_value.
  fold (Nat.of_uint (Nat.to_uint n)). rewrite Unsigned.of_to. reflexivity.
Qed.

Lemma to_uint_nonempty n : Nat.to_uint n <> Decimal.Nil.
Proof.
  rewrite <- (Unsigned.of_to n), Unsigned.to_of. apply unorm_nonnil.
Qed.

Lemma dec_decimal n : is_decimal (dec n).
Proof.
  split; [|apply uint_digits]. unfold dec.
  pose proof (to_uint_nonempty n) as H. destruct (Nat.to_uint n); cbn; congruence.
Qed.

Lemma bell_name_small b : b < 33 -> exists c, bell_name b = [c] /\ bell_to_char b = Some c.
Proof.
  intros H. apply to_char_defined in H as (c & Hc). exists c. unfold bell_name. rewrite Hc. auto.
Qed.

Lemma bell_name_large b : 33 <= b -> bell_name b = [60%N] ++ dec (b + 1) ++ [62%N].
Proof.
  intros H. unfold bell_name. destruct (bell_to_char b) as [c|] eqn:E; [|reflexivity].
  assert (b < 33) by (apply to_char_defined; eauto). lia.
Qed.

Lemma bell_name_inj a b : bell_name a = bell_name b -> a = b.
Proof.
  intros H. destruct (Nat.lt_ge_cases a 33) as [Ha|Ha], (Nat.lt_ge_cases b 33) as [Hb|Hb].
  - destruct (bell_name_small a Ha) as (ca & Ea & Ca), (bell_name_small b Hb) as (cb & Eb & Cb).
    rewrite Ea, Eb in H. injection H as ->.
    apply from_name_to_char in Ca, Cb. congruence.
  - destruct (bell_name_small a Ha) as (ca & Ea & Ca). rewrite Ea, (bell_name_large b Hb) in H.
    apply (f_equal (@length N)) in H. rewrite !app_length in H. cbn in H.
    pose proof (dec_decimal (b + 1)) as [Hne _]. destruct (dec (b + 1)); cbn in H; [congruence|lia].
  - destruct (bell_name_small b Hb) as (cb & Eb & Cb). rewrite Eb, (bell_name_large a Ha) in H.
    apply (f_equal (@length N)) in H. rewrite !app_length in H. cbn in H.
    pose proof (dec_decimal (a + 1)) as [Hne _]. destruct (dec (a + 1)); cbn in H; [congruence|lia].
  - rewrite (bell_name_large a Ha), (bell_name_large b Hb) in H.
    apply app_inv_head, app_inv_tail, dec_inj in H. lia.
Qed.

(** stages *)
Lemma stage_try_from_iff n s : stage_try_from n = Ok s <-> s = n /\ n <> 0.
Proof. destruct n; cbn; split; intros H; try discriminate; try lia; try congruence.
  - injection H; intros <-; split; auto.
  - destruct H as [-> _]; reflexivity.
Qed.

Lemma stage_new_iff n : (n = 0 -> stage_new n = Panic) /\ (n <> 0 -> stage_new n = Ret n).
Proof. destruct n; split; intros H; try reflexivity; lia. Qed.

Lemma stage_new_pos n : 0 < n -> stage_new n = Ret n.
Proof. intros H; apply stage_new_iff; lia. Qed.

Lemma stage_name_defined s : (exists n, stage_name s = Some n) <-> 1 <= s <= 22.
Proof.
  do 23 (destruct s as [|s]; [cbn; split; [intros (n & H); try discriminate; lia
                                          | intros H; try lia; eauto]|]).
  cbn. split; [intros (n & H); discriminate | lia].
Qed.

Lemma stage_name_lower s n :
  stage_name s = Some n -> stage_from_lower_case_name (map ascii_lower n) = Some s.
Proof.
  intros H.
  do 23 (destruct s as [|s]; [cbn in H; try discriminate; injection H as <-; vm_compute; reflexivity|]).
  discriminate.
Qed.

Lemma from_lower_case_name_sound t s :
  stage_from_lower_case_name t = Some s ->
  exists n, stage_name s = Some n /\ t = map ascii_lower n.
Proof.
  unfold stage_from_lower_case_name. intros H.
  destruct (find _ _) as [[u s']|] eqn:E; [|discriminate]. injection H as <-.
  apply find_some in E as [Hin Heq]. cbn [fst snd] in *. apply str_eqb_eq in Heq as ->.
  unfold lower_case_stage_arms in Hin. cbn [In] in Hin.
  repeat (destruct Hin as [[= <- <-] | Hin]; [eexists; split; [reflexivity | vm_compute; reflexivity]|]).
  destruct Hin.
Qed.

Lemma stage_name_inj s1 s2 n : stage_name s1 = Some n -> stage_name s2 = Some n -> s1 = s2.
Proof. intros H1 H2. apply stage_name_lower in H1, H2. congruence. Qed.
