(** Facts for C144: the fewest swaps that turn a row into rounds, and the comparisons of the test for a palindrome. *)
From Verif Require Import Base Spec SpecCycle ListFacts Bell Stage Parity Row RowFacts MulFacts ParityFacts CycleFacts EndFacts CostFacts Class Steps2.
Local Open Scope list_scope.

(** ** Colours which the row respects *)

Lemma colour_follow r (c : nat -> nat) : valid_row r -> (forall p, p < length r -> c (nth p r 0) = c p) ->
  forall k x, x < length r -> c (follow r k x) = c x.
Proof.
  intros V C k. induction k as [|k IH]; intros x X; auto. cbn [follow]. rewrite C; auto.
  clear -V X. induction k as [|k IH]; auto. cbn [follow]. apply valid_row_nth_lt; auto.
Qed.

Lemma filter_one {A} (f : A -> nat) (v : nat) (l : list A) : NoDup (map f l) ->
  length l <= S (length (filter (fun x => negb (f x =? v)) l)).
Proof.
  induction l as [|a l IH]; intros N; [cbn; lia|]. cbn [map] in N. inversion N as [|? ? A1 A2]; subst.
  cbn [filter]. destruct (Nat.eqb_spec (f a) v) as [E|E]; cbn [negb length].
  - assert (H : filter (fun x => negb (f x =? v)) l = l); [|rewrite H; auto].
    clear IH N A2. induction l as [|b l IH]; auto. cbn [filter]. destruct (Nat.eqb_spec (f b) v) as [E'|E'].
    + exfalso. apply A1. cbn. left. congruence.
    + cbn [negb]. f_equal. apply IH. intros I. apply A1. cbn. auto.
  - specialize (IH A2). lia.
Qed.

Lemma NoDup_map_filter {A} (f : A -> nat) p l : NoDup (map f l) -> NoDup (map f (filter p l)).
Proof.
  induction l as [|a l IH]; cbn [map filter]; auto. intros N. inversion N as [|? ? A1 A2]; subst. destruct (p a); auto.
  cbn [map]. constructor; auto. intros I. apply A1. apply in_map_iff in I as (x & X & I). apply filter_In in I. apply in_map_iff. exists x. tauto.
Qed.

Lemma swaps_colour r k t : swaps_to r k t -> t = row_rounds (length t) ->
  exists (c : nat -> nat) l, (forall p, p < length r -> c (nth p r 0) = c p) /\ (forall x, In x l -> x < length r) /\
    NoDup (map c l) /\ length r <= length l + k.
Proof.
  induction 1 as [r|r i j s n t D Sw H IH]; intros E.
  - exists (fun x => x), (seq 0 (length r)). splits.
    + intros p P. rewrite E, rounds_seq, seq_nth; auto.
    + intros x X. apply in_seq in X. lia.
    + rewrite map_id. apply seq_NoDup.
    + rewrite seq_length. lia.
  - destruct (IH E) as (c & l & C & R & N & L). destruct Sw as (I & J & Ls & Ei & Ej & Eo).
    rewrite Ls in *.
    assert (Ni : nth i r 0 = nth j s 0). { symmetry. rewrite <- (nth_default_eq j s 0), <- (nth_default_eq i r 0). unfold nth_default. rewrite Ej. reflexivity. }
    assert (Nj : nth j r 0 = nth i s 0). { rewrite <- (nth_default_eq i s 0), <- (nth_default_eq j r 0). unfold nth_default. rewrite Ei. reflexivity. }
    assert (No : forall p, p <> i -> p <> j -> nth p r 0 = nth p s 0).
    { intros p P1 P2. rewrite <- (nth_default_eq p s 0), <- (nth_default_eq p r 0). unfold nth_default. rewrite Eo; auto. }
    set (m := fun x => if x =? c j then c i else x).
    assert (Mi : m (c i) = c i). { unfold m. destruct (c i =? c j); auto. }
    assert (Mj : m (c j) = c i). { unfold m. rewrite Nat.eqb_refl. auto. }
    exists (fun x => m (c x)), (filter (fun x => negb (c x =? c j)) l). splits.
    + intros p P. destruct (Nat.eq_dec p i) as [->|Pi]; [rewrite Ni, C, Mj by auto; auto|].
      destruct (Nat.eq_dec p j) as [->|Pj]; [rewrite Nj, C, Mi by auto; auto|].
      rewrite No, C; auto.
    + intros x X. apply filter_In in X as [X _]. auto.
    + replace (map (fun x => m (c x)) (filter (fun x => negb (c x =? c j)) l)) with (map c (filter (fun x => negb (c x =? c j)) l)).
      * apply NoDup_map_filter; auto.
      * apply map_ext_in. intros x X. apply filter_In in X as [_ X]. unfold m. destruct (c x =? c j); auto. discriminate.
    + pose proof (filter_one c (c j) l N). lia.
Qed.

Lemma fewest r reps k : valid_row r -> one_of_each_cycle r reps -> swaps_to r k (row_rounds (length r)) ->
  length r - length reps <= k.
Proof.
  intros V (_ & R & C & _) H. apply swaps_colour in H; [|rewrite !rounds_seq, seq_length; auto].
  destruct H as (c & l & Cc & Rl & N & L).
  assert (length l <= length reps); [|lia]. rewrite <- (map_length c l), <- (map_length c reps).
  apply NoDup_incl_length; auto. intros y Y. apply in_map_iff in Y as (x & <- & X).
  destruct (C x (Rl x X)) as (z & Z & q & Q). apply in_map_iff. exists z. split; auto. rewrite <- Q. symmetry. apply colour_follow; auto.
Qed.

(** ** The swaps of the loop *)

Lemma parity_swaps m : forall r i n reps, valid_row r -> i <= length r -> (forall k, k < i -> nth k r 0 = k) -> one_of_each_cycle r reps ->
  m = (length r - i) + (length r - length reps) ->
  parity_loop (S m) r i n = Ret (row_rounds (length r), n + (length r - length reps)).
Proof.
  induction m as [|m IH]; intros r i n reps V Hi Home O Em; pose proof (reps_le r reps O) as Le.
  - assert (i = length r) as -> by lia.
    cbn [parity_loop]. rewrite valid_row_stage by auto. cbn [bind]. rewrite Nat.ltb_irrefl. f_equal. f_equal; [|lia].
    rewrite rounds_seq. apply (nth_ext _ _ 0 0); [rewrite seq_length; auto|]. intros x X. rewrite seq_nth by auto. auto.
  - assert (Hlt : i < length r).
    { destruct (Nat.eq_dec i (length r)) as [->|]; [|lia]. exfalso.
      assert (E : r = seq 0 (length r)).
      { apply (nth_ext _ _ 0 0); [rewrite seq_length; auto|]. intros x X. rewrite seq_nth by auto. auto. }
      assert (L : length r <= length reps).
      { rewrite <- (seq_length (length r) 0) at 1. apply NoDup_incl_length; [apply seq_NoDup|].
        intros x X. apply in_seq in X. destruct O as (_ & R & C & _). destruct (C x ltac:(lia)) as (y & Y & k & S').
        assert (F : forall k, follow r k y = y).
        { induction k0 as [|k0 IHk]; auto. cbn. rewrite IHk, E, seq_nth; auto. }
        rewrite F in S'. subst. auto. }
      lia. }
    assert (St : parity_loop (S (S m)) r i n =
               if nth i r 0 =? i then parity_loop (S m) r (S i) n else parity_loop (S m) (skip r i (nth i r 0)) i (S n)).
    { cbn [parity_loop]. rewrite valid_row_stage by auto. cbn [bind]. rewrite (proj2 (Nat.ltb_lt _ _) Hlt).
      rewrite (idx_ret 0) by auto. cbn [bind]. destruct (Nat.eqb_spec (nth i r 0) i) as [E|E]; auto.
      assert (Hc : nth i r 0 < length r) by (apply valid_row_nth_lt; auto).
      rewrite row_swap_ok by auto. cbn [bind].
      replace (skip r i (nth i r 0)) with (upd (upd r i (nth (nth i r 0) r 0)) (nth i r 0) (nth i r 0)); auto.
      apply (nth_ext _ _ 0 0); [rewrite length_skip, !length_upd; auto|]. intros x X. rewrite !length_upd in X.
      rewrite nth_skip by auto. destruct (Nat.eqb_spec x (nth i r 0)) as [->|D].
      - rewrite nth_upd_same; auto. rewrite length_upd; auto.
      - rewrite nth_upd_other by auto. destruct (Nat.eqb_spec x i) as [->|D2]; [apply nth_upd_same; auto|apply nth_upd_other; auto]. }
    rewrite St. destruct (Nat.eqb_spec (nth i r 0) i) as [E|E].
    + apply IH; auto; [|lia].
      intros k Hk. destruct (Nat.eq_dec k i) as [->|]; auto. apply Home; lia.
    + set (j := nth i r 0) in *. destruct (skip_reps r i j V Hlt eq_refl E reps O) as (reps' & O' & L').
      pose proof (skip_valid r i j V Hlt eq_refl E) as V'. pose proof (reps_le _ _ O') as Le'. rewrite length_skip in Le'.
      rewrite (IH (skip r i j) i (S n) reps'); auto; rewrite ?length_skip; auto; [f_equal; f_equal; lia| |lia].
      intros k Hk. rewrite nth_skip by lia. assert (k <> i) by lia. destruct (Nat.eqb_spec k j) as [->|]; auto.
      destruct (Nat.eqb_spec k i); [lia|]. apply Home; auto.
Qed.

(** ** The comparisons of the test for a palindrome *)

Lemma c_all_eq_ok path : forall turned, length path <= length turned ->
  fst (c_all_eq turned path) = list_eqb (firstn (length path) turned) path /\
  snd (c_all_eq turned path) <= length path /\ (fst (c_all_eq turned path) = true -> snd (c_all_eq turned path) = length path).
Proof.
  induction path as [|p path IH]; intros [|q turned] L; cbn [length] in L; try lia; cbn [c_all_eq firstn length fst snd]; auto.
  destruct (IH turned ltac:(lia)) as (A & B & C). change (list_eqb (q :: firstn (length path) turned) (p :: path)) with ((q =? p) && list_eqb (firstn (length path) turned) path).
  destruct (q =? p); cbn [andb]; [|cbn; splits; auto; try lia; discriminate].
  destruct (c_all_eq turned path) as [ok n]. cbn [fst snd] in *. splits; auto; lia.
Qed.

Lemma c_try_ok path is : (forall i, In i is -> i < length path) ->
  fst (c_try_rotations path is) = existsb (fun i => list_eqb (firstn (length path) (skipn i (rev path ++ rev path))) path) is /\
  snd (c_try_rotations path is) <= length is * length path.
Proof.
  induction is as [|i is IH]; intros H; cbn [c_try_rotations existsb length]; [cbn; auto|].
  assert (I : i < length path) by (apply H; left; auto).
  destruct (c_all_eq_ok path (skipn i (rev path ++ rev path))) as (A & B & _).
  { rewrite skipn_length, app_length, rev_length. lia. }
  destruct IH as [C D]; [intros x X; apply H; right; auto|].
  rewrite <- A, <- C. destruct (c_all_eq _ path) as [ok n]. cbn [fst snd] in *. destruct ok; cbn [fst snd orb]; [split; auto; lia|].
  destruct (c_try_rotations path is) as [ok' n']. cbn [fst snd] in *. split; auto. lia.
Qed.
