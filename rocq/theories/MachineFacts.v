(** Facts about arithmetic on machine words. *)
From Verif Require Import Base Bell Stage Row Utils SameStageVec Block PlaceNot Mask Class Method Program Machine
  Spec SpecVec SpecProg SpecMachine ListFacts BellFacts RowFacts SsvFacts BlockFacts SafeFacts SafeFacts2.
Local Open Scope list_scope.

Section Build.
Context (bd : build).
Notation w := (width bd).

(** [m] is [m'] if [F] holds; with overflow checks it is [m'] or a panic, whatever holds. *)
Definition ref {A} (F : Prop) (m m' : exec A) : Prop :=
  (F -> m = m') /\ (checked bd = true -> m = Panic \/ m = m').

Lemma ref_refl {A} (F : Prop) (m : exec A) : ref F m m.
Proof. split; auto. Qed.

Lemma ref_bind {A B} (F : Prop) (m m' : exec A) (f f' : A -> exec B) :
  ref F m m' -> (forall a, m' = Ret a -> ref F (f a) (f' a)) -> ref F (bind m f) (bind m' f').
Proof.
  intros [H1 H2] G. split.
  - intros HF. rewrite (H1 HF). destruct m' as [a| | |]; cbn; auto. apply (G a); auto.
  - intros HC. destruct (H2 HC) as [->| ->]; cbn; auto. destruct m' as [a| | |]; cbn; auto. apply (G a); auto.
Qed.

Lemma ref_word (F : Prop) n : (F -> (n < 2 ^ w)%N) -> ref F (word bd n) (Ret n).
Proof.
  intros H. unfold word, ref. destruct (N.ltb_spec n (2 ^ w)) as [L|L]; split; auto.
  - intros HF. specialize (H HF). lia.
  - intros ->. auto.
Qed.

Lemma slice_get_nat {A} (l : list A) a b :
  slice_get l (N.of_nat a) (N.of_nat b) = if (a <=? b) && (b <=? length l) then Some (firstn (b - a) (skipn a l)) else None.
Proof.
  unfold slice_get.
  replace (N.of_nat a <=? N.of_nat b)%N with (a <=? b) by (destruct (Nat.leb_spec a b), (N.leb_spec (N.of_nat a) (N.of_nat b)); auto; lia).
  replace (N.of_nat b <=? N.of_nat (length l))%N with (b <=? length l)
    by (destruct (Nat.leb_spec b (length l)), (N.leb_spec (N.of_nat b) (N.of_nat (length l))); auto; lia).
  destruct ((a <=? b) && (b <=? length l)); auto.
  replace (N.to_nat (N.of_nat b - N.of_nat a)) with (b - a) by lia. rewrite Nat2N.id. reflexivity.
Qed.

(** Moves [N.of_nat] outwards. *)
Ltac nats := repeat first [rewrite <- Nat2N.inj_mul | rewrite <- Nat2N.inj_add | rewrite Nat2N.id
                          | change 1%N with (N.of_nat 1) | change 0%N with (N.of_nat 0)].

Definition nat_pair (p : nat * nat) : N * N := (N.of_nat (fst p), N.of_nat (snd p)).

(** Takes a [word] off the left-hand side; leaves what has to fit. *)
Ltac wstep := match goal with
  | |- ref ?F (bind (word bd ?n) _) ?r =>
      change r with (bind (Ret n) (fun _ => r)); apply ref_bind; [apply ref_word|intros ? [= <-]]
  end.

Lemma ref_range (F : Prop) v i : (F -> (N.of_nat ((i + 1) * ssv_stage v) < 2 ^ w)%N /\ 0 < ssv_stage v) ->
  ref F (m_range_of_row bd v (N.of_nat i)) (Ret (nat_pair (get_range_of_row v i))).
Proof.
  intros H. unfold m_range_of_row, get_range_of_row. wstep; [intros HF; specialize (H HF); nia|].
  wstep; [intros HF; specialize (H HF); nia|]. wstep; [intros HF; specialize (H HF); nia|].
  unfold nat_pair; cbn [fst snd]. nats. apply ref_refl.
Qed.

Lemma ref_get (F : Prop) v i : (F -> (N.of_nat ((i + 1) * ssv_stage v) < 2 ^ w)%N /\ 0 < ssv_stage v) ->
  ref F (m_ssv_get bd v (N.of_nat i)) (Ret (ssv_get v i)).
Proof.
  intros H. unfold m_ssv_get, ssv_get.
  match goal with |- ref _ _ ?r => change r with (bind (Ret (nat_pair (get_range_of_row v i))) (fun _ => r)) end.
  apply ref_bind; [apply ref_range; auto|]. intros a [= <-]. cbn [nat_pair fst snd get_range_of_row].
  unfold nat_pair, get_range_of_row. cbn [fst snd].
  rewrite slice_get_nat. replace (i * ssv_stage v <=? (i + 1) * ssv_stage v) with true by (symmetry; apply Nat.leb_le; nia).
  cbn [andb]. apply ref_refl.
Qed.

Lemma ref_edit (F : Prop) v i f : (F -> (N.of_nat ((i + 1) * ssv_stage v) < 2 ^ w)%N /\ 0 < ssv_stage v) ->
  ref F (m_ssv_edit bd v (N.of_nat i) f) (ssv_edit v i f).
Proof.
  intros H. unfold m_ssv_edit, ssv_edit, ssv_get.
  match goal with |- ref _ _ ?r => change r with (bind (Ret (nat_pair (get_range_of_row v i))) (fun _ => r)) end.
  apply ref_bind; [apply ref_range; auto|]. intros a [= <-]. unfold nat_pair, get_range_of_row. cbn [fst snd].
  rewrite slice_get_nat. replace (i * ssv_stage v <=? (i + 1) * ssv_stage v) with true by (symmetry; apply Nat.leb_le; nia).
  cbn [andb]. rewrite !Nat2N.id. destruct (_ <=? _); apply ref_refl.
Qed.

Lemma ref_index (F : Prop) v i : (F -> (N.of_nat ((i + 1) * ssv_stage v) < 2 ^ w)%N /\ 0 < ssv_stage v) ->
  ref F (m_ssv_index bd v (N.of_nat i)) (ssv_index v i).
Proof.
  intros H. unfold m_ssv_index, ssv_index, slice.
  match goal with |- ref _ _ ?r => change r with (bind (Ret (nat_pair (get_range_of_row v i))) (fun _ => r)) end.
  apply ref_bind; [apply ref_range; auto|]. intros a [= <-]. unfold nat_pair, get_range_of_row. cbn [fst snd].
  rewrite slice_get_nat. destruct (_ && _); apply ref_refl.
Qed.

Lemma ref_split (F : Prop) v i : (F -> (N.of_nat (i * ssv_stage v) < 2 ^ w)%N) ->
  ref F (m_ssv_split bd v (N.of_nat i)) (Ret (ssv_split v i)).
Proof.
  intros H. unfold m_ssv_split, ssv_split, split_vec. wstep; [intros HF; specialize (H HF); lia|]. nats.
  replace (N.of_nat (length (ssv_bells v)) <? N.of_nat (i * ssv_stage v))%N with (length (ssv_bells v) <? i * ssv_stage v)
    by (destruct (Nat.ltb_spec (length (ssv_bells v)) (i * ssv_stage v)),
          (N.ltb_spec (N.of_nat (length (ssv_bells v))) (N.of_nat (i * ssv_stage v))); auto; lia).
  destruct (_ <? _); apply ref_refl.
Qed.

(** What has to fit for a range. *)
Definition lo_fits (k : nat) (b : bound) : Prop :=
  match b with Included n => (N.of_nat (n * k) < 2 ^ w)%N | Excluded n => (N.of_nat ((n + 1) * k) < 2 ^ w)%N | Unbounded => True end.
Definition hi_fits (k : nat) (b : bound) : Prop :=
  match b with Included n => (N.of_nat ((n + 1) * k) < 2 ^ w)%N | Excluded n => (N.of_nat (n * k) < 2 ^ w)%N | Unbounded => True end.

Lemma ref_clamp (F : Prop) lo hi n : (F -> lo_fits 1 lo /\ hi_fits 1 hi) ->
  ref F (m_clamp_range bd (to_bound lo) (to_bound hi) (N.of_nat n)) (Ret (nat_pair (clamp_range lo hi n))).
Proof.
  intros H. unfold m_clamp_range, clamp_range, nat_pair. cbn [fst snd].
  assert (R : forall b d, ((F -> lo_fits 1 b) ->
    ref F (match to_bound b with MIncluded v => Ret v | MExcluded v => word bd (v + 1) | MUnbounded => Ret (N.of_nat d) end)
          (Ret (N.of_nat (match b with Included v => v | Excluded v => v + 1 | Unbounded => d end)))) /\
    ((F -> hi_fits 1 b) -> ref F (match to_bound b with MIncluded v => word bd (v + 1) | MExcluded v => Ret v | MUnbounded => Ret (N.of_nat d) end)
          (Ret (N.of_nat (match b with Included v => v + 1 | Excluded v => v | Unbounded => d end))))).
  { intros b d. destruct b as [v|v|]; cbn; split; intros Hb; try apply ref_refl;
      rewrite Nat2N.inj_add; apply ref_word; intros HF; specialize (Hb HF); cbn in Hb; lia. }
  match goal with |- ref _ _ (Ret (N.of_nat ?x, N.of_nat ?y)) =>
    change (Ret (N.of_nat x, N.of_nat y)) with (bind (Ret (N.of_nat x)) (fun a => bind (Ret (N.of_nat y)) (fun b => Ret (a, b)))) end.
  apply ref_bind.
  - change 0%N with (N.of_nat 0). apply (R lo 0). intros HF. apply H; auto.
  - intros a _. apply ref_bind; [|intros b _; apply ref_refl]. apply (R hi n). intros HF; apply H; auto.
Qed.

Lemma ref_len (F : Prop) v : (F -> okv v) ->
  ref F (m_ssv_len bd v) (n <- ssv_len v;; Ret (N.of_nat n)).
Proof.
  intros H. unfold m_ssv_len. split.
  - intros HF. destruct (H HF) as [rs R]. rewrite (ssv_len_ok _ _ _ R). cbn [bind].
    destruct (Nat.eqb_spec (ssv_stage v) 0) as [E|E]; [destruct R as (R & _); lia|].
    pose proof (rep_length _ _ _ R) as L. rewrite L, Nat.mod_mul, Nat.div_mul by auto.
    destruct (checked bd); reflexivity.
  - intros ->. right. unfold ssv_len. destruct (_ =? 0); auto. destruct (assert_ _); reflexivity.
Qed.

Lemma okv_len_stage v n : okv v -> ssv_len v = Ret n -> n * ssv_stage v = length (ssv_bells v).
Proof. intros [rs R] E. rewrite (ssv_len_ok _ _ _ R) in E. injection E as <-. symmetry. apply (rep_length _ _ _ R). Qed.

Lemma ref_bell_range (F : Prop) v lo hi :
  (F -> okv v /\ (N.of_nat (length (ssv_bells v)) < 2 ^ w)%N /\ lo_fits (ssv_stage v) lo /\ hi_fits (ssv_stage v) hi) ->
  ref F (m_to_bell_range bd v (to_bound lo) (to_bound hi)) (p <- to_bell_range v lo hi;; Ret (nat_pair p)).
Proof.
  intros H. unfold m_to_bell_range, to_bell_range.
  destruct (ssv_len v) as [n| | |] eqn:E.
  2-4: cbn [bind]; split; [intros HF; destruct (proj1 (H HF)) as [rs R]; rewrite (ssv_len_ok _ _ _ R) in E; discriminate|];
    intros HC; destruct (proj2 (ref_len False v ltac:(tauto)) HC) as [L|L]; rewrite L; [left; reflexivity|rewrite E; auto].
  cbn [bind].
  replace (let (a, b) := clamp_range lo hi n in Ret (a * ssv_stage v, b * ssv_stage v))
    with (Ret (fst (clamp_range lo hi n) * ssv_stage v, snd (clamp_range lo hi n) * ssv_stage v))
    by (destruct (clamp_range lo hi n); reflexivity). cbn [bind].
  match goal with |- ref _ _ ?r => change r with (bind (Ret (N.of_nat n)) (fun _ => r)) end.
  apply ref_bind. { replace (Ret (N.of_nat n)) with (n <- ssv_len v;; Ret (N.of_nat n)) by (rewrite E; reflexivity). apply ref_len. intros HF; apply H; auto. }
  intros a [= <-].
  match goal with |- ref _ _ ?r => change r with (bind (Ret (nat_pair (clamp_range lo hi n))) (fun _ => r)) end.
  apply ref_bind.
  { apply ref_clamp. intros HF. destruct (H HF) as (V & _ & B1 & B2). pose proof (okv_pos _ V).
    split; [destruct lo|destruct hi]; cbn in *; auto; nia. }
  intros a [= <-]. unfold nat_pair at 1. cbn [fst snd].
  assert (G : F -> (N.of_nat (fst (clamp_range lo hi n) * ssv_stage v) < 2 ^ w)%N /\ (N.of_nat (snd (clamp_range lo hi n) * ssv_stage v) < 2 ^ w)%N).
  { intros HF. destruct (H HF) as (V & M & B1 & B2). pose proof (okv_pos _ V). pose proof (okv_len_stage _ _ V E) as L.
    unfold clamp_range; cbn [fst snd]. split; [destruct lo|destruct hi]; cbn in *; try nia. }
  wstep; [intros HF; destruct (G HF); lia|]. wstep; [intros HF; destruct (G HF); lia|].
  unfold nat_pair; cbn [fst snd]. nats. apply ref_refl.
Qed.

Lemma ref_extend_range (F : Prop) v t other lo hi :
  (F -> okv other /\ (N.of_nat (length (ssv_bells other)) < 2 ^ w)%N /\ lo_fits (ssv_stage other) lo /\ hi_fits (ssv_stage other) hi) ->
  ref F (m_ssv_extend_range_transposed bd v t other (to_bound lo) (to_bound hi)) (ssv_extend_range_transposed v t other lo hi).
Proof.
  intros H. unfold m_ssv_extend_range_transposed, ssv_extend_range_transposed.
  apply ref_bind; [apply ref_refl|]. intros s _. destruct (test_err _ _) as [u|e]; [|apply ref_refl].
  replace (bind (to_bell_range other lo hi) _) with
    (q <- (p <- to_bell_range other lo hi;; Ret (nat_pair p));;
     src <- slice (ssv_bells other) (N.to_nat (fst q)) (N.to_nat (snd q));;
     new <- mapM (fun x => idx t x) src;; Ret (Ssv (ssv_bells v ++ new) (ssv_stage v), @Ok unit incompatible_stages tt)).
  2:{ destruct (to_bell_range other lo hi) as [[a b]| | |]; cbn [bind]; auto. unfold nat_pair; cbn [fst snd]. rewrite !Nat2N.id. reflexivity. }
  apply ref_bind; [apply ref_bell_range; auto|]. intros q Eq.
  destruct (to_bell_range other lo hi) as [[a b]| | |]; try discriminate. injection Eq as <-. unfold nat_pair; cbn [fst snd].
  rewrite slice_get_nat, !Nat2N.id. unfold slice. destruct (_ && _); cbn [unwrap]; apply ref_refl.
Qed.

Lemma ref_from_within (F : Prop) v t lo hi :
  (F -> okv v /\ (N.of_nat (length (ssv_bells v)) < 2 ^ w)%N /\ lo_fits (ssv_stage v) lo /\ hi_fits (ssv_stage v) hi) ->
  ref F (m_ssv_extend_transposed_from_within bd v (to_bound lo) (to_bound hi) t) (ssv_extend_transposed_from_within v lo hi t).
Proof.
  intros H. unfold m_ssv_extend_transposed_from_within, ssv_extend_transposed_from_within.
  apply ref_bind; [apply ref_refl|]. intros s _. destruct (test_err _ _) as [u|e]; [|apply ref_refl].
  replace (bind (to_bell_range v lo hi) _) with
    (q <- (p <- to_bell_range v lo hi;; Ret (nat_pair p));;
     bells <- foldM (fun bells i => x <- idx bells i;; y <- idx t x;; Ret (bells ++ [y]))
                     (range (N.to_nat (fst q)) (N.to_nat (snd q))) (ssv_bells v);;
     Ret (Ssv bells (ssv_stage v), @Ok unit incompatible_stages tt)).
  2:{ destruct (to_bell_range v lo hi) as [[a b]| | |]; cbn [bind]; auto. unfold nat_pair; cbn [fst snd]. rewrite !Nat2N.id. reflexivity. }
  apply ref_bind; [apply ref_bell_range; auto|]. intros [a b] Eq. apply ref_refl.
Qed.

(** ** Blocks *)

Lemma ref_unwrap_get (F : Prop) v i : (F -> (N.of_nat ((i + 1) * ssv_stage v) < 2 ^ w)%N /\ 0 < ssv_stage v) ->
  ref F (o <- m_ssv_get bd v (N.of_nat i);; unwrap o) (unwrap (ssv_get v i)).
Proof.
  intros H. change (unwrap (ssv_get v i)) with (o <- Ret (ssv_get v i);; unwrap o). apply ref_bind; [apply ref_get; auto|].
  intros a _. apply ref_refl.
Qed.

Lemma bind_bind {A B C} (m : exec A) (f : A -> exec B) (g : B -> exec C) :
  (b <- (a <- m;; f a);; g b) = (a <- m;; b <- f a;; g b).
Proof. destruct m; reflexivity. Qed.

(** The ends of a range of rows of a buffer which fit. *)
Definition range_fits (v : ssv) (n : nat) (lo hi : bound) : Prop :=
  (forall i, In i (end_values lo ++ end_values hi) -> ((N.of_nat i + 2) * N.of_nat (ssv_stage v) < 2 ^ w)%N) /\
  (N.of_nat ((n + 1) * ssv_stage v) < 2 ^ w)%N.

Lemma range_fits_lo v n lo hi : range_fits v n lo hi -> 0 < ssv_stage v -> lo_fits 1 lo /\ lo_fits (ssv_stage v) lo.
Proof.
  intros [H _] P. destruct lo as [x|x|]; cbn in *; auto; specialize (H x (or_introl eq_refl)); split; nia.
Qed.
Lemma range_fits_hi v n lo hi : range_fits v n lo hi -> 0 < ssv_stage v -> hi_fits 1 hi /\ hi_fits (ssv_stage v) hi.
Proof.
  intros [H _] P. assert (forall i, In i (end_values hi) -> ((N.of_nat i + 2) * N.of_nat (ssv_stage v) < 2 ^ w)%N) as H'
    by (intros; apply H, in_or_app; auto).
  destruct hi as [x|x|]; cbn in *; auto; specialize (H' x (or_introl eq_refl)); split; nia.
Qed.
Lemma range_fits_start v n lo hi : range_fits v n lo hi ->
  (N.of_nat ((fst (clamp_range lo hi n) + 1) * ssv_stage v) < 2 ^ w)%N.
Proof.
  intros [H1 H2]. unfold clamp_range; cbn [fst]. destruct lo as [x|x|]; cbn in *;
    [specialize (H1 x (or_introl eq_refl))| specialize (H1 x (or_introl eq_refl))|]; nia.
Qed.
Lemma range_fits_end v n lo hi : range_fits v n lo hi ->
  (N.of_nat ((snd (clamp_range lo hi n) + 1) * ssv_stage v) < 2 ^ w)%N.
Proof.
  intros [H1 H2]. assert (forall i, In i (end_values hi) -> ((N.of_nat i + 2) * N.of_nat (ssv_stage v) < 2 ^ w)%N) as H'
    by (intros; apply H1, in_or_app; auto).
  unfold clamp_range; cbn [snd]. destruct hi as [x|x|]; cbn in *; [specialize (H' x (or_introl eq_refl))|specialize (H' x (or_introl eq_refl))|]; nia.
Qed.

Section Blk.
Context {A : Type}.

Lemma ref_block_extend_range (F : Prop) (b other : block A) lo hi :
  (F -> okv (blk_rows other) /\ (N.of_nat (length (ssv_bells (blk_rows other))) < 2 ^ w)%N /\
        range_fits (blk_rows other) (block_len other) lo hi) ->
  ref F (m_block_extend_range bd b other (to_bound lo) (to_bound hi)) (block_extend_range b other lo hi).
Proof.
  intros H. unfold m_block_extend_range, block_extend_range, m_block_get_row, block_get_row.
  destruct (clamp_range lo hi (block_len other)) as [start end_] eqn:E.
  match goal with |- ref _ _ ?r => change r with (bind (Ret (nat_pair (start, end_))) (fun _ => r)) end.
  apply ref_bind.
  { rewrite <- E. apply ref_clamp. intros HF. destruct (H HF) as (V & _ & R). pose proof (okv_pos _ V).
    split; [eapply range_fits_lo|eapply range_fits_hi]; eauto. }
  intros a [= <-]. unfold nat_pair; cbn [fst snd]. rewrite <- bind_bind.
  apply ref_bind.
  { apply ref_unwrap_get. intros HF. destruct (H HF) as (V & _ & R). split; [|apply okv_pos; auto].
    apply range_fits_start in R. rewrite E in R. exact R. }
  intros first _. apply ref_bind; [apply ref_refl|]. intros leftover _. apply ref_bind; [apply ref_refl|]. intros t _.
  destruct t as [t|e]; [|apply ref_refl]. apply ref_bind; [apply ref_refl|]. intros [rows o] _.
  assert (G : F -> (N.of_nat ((end_ + 1) * ssv_stage (blk_rows other)) < 2 ^ w)%N /\ (N.of_nat ((start + 1) * ssv_stage (blk_rows other)) < 2 ^ w)%N /\ 0 < ssv_stage (blk_rows other)).
  { intros HF. destruct (H HF) as (V & _ & R). pose proof (range_fits_start _ _ _ _ R) as S1. apply range_fits_end in R. rewrite E in R, S1.
    split; [|split]; auto. apply okv_pos; auto. }
  wstep; [intros HF; destruct (G HF) as (? & ? & ?); nia|].
  change (MIncluded (N.of_nat start)) with (to_bound (Included start)).
  replace (MExcluded (N.of_nat end_ + 1)) with (to_bound (Excluded (end_ + 1))) by (cbn; f_equal; lia).
  apply ref_bind; [|intros; apply ref_refl]. apply ref_extend_range. intros HF. destruct (H HF) as (V & M & _).
  split; [auto|split; [auto|]]. destruct (G HF) as (? & ? & ?). cbn. split; nia.
Qed.

Lemma ref_block_from_within (F : Prop) (b : block A) lo hi :
  (F -> okv (blk_rows b) /\ (N.of_nat (length (ssv_bells (blk_rows b))) < 2 ^ w)%N /\
        range_fits (blk_rows b) (block_len b) lo hi) ->
  ref F (m_block_extend_from_within bd b (to_bound lo) (to_bound hi)) (block_extend_from_within b lo hi).
Proof.
  intros H. unfold m_block_extend_from_within, block_extend_from_within, m_block_get_row, block_get_row.
  destruct (clamp_range lo hi (block_len b)) as [start end_] eqn:E.
  match goal with |- ref _ _ ?r => change r with (bind (Ret (nat_pair (start, end_))) (fun _ => r)) end.
  apply ref_bind.
  { rewrite <- E. apply ref_clamp. intros HF. destruct (H HF) as (V & _ & R). pose proof (okv_pos _ V).
    split; [eapply range_fits_lo|eapply range_fits_hi]; eauto. }
  intros a [= <-]. unfold nat_pair; cbn [fst snd]. rewrite <- bind_bind.
  apply ref_bind.
  { apply ref_unwrap_get. intros HF. destruct (H HF) as (V & _ & R). split; [|apply okv_pos; auto].
    apply range_fits_start in R. rewrite E in R. exact R. }
  intros first _. apply ref_bind; [apply ref_refl|]. intros leftover _. apply ref_bind; [apply ref_refl|]. intros t _.
  apply ref_bind; [apply ref_refl|]. intros t' _.
  assert (G : F -> (N.of_nat ((end_ + 1) * ssv_stage (blk_rows b)) < 2 ^ w)%N /\ (N.of_nat ((start + 1) * ssv_stage (blk_rows b)) < 2 ^ w)%N /\ 0 < ssv_stage (blk_rows b)).
  { intros HF. destruct (H HF) as (V & _ & R). pose proof (range_fits_start _ _ _ _ R) as S1. apply range_fits_end in R. rewrite E in R, S1.
    split; [|split]; auto. apply okv_pos; auto. }
  wstep; [intros HF; destruct (G HF) as (? & ? & ?); nia|].
  wstep; [intros HF; destruct (G HF) as (? & ? & ?); nia|].
  replace (MIncluded (N.of_nat start + 1)) with (to_bound (Included (start + 1))) by (cbn; f_equal; lia).
  replace (MExcluded (N.of_nat end_ + 1)) with (to_bound (Excluded (end_ + 1))) by (cbn; f_equal; lia).
  apply ref_bind.
  - apply ref_from_within. intros HF. destruct (H HF) as (V & M & _).
    split; [auto|split; [auto|]]. destruct (G HF) as (? & ? & ?). cbn. split; nia.
  - intros [rows res] _. apply ref_bind; [apply ref_refl|]. intros [] _. rewrite slice_get_nat. unfold slice.
    destruct (_ && _); apply ref_refl.
Qed.
End Blk.

(** ** Powers *)

Definition isize (e : Z) : Prop := (- 2 ^ (Z.of_N w - 1) <= e < 2 ^ (Z.of_N w - 1))%Z.

Lemma half_word e : isize e -> (0 < 2 ^ (Z.of_N w - 1) /\ 2 ^ Z.of_N w = 2 * 2 ^ (Z.of_N w - 1))%Z.
Proof.
  unfold isize. intros H. destruct (Z.eq_dec (Z.of_N w) 0) as [E|E]; [rewrite E in H; cbn in H; lia|].
  split; [apply Z.pow_pos_nonneg; lia|]. rewrite <- Z.pow_succ_r by lia. f_equal. lia.
Qed.

Lemma as_usize_small e : (0 <= e < 2 ^ Z.of_N w)%Z -> as_usize bd e = Z.to_N e.
Proof. intros H. unfold as_usize. rewrite Z.mod_small by auto. reflexivity. Qed.

Lemma pow_i_cases r e : isize e ->
  m_pow_i bd r e = pow_i r e \/
  (checked bd = true /\ e = (- 2 ^ (Z.of_N w - 1))%Z /\ m_pow_i bd r e = (ri <- row_inv r;; Panic)).
Proof.
  intros H. destruct (half_word e H) as [P1 P2]. unfold isize in H. unfold m_pow_i, pow_i.
  set (half := (2 ^ (Z.of_N w - 1))%Z) in *.
  destruct (Z.ltb_spec e 0) as [L|L].
  2:{ left. rewrite as_usize_small by lia. rewrite Z_N_nat. reflexivity. }
  unfold iword. fold half. destruct (Z.eq_dec e (- half)) as [->|Ne].
  - replace ((- half <=? - - half) && (- - half <? half))%Z with false.
    2:{ symmetry. apply andb_false_iff. right. apply Z.ltb_ge. lia. }
    destruct (checked bd); [right; auto|]. left. cbn [bind].
    replace ((- - half + half) mod (2 * half) - half)%Z with (- half)%Z
      by (replace (- - half + half)%Z with (2 * half)%Z by lia; rewrite Z.mod_same by lia; lia).
    unfold as_usize. rewrite P2. replace (- half mod (2 * half))%Z with half.
    { rewrite Z_N_nat, Z.opp_involutive. reflexivity. }
    { apply (Z.mod_unique_pos _ _ (-1)); lia. }
  - left. replace ((- half <=? - e) && (- e <? half))%Z with true.
    2:{ symmetry. apply andb_true_iff. rewrite Z.leb_le, Z.ltb_lt. lia. }
    cbn [bind]. rewrite as_usize_small by lia. rewrite Z_N_nat. reflexivity.
Qed.

Lemma ref_pow_i (F : Prop) r e : isize e -> (F -> e <> (- 2 ^ (Z.of_N w - 1))%Z) ->
  ref F (m_pow_i bd r e) (pow_i r e).
Proof.
  intros I H. destruct (pow_i_cases r e I) as [->|(C & -> & E)]; [apply ref_refl|]. split.
  - intros HF. destruct (H HF eq_refl).
  - intros _. destruct (half_word _ I) as [P _]. rewrite E. unfold pow_i.
    replace (- 2 ^ (Z.of_N w - 1) <? 0)%Z with true by (symmetry; apply Z.ltb_lt; lia).
    destruct (row_inv r); cbn [bind]; auto.
Qed.

(** ** Programs *)

Lemma fits_buffer st c v x : fits w st c -> buffer_of st v = Some x -> (N.of_nat (length (ssv_bells x)) < 2 ^ w)%N.
Proof. intros (H & _). apply H. Qed.
Lemma fits_number st c v i x : fits w st c -> In (v, i) (row_numbers c) -> buffer_of st v = Some x ->
  ((N.of_nat i + 2) * N.of_nat (ssv_stage x) < 2 ^ w)%N.
Proof. intros (_ & _ & H & _). apply H. Qed.

Lemma okst_buffer st v x : Forall okval st -> buffer_of st v = Some x -> okv x.
Proof.
  intros S E. unfold buffer_of in E. destruct (nth_error st v) as [y|] eqn:N; [|discriminate].
  assert (okval y) as K by (rewrite Forall_forall in S; apply S; eapply nth_error_In; eauto).
  destruct y; try discriminate; injection E as <-; exact K.
Qed.

Lemma ref_step ho st c : (forall i e, c = PowI i e -> isize e) ->
  ref (Forall okval st /\ fits w st c) (m_step bd ho st c) (step ho st c).
Proof.
  intros T.
  assert (B : forall v x, buffer_of st v = Some x -> Forall okval st /\ fits w st c -> okv x /\ (N.of_nat (length (ssv_bells x)) < 2 ^ w)%N).
  { intros v x E [S H]. split; [eapply okst_buffer; eauto|eapply fits_buffer; eauto]. }
  assert (G : forall v i x, buffer_of st v = Some x -> In (v, i) (row_numbers c) -> Forall okval st /\ fits w st c ->
    (N.of_nat ((i + 1) * ssv_stage x) < 2 ^ w)%N /\ 0 < ssv_stage x).
  { intros v i x E I [S H]. pose proof (fits_number _ _ _ _ _ H I E). pose proof (okv_pos _ (okst_buffer _ _ _ S E)). split; auto. nia. }
  assert (R : forall v x n lo hi, buffer_of st v = Some x -> row_numbers c = map (fun i => (v, i)) (end_values lo ++ end_values hi) ->
    (Forall okval st /\ fits w st c -> (N.of_nat ((n + 1) * ssv_stage x) < 2 ^ w)%N) ->
    Forall okval st /\ fits w st c -> range_fits x n lo hi).
  { intros v x n lo hi E I Hn [S H]. split; [|auto]. intros i Hi. eapply fits_number; eauto. rewrite I. apply in_map_iff. eauto. }
  destruct c; try apply ref_refl; cbn [m_step step].
  - (* PowI *)
    unfold with_row. destruct (nth_error st i) as [[]|]; try apply ref_refl. apply ref_bind; [|intros; apply ref_refl].
    apply ref_pow_i; [eapply T; eauto|]. intros [_ (_ & _ & _ & H)] ->. specialize (H _ _ eq_refl). lia.
  - (* ChangeRow *)
    destruct p as [i|i index|i|i]; try apply ref_refl. cbn [m_step step]. unfold with_vec.
    destruct (nth_error st i) as [[]|] eqn:E; try apply ref_refl. apply ref_bind; [|intros; apply ref_refl].
    apply ref_edit. apply (G i); [unfold buffer_of; rewrite E; auto|left; auto].
  - (* VecGet *)
    unfold with_vec. destruct (nth_error st v) as [[]|] eqn:E; try apply ref_refl.
    match goal with |- ref _ _ (push_opt st (option_map VRow (ssv_get ?x ?i))) =>
      change (push_opt st (option_map VRow (ssv_get x i))) with (o <- Ret (ssv_get x i);; push_opt st (option_map VRow o)) end.
    apply ref_bind; [|intros; apply ref_refl]. apply ref_get. apply (G v); [unfold buffer_of; rewrite E; auto|left; auto].
  - (* VecIndex *)
    unfold with_vec. destruct (nth_error st v) as [[]|] eqn:E; try apply ref_refl.
    apply ref_bind; [|intros; apply ref_refl]. apply ref_index. apply (G v); [unfold buffer_of; rewrite E; auto|left; auto].
  - (* VecExtendRangeTransposed *)
    unfold with_vec, with_row. destruct (nth_error st v) as [[]|] eqn:E; try apply ref_refl.
    destruct (nth_error st i) as [[]|] eqn:E1; try apply ref_refl.
    match goal with |- context [nth_error st ?j] => rename j into u end.
    destruct (nth_error st u) as [[]|] eqn:E2; try apply ref_refl.
    apply ref_bind; [|intros; apply ref_refl]. apply ref_extend_range. intros SF.
    assert (buffer_of st u = Some v1) as BB by (unfold buffer_of; rewrite E2; auto).
    destruct (B _ _ BB SF) as [V M]. pose proof (okv_pos _ V). split; [auto|split; [auto|]].
    assert (RF : (forall i, In i (end_values lo ++ end_values hi) -> ((N.of_nat i + 2) * N.of_nat (ssv_stage v1) < 2 ^ w)%N)).
    { intros j Hj. eapply fits_number; [apply SF| |exact BB]. cbn. apply in_map_iff. eauto. }
    split.
    + destruct lo as [x|x|]; cbn in *; auto; specialize (RF x (or_introl eq_refl)); nia.
    + assert (RF' : forall i, In i (end_values hi) -> ((N.of_nat i + 2) * N.of_nat (ssv_stage v1) < 2 ^ w)%N) by (intros; apply RF, in_or_app; auto).
      destruct hi as [x|x|]; cbn in *; auto; specialize (RF' x (or_introl eq_refl)); nia.
  - (* VecExtendFromWithin *)
    unfold with_vec, with_row. destruct (nth_error st v) as [[]|] eqn:E; try apply ref_refl.
    destruct (nth_error st i) as [[]|] eqn:E1; try apply ref_refl.
    apply ref_bind; [|intros; apply ref_refl]. apply ref_from_within. intros SF.
    assert (buffer_of st v = Some v0) as BB by (unfold buffer_of; rewrite E; auto).
    destruct (B _ _ BB SF) as [V M]. pose proof (okv_pos _ V). split; [auto|split; [auto|]].
    assert (RF : (forall i, In i (end_values lo ++ end_values hi) -> ((N.of_nat i + 2) * N.of_nat (ssv_stage v0) < 2 ^ w)%N)).
    { intros j Hj. eapply fits_number; [apply SF| |exact BB]. cbn. apply in_map_iff. eauto. }
    split.
    + destruct lo as [x|x|]; cbn in *; auto; specialize (RF x (or_introl eq_refl)); nia.
    + assert (RF' : forall i, In i (end_values hi) -> ((N.of_nat i + 2) * N.of_nat (ssv_stage v0) < 2 ^ w)%N) by (intros; apply RF, in_or_app; auto).
      destruct hi as [x|x|]; cbn in *; auto; specialize (RF' x (or_introl eq_refl)); nia.
  - (* VecSplit *)
    unfold with_vec. destruct (nth_error st v) as [[]|] eqn:E; try apply ref_refl.
    match goal with |- ref _ _ (match ssv_split ?x ?i with _ => _ end) =>
      change (match ssv_split x i with Some (a, b) => push_all st [VVec a; VVec b] | None => Ret st end)
        with (o <- Ret (ssv_split x i);; match o with Some (a, b) => push_all st [VVec a; VVec b] | None => Ret st end) end.
    apply ref_bind; [|intros; apply ref_refl]. apply ref_split. intros SF.
    destruct (G v n v0) as [K ?]; [unfold buffer_of; rewrite E; auto|left; auto|auto|]. nia.
  - (* BlockGetRow *)
    unfold with_block. destruct (nth_error st b) as [[]|] eqn:E; try apply ref_refl. unfold m_block_get_row, block_get_row.
    match goal with |- ref _ _ (push_opt st (option_map VRow (ssv_get ?x ?i))) =>
      change (push_opt st (option_map VRow (ssv_get x i))) with (o <- Ret (ssv_get x i);; push_opt st (option_map VRow o)) end.
    apply ref_bind; [|intros; apply ref_refl]. apply ref_get. apply (G b); [unfold buffer_of; rewrite E; auto|left; auto].
  - (* BlockExtendRange *)
    unfold with_block. destruct (nth_error st b) as [[]|] eqn:E; try apply ref_refl.
    destruct (nth_error st c) as [[]|] eqn:E1; try apply ref_refl.
    apply ref_bind; [|intros; apply ref_refl]. apply ref_block_extend_range. intros SF.
    assert (buffer_of st c = Some (blk_rows b1)) as BB by (unfold buffer_of; rewrite E1; auto).
    destruct (B _ _ BB SF) as [V M]. split; [auto|split; [auto|]]. apply (R c); auto.
    intros [_ (_ & Q & _)]. exact (Q _ _ E1).
  - (* BlockExtendFromWithin *)
    unfold with_block. destruct (nth_error st b) as [[]|] eqn:E; try apply ref_refl.
    apply ref_bind; [|intros; apply ref_refl]. apply ref_block_from_within. intros SF.
    assert (buffer_of st b = Some (blk_rows b0)) as BB by (unfold buffer_of; rewrite E; auto).
    destruct (B _ _ BB SF) as [V M]. split; [auto|split; [auto|]]. apply (R b); auto.
    intros [_ (_ & Q & _)]. exact (Q _ _ E).
  - (* MethodRowInLead *)
    unfold with_method. destruct (nth_error st m) as [[]|] eqn:E; try apply ref_refl.
    apply ref_bind; [|intros; apply ref_refl]. apply ref_index. apply (G m); [unfold buffer_of; rewrite E; auto|left; auto].
Qed.

Lemma run_fits ho prog : forall st, Forall okval st -> careful ho st prog -> fits_program w ho st prog ->
  m_run_from bd ho st prog = run_from ho st prog.
Proof.
  induction prog as [|c t IH]; intros st S C H; [reflexivity|]. destruct C as [C1 C2]. destruct H as [H1 H2].
  unfold m_run_from, run_from. cbn [foldM].
  assert (E : m_step bd ho st c = step ho st c).
  { apply ref_step; auto. intros i e ->. destruct H1 as (_ & _ & _ & H1). specialize (H1 _ _ eq_refl). unfold isize. lia. }
  rewrite E. pose proof (step_safe ho st c S C1) as SS. destruct (step ho st c) as [st'| | |] eqn:Es; cbn [bind]; auto.
  apply IH; auto.
Qed.

Lemma run_checked ho prog : checked bd = true -> (forall i e, In (PowI i e) prog -> isize e) -> forall st,
  m_run_from bd ho st prog = Panic \/ m_run_from bd ho st prog = run_from ho st prog.
Proof.
  intros HC. induction prog as [|c t IH]; intros T st; [right; reflexivity|].
  unfold m_run_from, run_from. cbn [foldM].
  destruct (ref_step ho st c) as [_ K]; [intros i e ->; eapply T; left; eauto|].
  destruct (K HC) as [E|E]; rewrite E; [left; reflexivity|].
  destruct (step ho st c) as [st'| | |]; cbn [bind]; auto. apply IH. intros i e I. eapply T; right; eauto.
Qed.
End Build.

(** ** Single calls *)

Section Calls.
Context (w : N).

Lemma word_ok ck n : (n < 2 ^ w)%N -> word (Build w ck) n = Ret n.
Proof. intros H. unfold word; cbn. apply N.ltb_lt in H. rewrite H. reflexivity. Qed.
Lemma word_panic n : (2 ^ w <= n)%N -> word (Build w true) n = Panic.
Proof. intros H. unfold word; cbn. apply N.ltb_ge in H. rewrite H. reflexivity. Qed.
Lemma word_wrap n : word (Build w false) n = Ret (n mod 2 ^ w)%N.
Proof. unfold word; cbn. destruct (N.ltb_spec n (2 ^ w)); auto. rewrite N.mod_small; auto. Qed.

Lemma pow_nz : (2 ^ w <> 0)%N. Proof. apply N.pow_nonzero. lia. Qed.

Lemma range_checked v i : 0 < ssv_stage v ->
  m_range_of_row (Build w true) v i =
  if ((i + 1) * N.of_nat (ssv_stage v) <? 2 ^ w)%N
  then Ret (i * N.of_nat (ssv_stage v), (i + 1) * N.of_nat (ssv_stage v))%N else Panic.
Proof.
  intros P. unfold m_range_of_row. destruct (N.ltb_spec ((i + 1) * N.of_nat (ssv_stage v)) (2 ^ w)) as [L|L].
  - rewrite word_ok by nia. cbn [bind]. rewrite word_ok by nia. cbn [bind]. rewrite word_ok by nia. reflexivity.
  - destruct (N.ltb_spec (i * N.of_nat (ssv_stage v)) (2 ^ w)).
    2:{ rewrite word_panic by auto. reflexivity. }
    rewrite word_ok by auto. cbn [bind]. destruct (N.ltb_spec (i + 1) (2 ^ w)).
    2:{ rewrite word_panic by auto. reflexivity. }
    rewrite word_ok by auto. cbn [bind]. rewrite word_panic by auto. reflexivity.
Qed.

Lemma get_checked v i : 0 < ssv_stage v ->
  m_ssv_get (Build w true) v i =
  if ((i + 1) * N.of_nat (ssv_stage v) <? 2 ^ w)%N then Ret (ssv_get v (N.to_nat i)) else Panic.
Proof.
  intros P. unfold m_ssv_get. rewrite range_checked by auto. destruct (N.ltb_spec ((i + 1) * N.of_nat (ssv_stage v)) (2 ^ w)) as [L|L]; [|reflexivity].
  cbn [bind]. f_equal. rewrite <- (N2Nat.id i) at 1 2. set (k := N.to_nat i).
  change 1%N with (N.of_nat 1). rewrite <- Nat2N.inj_add, <- !Nat2N.inj_mul, slice_get_nat. unfold ssv_get, get_range_of_row.
  replace (k * ssv_stage v <=? (k + 1) * ssv_stage v) with true by (symmetry; apply Nat.leb_le; nia). reflexivity.
Qed.

Lemma range_unchecked v i :
  m_range_of_row (Build w false) v i =
  Ret ((i * N.of_nat (ssv_stage v)) mod 2 ^ w, ((i * N.of_nat (ssv_stage v)) mod 2 ^ w + N.of_nat (ssv_stage v)) mod 2 ^ w)%N.
Proof.
  unfold m_range_of_row. rewrite !word_wrap. cbn [bind]. rewrite !word_wrap. cbn [bind]. do 2 f_equal.
  pose proof pow_nz. rewrite N.mul_mod_idemp_l by auto. rewrite N.add_mod_idemp_l by auto. f_equal. lia.
Qed.

Lemma get_unchecked v i : 0 < ssv_stage v -> (N.of_nat (ssv_stage v) < 2 ^ w)%N -> (N.of_nat (length (ssv_bells v)) < 2 ^ w)%N ->
  m_ssv_get (Build w false) v i =
  let a := N.to_nat ((i * N.of_nat (ssv_stage v)) mod 2 ^ w) in
  Ret (if a + ssv_stage v <=? length (ssv_bells v) then Some (firstn (ssv_stage v) (skipn a (ssv_bells v))) else None).
Proof.
  intros P S L. cbv zeta. unfold m_ssv_get. rewrite range_unchecked. cbn [bind].
  set (a := ((i * N.of_nat (ssv_stage v)) mod 2 ^ w)%N).
  assert (A : (a < 2 ^ w)%N) by (apply N.mod_lt, pow_nz).
  f_equal. destruct (Nat.leb_spec (N.to_nat a + ssv_stage v) (length (ssv_bells v))) as [Q|Q].
  - rewrite N.mod_small by lia. rewrite <- (N2Nat.id a) at 1 2. rewrite <- Nat2N.inj_add, slice_get_nat.
    replace (N.to_nat a <=? N.to_nat a + ssv_stage v) with true by (symmetry; apply Nat.leb_le; lia).
    apply Nat.leb_le in Q. rewrite Q. cbn [andb]. do 2 f_equal. lia.
  - unfold slice_get. destruct (N.ltb_spec (a + N.of_nat (ssv_stage v)) (2 ^ w)) as [M|M].
    + rewrite N.mod_small by auto. replace (a + N.of_nat (ssv_stage v) <=? N.of_nat (length (ssv_bells v)))%N with false
        by (symmetry; apply N.leb_gt; lia). rewrite andb_false_r. reflexivity.
    + replace ((a + N.of_nat (ssv_stage v)) mod 2 ^ w)%N with (a + N.of_nat (ssv_stage v) - 2 ^ w)%N
        by (apply (N.mod_unique _ _ 1); lia).
      replace (a <=? a + N.of_nat (ssv_stage v) - 2 ^ w)%N with false by (symmetry; apply N.leb_gt; lia). reflexivity.
Qed.
End Calls.

(** ** Runs *)

Lemma half_N w : (1 <= w)%N -> (2 ^ w = 2 * 2 ^ (w - 1))%N /\ (2 ^ (Z.of_N w - 1) = Z.of_N (2 ^ (w - 1)))%Z.
Proof.
  intros H. split.
  - rewrite <- N.pow_succ_r'. f_equal. lia.
  - rewrite N2Z.inj_pow, N2Z.inj_sub by lia. reflexivity.
Qed.

Lemma distance_ok bd a b : (1 <= width bd)%N -> (N.of_nat a < 2 ^ (width bd - 1))%N -> (N.of_nat b < 2 ^ (width bd - 1))%N ->
  m_distance bd (N.of_nat a) (N.of_nat b) = Ret (Z.abs (Z.of_nat a - Z.of_nat b)).
Proof.
  intros W Ha Hb. destruct (half_N (width bd) W) as [_ P]. unfold m_distance, iword, as_isize. rewrite P.
  set (h := (2 ^ (width bd - 1))%N) in *.
  assert (C : forall x, (N.of_nat x < h)%N -> ((Z.of_N (N.of_nat x) + Z.of_N h) mod (2 * Z.of_N h) - Z.of_N h)%Z = Z.of_nat x).
  { intros x Hx. rewrite Z.mod_small by lia. lia. }
  rewrite !C by auto. cbn zeta.
  replace ((- Z.of_N h <=? Z.of_nat a - Z.of_nat b) && (Z.of_nat a - Z.of_nat b <? Z.of_N h))%Z with true
    by (symmetry; apply andb_true_iff; rewrite Z.leb_le, Z.ltb_lt; lia).
  cbn [bind].
  replace ((- Z.of_N h <=? Z.abs (Z.of_nat a - Z.of_nat b)) && (Z.abs (Z.of_nat a - Z.of_nat b) <? Z.of_N h))%Z with true
    by (symmetry; apply andb_true_iff; rewrite Z.leb_le, Z.ltb_lt; lia).
  reflexivity.
Qed.

Lemma run_windows_le l : run_windows l <= length l.
Proof.
  induction l as [|a [|b t] IH]; cbn [run_windows length] in *; try lia. destruct (_ =? 1)%Z; lia.
Qed.

Lemma run_windows_ok bd l : (1 <= width bd)%N -> Forall (fun b => N.of_nat b < 2 ^ (width bd - 1))%N l ->
  (N.of_nat (length l) < 2 ^ (width bd - 1))%N -> m_run_windows bd (map N.of_nat l) = Ret (N.of_nat (run_windows l)).
Proof.
  intros W F. destruct (half_N (width bd) W) as [P _]. induction F as [|a l Ha F IH]; intros L; [reflexivity|].
  destruct l as [|b t]; [reflexivity|]. pose proof (Forall_inv F) as Hb. cbn [map length] in *.
  assert (IH' := IH ltac:(lia)). cbn [m_run_windows run_windows] in *.
  rewrite distance_ok by auto. cbn [bind]. destruct (_ =? 1)%Z; [|reflexivity].
  rewrite IH'. cbn [bind]. pose proof (run_windows_le (b :: t)) as Q. cbn [run_windows length] in Q.
  destruct bd as [w ck]. cbn [width] in *. rewrite word_ok by lia. f_equal. lia.
Qed.

Lemma run_len_ok bd l : (1 <= width bd)%N -> Forall (fun b => N.of_nat b < 2 ^ (width bd - 1))%N l ->
  (N.of_nat (length l) < 2 ^ (width bd - 1))%N -> m_run_len bd (map N.of_nat l) = Ret (N.of_nat (run_len l)).
Proof.
  intros W F L. destruct (half_N (width bd) W) as [P _]. unfold m_run_len, run_len. rewrite run_windows_ok by auto. cbn [bind].
  pose proof (run_windows_le l). destruct bd as [w ck]; cbn [width] in *. rewrite word_ok by lia. f_equal. lia.
Qed.
