(** In a build with overflow checks, [Release] does what [Program] does, or it panics. *)
From Verif Require Import Base Bell Stage Row Utils SameStageVec Block PlaceNot Mask Class Method Program Machine Release
  Spec SpecVec SpecProg SpecMachine ListFacts BellFacts RowFacts SsvFacts BlockFacts SafeFacts SafeFacts2 MachineFacts.
From Verif Require Call.
Local Open Scope list_scope.

Section Build.
Context (bd : build) (limit : N).

Definition rf {A} (m m' : exec A) : Prop := ref bd False m m'.

Lemma rf_refl {A} (m : exec A) : rf m m. Proof. apply ref_refl. Qed.
Lemma rf_bind {A B} (m m' : exec A) (f f' : A -> exec B) :
  rf m m' -> (forall a, m' = Ret a -> rf (f a) (f' a)) -> rf (bind m f) (bind m' f').
Proof. apply ref_bind. Qed.
Lemma rf_panic {A} (m : exec A) : rf Panic m. Proof. split; [tauto|auto]. Qed.
Lemma rf_eq {A} (m m' : exec A) : m = m' -> rf m m'. Proof. intros ->. apply rf_refl. Qed.

(** The left side may do something more which gives back a value or panics. *)
Lemma rf_more {A B} (e : exec A) (f : A -> exec B) a m : rf e (Ret a) -> rf (f a) m -> rf (bind e f) m.
Proof.
  intros [_ H] [_ G]. split; [tauto|]. intros HC. destruct (H HC) as [->| ->]; cbn; auto.
Qed.

Lemma rf_word n : rf (word bd n) (Ret n). Proof. apply ref_word. tauto. Qed.
Lemma rf_get v i : rf (m_ssv_get bd v (N.of_nat i)) (Ret (ssv_get v i)). Proof. apply ref_get. tauto. Qed.
Lemma rf_edit v i f : rf (m_ssv_edit bd v (N.of_nat i) f) (ssv_edit v i f). Proof. apply ref_edit. tauto. Qed.
Lemma rf_index v i : rf (m_ssv_index bd v (N.of_nat i)) (ssv_index v i). Proof. apply ref_index. tauto. Qed.
Lemma rf_split v i : rf (m_ssv_split bd v (N.of_nat i)) (Ret (ssv_split v i)). Proof. apply ref_split. tauto. Qed.
Lemma rf_clamp lo hi n : rf (m_clamp_range bd (to_bound lo) (to_bound hi) (N.of_nat n)) (Ret (nat_pair (clamp_range lo hi n))).
Proof. apply ref_clamp. tauto. Qed.
Lemma rf_len v : rf (m_ssv_len bd v) (n <- ssv_len v;; Ret (N.of_nat n)). Proof. apply ref_len. tauto. Qed.
Lemma rf_extend_range v t other lo hi :
  rf (m_ssv_extend_range_transposed bd v t other (to_bound lo) (to_bound hi)) (ssv_extend_range_transposed v t other lo hi).
Proof. apply ref_extend_range. tauto. Qed.
Lemma rf_from_within v t lo hi :
  rf (m_ssv_extend_transposed_from_within bd v (to_bound lo) (to_bound hi) t) (ssv_extend_transposed_from_within v lo hi t).
Proof. apply ref_from_within. tauto. Qed.

Lemma rf_with_capacity {A} (l : list A) : rf (with_capacity limit l) (Ret l).
Proof. unfold with_capacity. destruct (_ <=? _)%N; [apply rf_refl|apply rf_panic]. Qed.

(** ** Buffers *)

Lemma rf_last_index v : rf (r_last_index bd v) (n <- ssv_len v;; Ret (match n with O => None | S i => Some (N.of_nat i) end)).
Proof.
  unfold r_last_index.
  replace (n <- ssv_len v;; Ret (match n with O => None | S i => Some (N.of_nat i) end))
    with (m <- (n <- ssv_len v;; Ret (N.of_nat n));; Ret (if (m =? 0)%N then None else Some (m - 1)%N)).
  - apply rf_bind; [apply rf_len|]. intros; apply rf_refl.
  - destruct (ssv_len v) as [n| | |]; cbn [bind]; auto. destruct n; auto.
    replace (N.of_nat (S n) =? 0)%N with false by (symmetry; apply N.eqb_neq; lia). do 2 f_equal. lia.
Qed.

Lemma rf_last v : rf (r_ssv_last bd v) (ssv_last v).
Proof.
  unfold r_ssv_last, ssv_last.
  match goal with |- rf _ ?r => replace r with (o <- (n <- ssv_len v;; Ret (match n with O => None | S i => Some (N.of_nat i) end));;
     Ret (match o with None => None | Some i => ssv_get v (N.to_nat i) end)) end.
  - apply rf_bind; [apply rf_last_index|]. intros o _. destruct o as [i|]; [|apply rf_refl].
    rewrite <- (N2Nat.id i) at 1. apply rf_get.
  - destruct (ssv_len v) as [[|n]| | |]; cbn [bind]; auto. rewrite Nat2N.id. reflexivity.
Qed.

Lemma rf_edit_last v f : rf (r_ssv_edit_last bd v f) (ssv_edit_last v f).
Proof.
  unfold r_ssv_edit_last, ssv_edit_last.
  match goal with |- rf _ ?r => replace r with (o <- (n <- ssv_len v;; Ret (match n with O => None | S i => Some (N.of_nat i) end));;
     match o with None => Ret None | Some i => ssv_edit v (N.to_nat i) f end) end.
  - apply rf_bind; [apply rf_last_index|]. intros o _. destruct o as [i|]; [|apply rf_refl].
    rewrite <- (N2Nat.id i) at 1. apply rf_edit.
  - destruct (ssv_len v) as [[|n]| | |]; cbn [bind]; auto. rewrite Nat2N.id. reflexivity.
Qed.

Lemma rf_pop v : rf (r_ssv_pop bd v) (ssv_pop v).
Proof.
  split; [tauto|]. intros HC. unfold r_ssv_pop, ssv_pop. destruct (_ <? _); auto. cbv zeta. unfold debug_assert. rewrite HC.
  destruct (_ =? 0); cbn; auto.
Qed.

Lemma rf_extend_transposed v t o : rf (r_ssv_extend_transposed bd v t o) (ssv_extend_transposed v t o).
Proof. apply (rf_extend_range v t o Unbounded Unbounded). Qed.

Lemma rf_pre_multiplied v t : rf (r_ssv_pre_multiplied bd v t) (ssv_pre_multiplied v t).
Proof. unfold r_ssv_pre_multiplied, ssv_pre_multiplied. apply rf_bind; [apply rf_extend_transposed|]. intros [n res] _. apply rf_refl. Qed.

(** ** Blocks *)
Section Blk.
Context {A : Type}.
Implicit Types b : block A.

Lemma rf_with_default (d : A) v : rf (r_with_default_annots bd limit d v) (with_default_annots d v).
Proof.
  unfold r_with_default_annots, with_default_annots. apply rf_bind; [apply rf_refl|]. intros u _.
  match goal with |- rf _ ?r => replace r with (m <- (n <- ssv_len v;; Ret (N.of_nat n));; Ret (Block v (repeat d (N.to_nat m - 1)))) end.
  - apply rf_bind; [apply rf_len|]. intros m _. split; [tauto|]. intros HC. unfold word_sub. rewrite HC.
    destruct (_ <=? _)%N; cbn; auto. destruct (_ <=? _)%N; auto. right. repeat f_equal. lia.
  - destruct (ssv_len v); cbn; auto. rewrite Nat2N.id. reflexivity.
Qed.

Lemma rf_from_indices v (f : nat -> A) : rf (r_with_annots_from_indices bd limit v f) (with_annots_from_indices v f).
Proof.
  unfold r_with_annots_from_indices, with_annots_from_indices.
  match goal with |- rf _ ?r => replace r with (o <- (n <- ssv_len v;; Ret (match n with O => None | S i => Some (N.of_nat i) end));;
     match o with None => Ret None | Some i => Ret (Some (Block v (map f (range 0 (N.to_nat i))))) end) end.
  - apply rf_bind; [apply rf_last_index|]. intros o _. destruct o as [i|]; [|apply rf_refl].
    eapply rf_more; [apply rf_with_capacity|]. apply rf_refl.
  - destruct (ssv_len v) as [[|n]| | |]; cbn [bind]; auto. rewrite Nat2N.id. reflexivity.
Qed.

Lemma rf_leftover b : rf (r_block_leftover_row bd b) (block_leftover_row b).
Proof. unfold r_block_leftover_row, block_leftover_row. apply rf_bind; [apply rf_last|]. intros; apply rf_refl. Qed.

Lemma rf_unwrap_get v i : rf (o <- m_ssv_get bd v (N.of_nat i);; unwrap o) (unwrap (ssv_get v i)).
Proof. apply ref_unwrap_get. tauto. Qed.

Lemma rf_block_extend_range b other lo hi :
  rf (r_block_extend_range bd limit b other (to_bound lo) (to_bound hi)) (block_extend_range b other lo hi).
Proof.
  unfold r_block_extend_range, block_extend_range, m_block_get_row, block_get_row.
  destruct (clamp_range lo hi (block_len other)) as [start end_] eqn:E.
  eapply rf_more; [apply rf_clamp|]. rewrite E. unfold nat_pair; cbn [fst snd]. rewrite <- bind_bind.
  apply rf_bind; [apply rf_unwrap_get|]. intros first _. apply rf_bind; [apply rf_leftover|]. intros leftover _.
  apply rf_bind; [apply rf_refl|]. intros [t|e] _; [|apply rf_refl]. apply rf_bind; [apply rf_pop|]. intros [rows o] _.
  eapply rf_more; [apply rf_word|].
  change (MIncluded (N.of_nat start)) with (to_bound (Included start)).
  replace (MExcluded (N.of_nat end_ + 1)) with (to_bound (Excluded (end_ + 1))) by (cbn; f_equal; lia).
  apply rf_bind; [apply rf_extend_range|]. intros [rows' res] _. apply rf_bind; [apply rf_refl|]. intros u _.
  eapply rf_more; [apply rf_with_capacity|apply rf_refl].
Qed.

Lemma rf_block_from_within b lo hi :
  rf (r_block_extend_from_within bd limit b (to_bound lo) (to_bound hi)) (block_extend_from_within b lo hi).
Proof.
  unfold r_block_extend_from_within, block_extend_from_within, m_block_get_row, block_get_row.
  destruct (clamp_range lo hi (block_len b)) as [start end_] eqn:E.
  eapply rf_more; [apply rf_clamp|]. rewrite E. unfold nat_pair; cbn [fst snd]. rewrite <- bind_bind.
  apply rf_bind; [apply rf_unwrap_get|]. intros first _. apply rf_bind; [apply rf_leftover|]. intros leftover _.
  apply rf_bind; [apply rf_refl|]. intros t _. apply rf_bind; [apply rf_refl|]. intros t' _.
  eapply rf_more; [apply rf_word|]. eapply rf_more; [apply rf_word|].
  replace (MIncluded (N.of_nat start + 1)) with (to_bound (Included (start + 1))) by (cbn; f_equal; lia).
  replace (MExcluded (N.of_nat end_ + 1)) with (to_bound (Excluded (end_ + 1))) by (cbn; f_equal; lia).
  apply rf_bind; [apply rf_from_within|]. intros [rows res] _. apply rf_bind; [apply rf_refl|]. intros u _.
  rewrite slice_get_nat. unfold slice. destruct (_ && _); cbn [unwrap]; apply rf_bind; try apply rf_refl; intros new _;
    (eapply rf_more; [apply rf_with_capacity|apply rf_refl]).
Qed.

Lemma rf_block_split b i : rf (r_block_split bd b (N.of_nat i)) (block_split b i).
Proof.
  unfold r_block_split, block_split, split_vec.
  replace (N.of_nat (length (blk_annots b)) <? N.of_nat i)%N with (length (blk_annots b) <? i)
    by (destruct (Nat.ltb_spec (length (blk_annots b)) i), (N.ltb_spec (N.of_nat (length (blk_annots b))) (N.of_nat i)); auto; lia).
  destruct (_ <? _); [apply rf_refl|]. cbv zeta. rewrite Nat2N.id.
  eapply rf_more; [apply rf_split|]. destruct (ssv_split _ i) as [[v1 v2]|]; [|apply rf_refl].
  rewrite <- bind_bind. apply rf_bind; [apply (rf_unwrap_get v2 0)|]. intros; apply rf_refl.
Qed.

Lemma rf_next_untransposed (ri : repeat_iter A) : rf (r_next_untransposed_row bd ri) (next_untransposed_row ri).
Proof.
  unfold r_next_untransposed_row, next_untransposed_row. apply rf_bind; [apply rf_refl|]. intros [[x|] it] _; [apply rf_refl|].
  apply rf_bind; [apply rf_leftover|]. intros; apply rf_refl.
Qed.
Lemma rf_repeat_next (ri : repeat_iter A) : rf (r_repeat_iter_next bd ri) (repeat_iter_next ri).
Proof. unfold r_repeat_iter_next, repeat_iter_next. apply rf_bind; [apply rf_next_untransposed|]. intros; apply rf_refl. Qed.
Lemma rf_repeat_next_into (ri : repeat_iter A) out : rf (r_repeat_iter_next_into bd ri out) (repeat_iter_next_into ri out).
Proof. unfold r_repeat_iter_next_into, repeat_iter_next_into. apply rf_bind; [apply rf_next_untransposed|]. intros; apply rf_refl. Qed.
End Blk.

(** ** Methods *)

Lemma rf_row_in_course m i : rf (r_row_in_plain_course bd m (N.of_nat i)) (row_in_plain_course m i).
Proof.
  unfold r_row_in_plain_course, row_in_plain_course. cbv zeta.
  replace (N.of_nat (lead_len m) =? 0)%N with (lead_len m =? 0)
    by (destruct (Nat.eqb_spec (lead_len m) 0), (N.eqb_spec (N.of_nat (lead_len m)) 0); auto; lia).
  apply rf_bind; [apply rf_refl|]. intros u _. apply rf_bind; [apply rf_leftover|]. intros h _.
  rewrite <- Nat2N.inj_div, <- Nat2N.inj_mod, Nat2N.id. apply rf_bind; [apply rf_refl|]. intros hd _.
  apply rf_bind; [apply rf_index|]. intros; apply rf_refl.
Qed.

Lemma rf_plain_course_loop fuel len : forall b, rf (r_plain_course_loop bd limit fuel (N.of_nat len) b) (plain_course_loop fuel len b).
Proof.
  induction fuel as [|fuel IH]; intros b; cbn [r_plain_course_loop plain_course_loop]; [apply rf_refl|].
  apply rf_bind; [apply rf_leftover|]. intros l _. destruct (is_rounds l); [apply rf_refl|].
  apply rf_bind; [apply (rf_block_from_within b (Included 0) (Excluded len))|]. intros b' _. apply IH.
Qed.
Lemma rf_plain_course fuel m : rf (r_plain_course bd limit fuel m) (plain_course fuel m).
Proof. apply rf_plain_course_loop. Qed.

(** ** Programs *)

Lemma rf_with_row st i f g : (forall r, rf (f r) (g r)) -> rf (with_row st i f) (with_row st i g).
Proof. intros H. unfold with_row. destruct (nth_error st i) as [[]|]; auto using rf_refl. Qed.
Lemma rf_with_vec st i f g : (forall r, rf (f r) (g r)) -> rf (with_vec st i f) (with_vec st i g).
Proof. intros H. unfold with_vec. destruct (nth_error st i) as [[]|]; auto using rf_refl. Qed.
Lemma rf_with_block st i f g : (forall r, rf (f r) (g r)) -> rf (with_block st i f) (with_block st i g).
Proof. intros H. unfold with_block. destruct (nth_error st i) as [[]|]; auto using rf_refl. Qed.
Lemma rf_with_repeat st i f g : (forall r, rf (f r) (g r)) -> rf (with_repeat st i f) (with_repeat st i g).
Proof. intros H. unfold with_repeat. destruct (nth_error st i) as [[]|]; auto using rf_refl. Qed.
Lemma rf_with_method st i f g : (forall r, rf (f r) (g r)) -> rf (with_method st i f) (with_method st i g).
Proof. intros H. unfold with_method. destruct (nth_error st i) as [[]|]; auto using rf_refl. Qed.

Ltac rarg := repeat first [apply rf_with_row | apply rf_with_vec | apply rf_with_block | apply rf_with_repeat | apply rf_with_method]; intros.
Ltac rvia L := rarg; apply rf_bind; [apply L|intros; apply rf_refl].

Lemma rf_m_step ho st c : (forall i e, c = PowI i e -> isize bd e) -> rf (m_step bd ho st c) (step ho st c).
Proof. intros T. destruct (ref_step bd ho st c T) as [_ H]. split; [tauto|auto]. Qed.

Lemma rf_step ho st c : (forall i e, c = PowI i e -> isize bd e) -> rf (r_step bd limit ho st c) (step ho st c).
Proof.
  intros T. pose proof (rf_m_step ho st c T) as M. destruct c; try exact M; cbn [r_step step].
  - destruct p; try exact M. cbn [r_step step]. rvia rf_edit_last.
  - rvia rf_last.
  - rvia rf_pop.
  - do 3 rarg. rvia rf_extend_transposed.
  - do 2 rarg. rvia rf_pre_multiplied.
  - rvia (@rf_with_default (option str)).
  - rvia (@rf_from_indices (option str)).
  - rvia (@rf_leftover (option str)).
  - do 2 rarg. rvia (@rf_block_extend_range (option str) r r0 Unbounded Unbounded).
  - do 2 rarg. rvia (@rf_block_extend_range (option str)).
  - rvia (@rf_block_from_within (option str)).
  - rvia (@rf_block_split (option str)).
  - rvia (@rf_repeat_next (option str)).
  - do 2 rarg. rvia (@rf_repeat_next_into (option str)).
  - rvia (@rf_leftover (option str)).
  - rvia rf_row_in_course.
  - rvia rf_plain_course.
  - rarg. apply rf_bind; [apply rf_leftover|]. intros; apply rf_refl.
Qed.

Lemma rf_run ho prog : (forall i e, In (PowI i e) prog -> isize bd e) -> forall st,
  rf (r_run_from bd limit ho st prog) (run_from ho st prog).
Proof.
  induction prog as [|c t IH]; intros T st; unfold r_run_from, run_from; cbn [foldM]; [apply rf_refl|].
  apply rf_bind; [apply rf_step; intros i e ->; eapply T; left; eauto|]. intros st' _. apply IH. intros i e I. eapply T; right; eauto.
Qed.
End Build.
