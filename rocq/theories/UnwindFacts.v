(** The second models of [&mut] functions do what the first ones do, and what they leave behind. *)
From Verif Require Import Base Bell Stage Parity Row Utils SameStageVec Block PlaceNot Mask Class Method Program Unwind
  Spec SpecVec SpecBlock SpecProg ListFacts BellFacts RowFacts MulFacts GroupFacts ParityFacts SsvFacts BlockFacts SafeFacts SafeFacts2.
Local Open Scope list_scope.

(** ** Forgetting *)

Lemma forget_andthen {S A B} (m : borrow S A) (f : A -> borrow S B) s :
  forget (andthen m f s) = bind (forget (m s)) (fun p => forget (f (snd p) (fst p))).
Proof. unfold andthen. destruct (m s); reflexivity. Qed.

Lemma forget_reading {S A} (e : exec A) (s : S) : forget (reading e s) = bind e (fun a => Ret (s, a)).
Proof. destruct e; reflexivity. Qed.

Lemma forget_inside {S T A} (get : S -> T) set (m : borrow T A) s :
  forget (inside get set m s) = bind (forget (m (get s))) (fun p => Ret (set s (fst p), snd p)).
Proof. unfold inside. destruct (m (get s)); reflexivity. Qed.

Lemma bind_assoc {A B C} (e : exec A) (f : A -> exec B) (g : B -> exec C) :
  bind (bind e f) g = bind e (fun a => bind (f a) g).
Proof. destruct e; reflexivity. Qed.

Lemma bind_ext {A B} (e : exec A) (f g : A -> exec B) : (forall a, f a = g a) -> bind e f = bind e g.
Proof. intros H. destruct e; cbn; auto. Qed.

Lemma bind_ret {A} (e : exec A) : bind e Ret = e.
Proof. destruct e; reflexivity. Qed.

Ltac fg := repeat (first [ rewrite forget_andthen | rewrite forget_reading | rewrite forget_inside
  | rewrite bind_assoc ]; cbn [bind fst snd]).
Ltac fgx := fg; match goal with |- bind ?e _ = bind ?e _ => apply bind_ext; intros ? end; cbn [bind fst snd].

Lemma forget_each_pushing {S A X} (f : A -> exec X) (g : S -> X -> S) l : forall s,
  forget (each (fun x => y <~ reading (f x);; update (fun out => g out y)) l s) =
  bind (mapM f l) (fun ys => Ret (fold_left g ys s, tt)).
Proof.
  induction l as [|x l IH]; intros s; cbn [each mapM]; [reflexivity|]. fg.
  apply bind_ext. intros y. unfold update at 1. cbn [forget bind fst snd]. rewrite IH, !bind_assoc.
  apply bind_ext. intros ys. reflexivity.
Qed.

Lemma fold_left_snoc {X} (ys : list X) : forall l, fold_left (fun out y => out ++ [y]) ys l = l ++ ys.
Proof.
  induction ys as [|y ys IH]; intros l; cbn; [now rewrite app_nil_r|]. rewrite IH, <- app_assoc. reflexivity.
Qed.

Lemma fold_left_push_bell ys : forall v,
  fold_left (fun v y => Ssv (ssv_bells v ++ [y]) (ssv_stage v)) ys v = Ssv (ssv_bells v ++ ys) (ssv_stage v).
Proof.
  induction ys as [|y ys IH]; intros v; cbn; [rewrite app_nil_r; now destruct v|]. rewrite IH. cbn.
  rewrite <- app_assoc. reflexivity.
Qed.

Lemma forget_mul_into a b out : forget (mul_into_b a b out) = mul_into a b out.
Proof.
  unfold mul_into_b, mul_into. fgx. fgx. destruct (test_err _ _); [|reflexivity].
  unfold mul_into_unchecked_b, mul_into_unchecked. fg. unfold write at 1. cbn [forget bind fst snd]. fg.
  rewrite forget_each_pushing. rewrite !bind_assoc. apply bind_ext. intros ys. rewrite fold_left_snoc. reflexivity.
Qed.

Lemma mul_into_row_loop_as a : forall out b, length out = length b ->
  mul_into_row_loop a out b = mapM (fun x => idx a x) b.
Proof.
  induction out as [|o out IH]; intros [|x b] L; cbn in *; try discriminate; auto. rewrite IH by lia. reflexivity.
Qed.

Lemma forget_each_upd (a b : row) : forall n (out pre : row), length pre = n -> length out = length b ->
  forget (each (fun '(i, x) => y <~ reading (idx a x);; update (fun out => upd out i y)) (enumerate_from n b) (pre ++ out)) =
  bind (mapM (fun x => idx a x) b) (fun ys => Ret (pre ++ ys, tt)).
Proof.
  induction b as [|x b IH]; intros n out pre Ln Lo; cbn [enumerate_from each mapM].
  { destruct out; [reflexivity|discriminate]. }
  fg. apply bind_ext. intros y. unfold update at 1. cbn [forget bind fst snd].
  destruct out as [|o out]; [discriminate|].
  assert (E : upd (pre ++ o :: out) n y = (pre ++ [y]) ++ out).
  { subst n. clear. induction pre; cbn; [reflexivity|]. f_equal. exact IHpre. }
  rewrite E. rewrite IH by (rewrite ?app_length; cbn in *; lia). rewrite !bind_assoc. apply bind_ext. intros ys. cbn.
  rewrite <- app_assoc. reflexivity.
Qed.

Lemma forget_mul_into_row a b out : forget (mul_into_row_b a b out) = mul_into_row a b out.
Proof.
  unfold mul_into_row_b, mul_into_row. fg.
  destruct (row_stage a) as [sa| | |] eqn:Ea; cbn [bind]; auto. fg.
  destruct (row_stage b) as [sb| | |] eqn:Eb; cbn [bind]; auto.
  destruct (test_err sa sb) eqn:T1; [|reflexivity]. fg. unfold look. cbn [forget bind fst snd]. fg.
  destruct (row_stage out) as [so| | |] eqn:Eo; cbn [bind]; auto.
  destruct (test_err sa so) eqn:T2; [|reflexivity]. fg.
  assert (L : length out = length b).
  { unfold row_stage, stage_new in *. destruct a, b, out; cbn in *; try discriminate. injection Ea as <-. injection Eb as <-. injection Eo as <-.
    unfold test_err in *. destruct (_ =? _) eqn:E1 in T1; [|discriminate]. destruct (_ =? _) eqn:E2 in T2; [|discriminate].
    apply Nat.eqb_eq in E1, E2. lia. }
  unfold mul_into_row_loop_b, enumerate. pose proof (forget_each_upd a b 0 out [] eq_refl L) as F. cbn [app] in F. rewrite F.
  rewrite mul_into_row_loop_as by auto. rewrite !bind_assoc. apply bind_ext. intros. reflexivity.
Qed.

Lemma forget_inv_loop r : forall out, forget (inv_loop_b r out) = (out' <- inv_loop r out;; Ret (out', tt)).
Proof.
  unfold inv_loop_b, inv_loop. induction (enumerate r) as [|[i b] l IH]; intros out; cbn [each foldM]; [reflexivity|].
  fg. unfold look. cbn [forget bind fst snd]. fg. apply bind_ext. intros o'. unfold write at 1. cbn [forget bind fst snd].
  apply IH.
Qed.

Lemma forget_inv_into r out : forget (inv_into_b r out) = inv_into r out.
Proof.
  unfold inv_into_b, inv_into. fgx. unfold look. fg. cbn [forget bind fst snd]. fgx. destruct (test_err _ _); [|reflexivity].
  fg. rewrite forget_inv_loop. rewrite !bind_assoc. apply bind_ext. reflexivity.
Qed.

Lemma forget_inv_into_buf r out : forget (inv_into_buf_b r out) = (out' <- inv_into_buf r out;; Ret (out', tt)).
Proof.
  unfold inv_into_buf_b, inv_into_buf. unfold look. fg. cbn [forget bind fst snd]. fgx. fgx.
  assert (K : forall o1, forget (andthen (fun s => Done s s) (fun out1 => so1 <~ reading (row_stage out1);; reading (assert_ (so1 =? a0));~ inv_loop_b r) o1)
    = (so1 <- row_stage o1;; assert_ (so1 =? a0);;; out' <- inv_loop r o1;; Ret (out', tt))).
  { intros o1. unfold look. fg. cbn [forget bind fst snd]. fgx. fgx. apply forget_inv_loop. }
  destruct (Nat.compare a a0); fg.
  - cbn [give forget bind fst snd]. rewrite K. fgx. fgx. reflexivity.
  - unfold write. cbn [forget bind fst snd]. rewrite K. fgx. fgx. reflexivity.
  - destruct (slice out 0 (length r)); cbn [bind]; auto. unfold write. cbn [forget bind fst snd]. rewrite K. fgx. fgx. reflexivity.
Qed.

Lemma forget_parity_loop fuel : forall first n r, forget (parity_loop_b fuel first n r) = parity_loop fuel r first n.
Proof.
  induction fuel as [|fuel IH]; intros first n r; cbn [parity_loop_b parity_loop]; [reflexivity|].
  unfold look. fg. cbn [forget bind fst snd]. fgx. destruct (first <? a); [|reflexivity]. fgx.
  destruct (a0 =? first); [apply IH|]. fgx. unfold write. cbn [forget bind fst snd]. apply IH.
Qed.

Lemma forget_parity fuel r : forget (row_parity_b fuel r) = row_parity fuel r.
Proof. unfold row_parity_b, row_parity. fg. rewrite forget_parity_loop. apply bind_ext. intros [r' n]. reflexivity. Qed.

Lemma forget_permute_loop fuel s : forall places i r,
  forget (permute_loop_b fuel s places i r) = (r' <- permute_loop fuel s places i r;; Ret (r', tt)).
Proof.
  induction fuel as [|fuel IH]; intros places i r; cbn [permute_loop_b permute_loop]; [reflexivity|].
  destruct (i <? s); [|reflexivity].
  destruct places as [|p places]; [|destruct (p =? i); [apply IH|]]; unfold look; fg; cbn [forget bind fst snd]; fgx;
    unfold write; cbn [forget bind fst snd]; apply IH.
Qed.

Lemma forget_pn_permute pn r : forget (pn_permute_b pn r) = pn_permute pn r.
Proof.
  unfold pn_permute_b, pn_permute, permute_unchecked. unfold look. fg. cbn [forget bind fst snd]. fgx.
  destruct (test_err _ _); [|reflexivity]. fg. rewrite forget_permute_loop. rewrite !bind_assoc. apply bind_ext. reflexivity.
Qed.

Lemma forget_acc_accumulate r a : forget (acc_accumulate_b r a) = acc_accumulate a r.
Proof.
  unfold acc_accumulate_b, acc_accumulate. unfold look. fg. cbn [forget bind fst snd]. fg. rewrite forget_mul_into.
  apply bind_ext. intros [t [[]|e]]; reflexivity.
Qed.

Lemma forget_acc_pre_accumulate r a : forget (acc_pre_accumulate_b r a) = acc_pre_accumulate a r.
Proof.
  unfold acc_pre_accumulate_b, acc_pre_accumulate. unfold look. fg. cbn [forget bind fst snd]. fg. rewrite forget_mul_into.
  apply bind_ext. intros [t [[]|e]]; reflexivity.
Qed.

Lemma forget_acc_mul_assign r a : forget (acc_mul_assign_b r a) = (a' <- acc_mul_assign a r;; Ret (a', tt)).
Proof.
  unfold acc_mul_assign_b, acc_mul_assign. fg. rewrite forget_acc_accumulate. apply bind_ext.
  intros [t [[]|e]]; reflexivity.
Qed.

Lemma forget_extend_loop before rows : forall v,
  forget (ssv_extend_loop_b before rows false v) =
  ('(bells, res) <- ssv_extend_loop (ssv_stage v) before (ssv_bells v) rows;; Ret (Ssv bells (ssv_stage v), res)).
Proof.
  induction rows as [|r rows IH]; intros v; cbn [ssv_extend_loop_b ssv_extend_loop]; [now destruct v|].
  unfold look. fg. cbn [forget bind fst snd]. fgx. destruct (test_err _ _); [|reflexivity]. fg. unfold write.
  cbn [forget bind fst snd]. rewrite IH. reflexivity.
Qed.

Lemma forget_extend rows v : forget (ssv_extend_b rows false v) = ssv_extend v rows.
Proof. unfold ssv_extend_b, ssv_extend. unfold look. fg. cbn [forget bind fst snd]. apply forget_extend_loop. Qed.

Lemma forget_extend_range_transposed t o lo hi v :
  forget (ssv_extend_range_transposed_b t o lo hi v) = ssv_extend_range_transposed v t o lo hi.
Proof.
  unfold ssv_extend_range_transposed_b, ssv_extend_range_transposed. unfold look. fg. cbn [forget bind fst snd]. fgx.
  destruct (test_err _ _); [|reflexivity]. fgx. destruct a1 as [x y]. fg. apply bind_ext. intros src. cbn [bind fst snd]. fg.
  pose proof (forget_each_pushing (S := ssv) (fun x => idx t x) (fun v y => Ssv (ssv_bells v ++ [y]) (ssv_stage v))) as F.
  unfold push_bell. rewrite F. rewrite !bind_assoc. apply bind_ext. intros ys. rewrite fold_left_push_bell. reflexivity.
Qed.

Lemma forget_from_within lo hi t v :
  forget (ssv_extend_transposed_from_within_b lo hi t v) = ssv_extend_transposed_from_within v lo hi t.
Proof.
  unfold ssv_extend_transposed_from_within_b, ssv_extend_transposed_from_within. unfold look at 1. fg. cbn [forget bind fst snd]. fgx.
  destruct (test_err _ _); [|reflexivity]. fgx. destruct a1 as [x y]. fg.
  assert (F : forall l v, forget (each (fun i => v <~ look;; x <~ reading (idx (ssv_bells v) i);; y <~ reading (idx t x);; push_bell y) l v)
    = (bells <- foldM (fun bells i => x <- idx bells i;; y <- idx t x;; Ret (bells ++ [y])) l (ssv_bells v);; Ret (Ssv bells (ssv_stage v), tt))).
  { clear. induction l as [|i l IH]; intros v; cbn [each foldM]; [now destruct v|]. unfold look at 1. fg. cbn [forget bind fst snd].
    fgx. fgx. unfold push_bell, update. cbn [forget bind fst snd]. rewrite IH. reflexivity. }
  rewrite F. rewrite !bind_assoc. apply bind_ext. reflexivity.
Qed.

Lemma forget_pop v : forget (ssv_pop_b v) = ssv_pop v.
Proof. unfold ssv_pop_b. unfold look. fg. cbn [forget bind fst snd]. fg. rewrite <- (bind_ret (ssv_pop v)) at 2. apply bind_ext. intros [v' r]. reflexivity. Qed.

Section Block.
Context {A : Type}.
Implicit Types (b o : block A).

Lemma forget_block_extend_range o lo hi b : forget (block_extend_range_b o lo hi b) = block_extend_range b o lo hi.
Proof.
  unfold block_extend_range_b, block_extend_range. destruct (clamp_range _ _ _) as [x y]. fgx. unfold look. fg. cbn [forget bind fst snd].
  fgx. fgx. destruct a1 as [t|e]; [|reflexivity]. unfold rows_of_block. fg. rewrite forget_pop. apply bind_ext. intros [rows r].
  cbn [fst snd blk_rows blk_annots]. fg. cbn [blk_rows blk_annots]. rewrite forget_extend_range_transposed. apply bind_ext. intros [rows' res].
  cbn [fst snd blk_rows blk_annots]. fgx. reflexivity.
Qed.

Lemma forget_block_extend_from_within lo hi b :
  forget (block_extend_from_within_b lo hi b) = (b' <- block_extend_from_within b lo hi;; Ret (b', tt)).
Proof.
  unfold block_extend_from_within_b, block_extend_from_within. unfold look. fg. cbn [forget bind fst snd].
  destruct (clamp_range _ _ _) as [x y]. fgx. fgx. fgx. fgx. unfold rows_of_block. fg. rewrite forget_from_within. apply bind_ext. intros [rows res].
  cbn [fst snd blk_rows blk_annots]. fgx. fgx. reflexivity.
Qed.

Lemma forget_ii_next (it : inner_iter A) : forget (ii_next_b it) = ('(o, it') <- ii_next it;; Ret (it', o)).
Proof.
  unfold ii_next_b, ii_next. unfold look. fg. cbn [forget bind fst snd]. fgx. destruct a as [[r|] rows']; fg; unfold write; cbn [forget bind fst snd];
    destruct (ii_annots it); reflexivity.
Qed.

Lemma forget_next_untransposed (ri : repeat_iter A) :
  forget (next_untransposed_row_b ri) = ('(o, ri') <- next_untransposed_row ri;; Ret (ri', o)).
Proof.
  unfold next_untransposed_row_b, next_untransposed_row, iter_of_repeat. fg. rewrite forget_ii_next. fgx. destruct a as [[x|] it]; cbn [fst snd bind]; [reflexivity|].
  unfold look. fg. cbn [forget bind fst snd ri_block ri_head ri_iter]. fgx. fgx. unfold write. fg. cbn [forget bind fst snd ri_block ri_head ri_iter]. fg. apply bind_ext. intros it'. cbn [forget bind fst snd ri_block ri_head ri_iter]. fg. cbn [forget bind fst snd ri_block ri_head ri_iter]. fg.
  cbn [ri_block ri_head ri_iter]. rewrite forget_ii_next. fgx. destruct a1 as [o it'']. reflexivity.
Qed.

Lemma forget_repeat_next (ri : repeat_iter A) :
  forget (repeat_iter_next_b ri) = ('(o, ri') <- repeat_iter_next ri;; Ret (ri', o)).
Proof.
  unfold repeat_iter_next_b, repeat_iter_next. fg. rewrite forget_next_untransposed. fgx. destruct a as [[[i [r a]]|] ri']; cbn [fst snd bind]; [|reflexivity].
  unfold look. fg. cbn [forget bind fst snd]. fgx. reflexivity.
Qed.

Lemma forget_repeat_next_into (ri : repeat_iter A) out :
  forget (repeat_iter_next_into_b (ri, out)) = ('(o, out', ri') <- repeat_iter_next_into ri out;; Ret ((ri', out'), o)).
Proof.
  unfold repeat_iter_next_into_b, repeat_iter_next_into. fg. rewrite forget_next_untransposed. fgx. destruct a as [[[i [r a]]|] ri']; cbn [fst snd bind]; [|reflexivity].
  unfold look. fg. cbn [forget bind fst snd]. fg. rewrite forget_mul_into. fgx. destruct a0 as [out' res]. cbn [fst snd]. fgx. reflexivity.
Qed.
End Block.
