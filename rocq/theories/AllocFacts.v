(** Proofs about the requests made to the allocator. *)
From Verif Require Import Base Spec Bell Stage Row Utils SameStageVec Block Alloc SpecVec SpecAcc SpecAlloc
  ListFacts BellFacts RowFacts MulFacts GroupFacts SsvFacts BlockFacts.
Local Open Scope list_scope.

(** ** Forgetting rooms *)

Lemma bare_ret {A B} (f : A -> B) a n : bare f (Ret (a, n)) = Ret (f a).
Proof. reflexivity. Qed.
Lemma bare_free {A B} (f : A -> B) m : bare f (free m) = (a <- m;; Ret (f a)).
Proof. unfold bare, free. destruct m; reflexivity. Qed.
Lemma bare_bind {A B C D} (h : A -> D) (f : B -> C) (m : alloc A) k (g : D -> exec C) :
  (forall a, bare f (k a) = g (h a)) -> bare f (abind m k) = (d <- bare h m;; g d).
Proof.
  intros H. unfold bare, abind in *. destruct m as [[a n]| | |]; cbn [bind]; auto.
  rewrite <- H. destruct (k a) as [[b n2]| | |]; reflexivity.
Qed.
Lemma bare_bind_free {A B C} (f : B -> C) (m : exec A) k (g : A -> exec C) :
  (forall a, bare f (k a) = g a) -> bare f (abind (free m) k) = bind m g.
Proof.
  intros H. rewrite (bare_bind (fun x => x) f (free m) k g) by auto. rewrite bare_free.
  destruct m; reflexivity.
Qed.
Lemma bind_ret_r {A} (m : exec A) : (a <- m;; Ret a) = m.
Proof. destruct m; reflexivity. Qed.

(** ** Inverting computations *)

Lemma abind_inv {A B} (m : alloc A) k (b : B) n : abind m k = Ret (b, n) ->
  exists a n1 n2, m = Ret (a, n1) /\ k a = Ret (b, n2) /\ n = n1 + n2.
Proof.
  unfold abind. destruct m as [[a n1]| | |]; cbn [bind]; try discriminate.
  destruct (k a) as [[b' n2]| | |] eqn:E; cbn [bind]; try discriminate. injection 1 as -> <-. eauto 6.
Qed.
Lemma free_inv {A} (m : exec A) a n : free m = Ret (a, n) -> m = Ret a /\ n = 0.
Proof. unfold free. destruct m; cbn; try discriminate. injection 1 as -> <-. auto. Qed.
Lemma abind_ret {A B} (a : A) n (k : A -> alloc B) :
  abind (Ret (a, n)) k = ('(b, j) <- k a;; Ret (b, n + j)).
Proof. reflexivity. Qed.
Lemma abind_free {A B} (a : A) (k : A -> alloc B) : abind (free (Ret a)) k = k a.
Proof. unfold abind, free. cbn [bind]. destruct (k a) as [[b j]| | |]; reflexivity. Qed.
Lemma abind_ret0 {A B} (a : A) (k : A -> alloc B) : abind (Ret (a, 0)) k = k a.
Proof. unfold abind. cbn [bind]. destruct (k a) as [[b j]| | |]; reflexivity. Qed.

(** the first computation of [H] is [X]; [H] becomes the rest *)
Tactic Notation "ai" ident(H) ident(X) ident(a) := apply abind_inv in H as (a & ? & ? & X & H & ->).
(** the same when the first one makes no request *)
Tactic Notation "aif" ident(H) ident(X) ident(a) :=
  apply abind_inv in H as (a & ? & ? & X & H & ->); apply free_inv in X as [X ->].

Section AllocFacts.
Context (grow : nat -> nat -> nat).

(** ** Vectors *)

Lemma bare_reserve {T} (v : vec T) n : bare items (reserve grow v n) = Ret (items v).
Proof. unfold reserve. destruct (_ <=? _); reflexivity. Qed.
Lemma bare_extend {T} (v : vec T) l : bare items (vec_extend grow v l) = Ret (items v ++ l).
Proof.
  unfold vec_extend. rewrite (bare_bind items items _ _ (fun i => Ret (i ++ l))) by reflexivity.
  rewrite bare_reserve. reflexivity.
Qed.
Lemma bare_push {T} (v : vec T) x : bare items (vec_push grow v x) = Ret (items v ++ [x]).
Proof.
  unfold vec_push. rewrite (bare_bind items items _ _ (fun i => Ret (i ++ [x]))) by reflexivity.
  rewrite bare_reserve. reflexivity.
Qed.
Lemma bare_collect {T} (l : list T) : bare items (vec_collect grow l) = Ret l.
Proof. unfold vec_collect. rewrite bare_extend. reflexivity. Qed.

(** adding elements: the exact outcome *)
Definition room_for (old needed : nat) : nat := if needed <=? old then old else grow old needed.
Definition asks (old needed : nat) : nat := if needed <=? old then 0 else 1.

Lemma extend_eq {T} (v : vec T) l : vec_extend grow v l =
  Ret (Vec (items v ++ l) (room_for (room v) (length (items v) + length l)),
       asks (room v) (length (items v) + length l)).
Proof.
  unfold vec_extend, reserve, room_for, asks. destruct (_ <=? _); rewrite abind_ret; cbn [bind items room]; reflexivity.
Qed.
Lemma push_eq {T} (v : vec T) x : vec_push grow v x =
  Ret (Vec (items v ++ [x]) (room_for (room v) (length (items v) + 1)), asks (room v) (length (items v) + 1)).
Proof.
  unfold vec_push, reserve, room_for, asks. destruct (_ <=? _); rewrite abind_ret; cbn [bind items room]; reflexivity.
Qed.
Lemma collect_eq {T} (l : list T) : vec_collect grow l =
  Ret (Vec l (room_for 0 (length l)), asks 0 (length l)).
Proof. unfold vec_collect. rewrite extend_eq. reflexivity. Qed.
Lemma room_fits old needed : needed <= old -> room_for old needed = old.
Proof. intros H. unfold room_for. apply Nat.leb_le in H. rewrite H. reflexivity. Qed.
Lemma asks_fits old needed : needed <= old -> asks old needed = 0.
Proof. intros H. unfold asks. apply Nat.leb_le in H. rewrite H. reflexivity. Qed.
Lemma asks_le old needed : asks old needed <= 1.
Proof. unfold asks. destruct (_ <=? _); lia. Qed.
Lemma room_ge old needed : ample grow -> needed <= room_for old needed.
Proof. intros H. unfold room_for. destruct (Nat.leb_spec needed old); auto. Qed.
Lemma room_mono old needed : ample grow -> old <= room_for old needed.
Proof. intros H. unfold room_for. destruct (Nat.leb_spec needed old); auto. specialize (H old needed). lia. Qed.

(** ** Rows *)

Lemma bare_rounds s : bare items (a_rounds grow s) = Ret (row_rounds s).
Proof. apply bare_collect. Qed.
Lemma bare_extend_to_stage v s : bare items (a_extend_to_stage grow v s) = extend_to_stage (items v) s.
Proof.
  unfold a_extend_to_stage, extend_to_stage. apply bare_bind_free. intros so. apply bare_bind_free. intros _.
  apply bare_extend.
Qed.
Lemma bare_overwrite v r : bare items (a_overwrite_from grow v r) = Ret (overwrite_from (items v) r).
Proof. apply bare_extend. Qed.
Lemma bare_copy r v : bare items (a_copy_into grow r v) = Ret (copy_into r (items v)).
Proof. apply bare_extend. Qed.
Lemma bare_mul_unchecked a b : bare items (a_mul_unchecked grow a b) = mul_unchecked a b.
Proof.
  unfold a_mul_unchecked, mul_unchecked. rewrite (bare_bind_free items _ _ (fun l => Ret l)).
  - apply bind_ret_r.
  - intros l. apply bare_collect.
Qed.
Lemma bare_mul_result a b : bare (on_ok items) (a_mul_result grow a b) = mul_result a b.
Proof.
  unfold a_mul_result, mul_result. apply bare_bind_free. intros sa. apply bare_bind_free. intros sb.
  destruct (test_err sa sb); [|reflexivity].
  rewrite (bare_bind items _ _ _ (fun r => Ret (Ok r))) by reflexivity. rewrite bare_mul_unchecked. reflexivity.
Qed.
Lemma bare_mul a b : bare items (a_mul grow a b) = row_mul a b.
Proof.
  unfold a_mul, row_mul. rewrite (bare_bind (on_ok items) items _ _ unwrap_res).
  - rewrite bare_mul_result. reflexivity.
  - intros [r|e]; reflexivity.
Qed.
Lemma bare_mul_into_unchecked a b out :
  bare items (a_mul_into_unchecked grow a b out) = mul_into_unchecked a b (items out).
Proof. unfold a_mul_into_unchecked, mul_into_unchecked. apply bare_bind_free. intros l. apply bare_extend. Qed.
Lemma bare_mul_into a b out : bare (on_fst items) (a_mul_into grow a b out) = mul_into a b (items out).
Proof.
  unfold a_mul_into, mul_into. apply bare_bind_free. intros sa. apply bare_bind_free. intros sb.
  destruct (test_err sa sb); [|reflexivity].
  rewrite (bare_bind items _ _ _ (fun r => Ret (r, Ok tt))) by reflexivity.
  rewrite bare_mul_into_unchecked. reflexivity.
Qed.
Lemma bare_inv r : bare items (a_inv grow r) = row_inv r.
Proof.
  unfold a_inv, row_inv. apply bare_bind_free. intros s.
  rewrite (bare_bind items _ _ _ (fun i => inv_loop r i)).
  - rewrite bare_collect. reflexivity.
  - intros v. rewrite (bare_bind_free _ _ _ (fun l => Ret l)) by reflexivity. apply bind_ret_r.
Qed.
Lemma bare_inv_into_buf r out : bare items (a_inv_into_buf grow r out) = inv_into_buf r (items out).
Proof.
  unfold a_inv_into_buf, inv_into_buf. apply bare_bind_free. intros so. apply bare_bind_free. intros s.
  rewrite (bare_bind items _ _ _ (fun i => so1 <- row_stage i;; assert_ (so1 =? s);;; inv_loop r i)).
  - f_equal. destruct (so ?= s).
    + reflexivity.
    + apply bare_extend.
    + rewrite (bare_bind_free _ _ _ (fun _ => Ret (firstn (length r) (items out)))) by reflexivity.
      unfold slice. cbn [Nat.leb andb skipn]. rewrite Nat.sub_0_r. destruct (_ <=? _); reflexivity.
  - intros v. apply bare_bind_free. intros so1. apply bare_bind_free. intros _.
    rewrite (bare_bind_free _ _ _ (fun l => Ret l)) by reflexivity. apply bind_ret_r.
Qed.

(** ** is_group *)

Lemma bare_group_inner set b_inv todo : forall buf,
  bare (on_fst items) (a_is_group_inner grow set b_inv buf todo) = is_group_inner set b_inv (items buf) todo.
Proof.
  induction todo as [|a t IH]; intros buf; [reflexivity|]. cbn [a_is_group_inner is_group_inner].
  rewrite (bare_bind items _ _ _ (fun i => if row_mem i set then is_group_inner set b_inv i t else Ret (i, false))).
  - rewrite bare_mul_into_unchecked. reflexivity.
  - intros v. destruct (row_mem (items v) set); [apply IH|reflexivity].
Qed.
Lemma bare_group_outer set todo : forall b_inv buf,
  bare (fun b => b) (a_is_group_outer grow set b_inv buf todo) = is_group_outer set (items b_inv) (items buf) todo.
Proof.
  induction todo as [|b t IH]; intros b_inv buf; [reflexivity|]. cbn [a_is_group_outer is_group_outer].
  rewrite (bare_bind items _ _ _ (fun i => '(buf', ok) <- is_group_inner set i (items buf) set;;
             if ok then is_group_outer set i buf' t else Ret false)).
  - rewrite bare_inv_into_buf. reflexivity.
  - intros v.
    rewrite (bare_bind (on_fst items) _ _ _ (fun '(buf', ok) => if ok : bool then is_group_outer set (items v) buf' t else Ret false)).
    + rewrite bare_group_inner. reflexivity.
    + intros [buf' ok]. cbn [on_fst fst snd]. destruct ok; [apply IH|reflexivity].
Qed.
Lemma bare_group_set set : bare (fun b => b) (a_is_group_set grow set) = is_group_set set.
Proof.
  unfold a_is_group_set, is_group_set. destruct set as [|r set]; [reflexivity|].
  apply bare_bind_free. intros [u|e]; [|reflexivity].
  rewrite (bare_bind items _ _ _ (fun i => ok <- is_group_outer (r :: set) i (row_rounds 1) (r :: set);; Ret (Ok ok))).
  - rewrite bare_rounds. reflexivity.
  - intros v.
    rewrite (bare_bind items _ _ _ (fun i => ok <- is_group_outer (r :: set) (items v) i (r :: set);; Ret (Ok ok))).
    + rewrite bare_rounds. reflexivity.
    + intros w. rewrite (bare_bind (fun b => b) _ _ _ (fun ok => Ret (Ok ok))) by reflexivity.
      rewrite bare_group_outer. reflexivity.
Qed.

(** ** Accumulators *)

Lemma bare_acc_new t : bare acc_of (a_acc_new grow t) = acc_new (items t).
Proof.
  unfold a_acc_new, acc_new. apply bare_bind_free. intros s.
  rewrite (bare_bind items _ _ _ (fun i => Ret (Accumulator (items t) i))) by reflexivity. rewrite bare_rounds. reflexivity.
Qed.
Lemma bare_acc_rounds s : bare acc_of (a_acc_rounds grow s) = acc_rounds s.
Proof.
  unfold a_acc_rounds, acc_rounds. rewrite (bare_bind items _ _ _ (fun i => acc_new i)) by apply bare_acc_new.
  rewrite bare_rounds. reflexivity.
Qed.
Lemma bare_accumulate a r : bare (on_fst acc_of) (a_accumulate grow a r) = acc_accumulate (acc_of a) r.
Proof.
  unfold a_accumulate, acc_accumulate.
  rewrite (bare_bind (on_fst items) _ _ _ (fun '(temp, res) => match res with
    | Err e => Ret (Accumulator (items (aa_total a)) temp, Err e)
    | Ok _ => Ret (Accumulator temp (items (aa_total a)), Ok tt) end)).
  - rewrite bare_mul_into. reflexivity.
  - intros [v [u|e]]; reflexivity.
Qed.
Lemma bare_pre_accumulate a r : bare (on_fst acc_of) (a_pre_accumulate grow a r) = acc_pre_accumulate (acc_of a) r.
Proof.
  unfold a_pre_accumulate, acc_pre_accumulate.
  rewrite (bare_bind (on_fst items) _ _ _ (fun '(temp, res) => match res with
    | Err e => Ret (Accumulator (items (aa_total a)) temp, Err e)
    | Ok _ => Ret (Accumulator temp (items (aa_total a)), Ok tt) end)).
  - rewrite bare_mul_into. reflexivity.
  - intros [v [u|e]]; reflexivity.
Qed.
Lemma bare_set a r : bare acc_of (a_set grow a r) = Ret (acc_set (acc_of a) r).
Proof.
  unfold a_set, acc_set. rewrite (bare_bind items _ _ _ (fun i => Ret (Accumulator i (items (aa_temp a))))) by reflexivity.
  rewrite bare_copy. reflexivity.
Qed.
Lemma bare_acc_call a o : bare (on_fst acc_of) (a_acc_call grow a o) = acc_call (acc_of a) o.
Proof.
  destruct o as [r|r|r]; cbn [a_acc_call acc_call]; [apply bare_accumulate|apply bare_pre_accumulate|].
  rewrite (bare_bind acc_of _ _ _ (fun i => Ret (i, Ok tt))) by reflexivity. rewrite bare_set. reflexivity.
Qed.
Lemma bare_pow_loop r n : forall a, bare acc_of (a_pow_loop grow a r n) = pow_loop (acc_of a) r n.
Proof.
  induction n as [|n IH]; intros a; [reflexivity|]. cbn [a_pow_loop pow_loop].
  rewrite (bare_bind (on_fst acc_of) _ _ _ (fun '(a', res) => unwrap_res res;;; pow_loop a' r n)).
  - rewrite bare_accumulate. reflexivity.
  - intros [a' res]. apply bare_bind_free. intros _. apply IH.
Qed.
Lemma bare_pow_u r n : bare items (a_pow_u grow r n) = pow_u r n.
Proof.
  unfold a_pow_u, pow_u. apply bare_bind_free. intros s.
  rewrite (bare_bind acc_of _ _ _ (fun a => a' <- pow_loop a r n;; Ret (acc_total a'))).
  - rewrite bare_acc_rounds. reflexivity.
  - intros a. rewrite (bare_bind acc_of _ _ _ (fun a' => Ret (acc_total a'))) by reflexivity.
    rewrite bare_pow_loop. reflexivity.
Qed.
Lemma bare_pow_i r e : bare items (a_pow_i grow r e) = pow_i r e.
Proof.
  unfold a_pow_i, pow_i. destruct (e <? 0)%Z; [|apply bare_pow_u].
  rewrite (bare_bind items _ _ _ (fun i => pow_u i (Z.to_nat (- e)))) by (intros; apply bare_pow_u).
  rewrite bare_inv. reflexivity.
Qed.
End AllocFacts.
