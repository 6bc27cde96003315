(** Lemmas about the vocabulary of [Base]. *)
From Verif Require Import Base.
Local Open Scope list_scope.

(** Split conjunctions only. *)
Ltac splits := repeat match goal with |- _ /\ _ => split end.

Lemma bind_ret {A B} (m : exec A) (f : A -> exec B) b :
  bind m f = Ret b <-> exists a, m = Ret a /\ f a = Ret b.
Proof.
  destruct m as [a| | |]; cbn [bind].
  - split; [intros H; exists a; auto | intros (a' & H1 & H2); injection H1; intros ->; auto].
  - split; [discriminate | intros (a & H & _); discriminate].
  - split; [discriminate | intros (a & H & _); discriminate].
  - split; [discriminate | intros (a & H & _); discriminate].
Qed.

(** ** idx, upd, slice *)

Lemma idx_ret {A} (d : A) l i : i < length l -> idx l i = Ret (nth i l d).
Proof. intros H; unfold idx. rewrite (nth_error_nth' l d H). reflexivity. Qed.

Lemma idx_panic {A} (l : list A) i : length l <= i -> idx l i = Panic.
Proof. intros H; unfold idx. rewrite (proj2 (nth_error_None l i) H). reflexivity. Qed.

Lemma idx_some {A} (l : list A) i x : idx l i = Ret x <-> nth_error l i = Some x.
Proof. unfold idx; destruct (nth_error l i); split; congruence. Qed.

Lemma length_upd {A} (l : list A) i x : length (upd l i x) = length l.
Proof. revert i; induction l as [|h t IH]; intros [|i]; cbn; auto. Qed.

Lemma nth_error_upd {A} (l : list A) i j x :
  nth_error (upd l i x) j = if (j =? i) && (i <? length l) then Some x else nth_error l j.
Proof.
  revert i j; induction l as [|h t IH]; intros i j; cbn [upd length].
  - destruct i, j; cbn; rewrite ?andb_false_r; reflexivity.
  - destruct i as [|i], j as [|j]; cbn [nth_error]; try reflexivity.
    rewrite IH. reflexivity.
Qed.

Lemma nth_error_upd_same {A} (l : list A) i x :
  i < length l -> nth_error (upd l i x) i = Some x.
Proof.
  intros H; rewrite nth_error_upd, Nat.eqb_refl.
  apply Nat.ltb_lt in H; rewrite H; reflexivity.
Qed.

Lemma nth_error_upd_other {A} (l : list A) i j x :
  j <> i -> nth_error (upd l i x) j = nth_error l j.
Proof.
  intros H; rewrite nth_error_upd. apply Nat.eqb_neq in H; rewrite H; reflexivity.
Qed.

Lemma nth_upd {A} (l : list A) i j x d :
  nth j (upd l i x) d = if (j =? i) && (i <? length l) then x else nth j l d.
Proof.
  revert i j; induction l as [|h t IH]; intros i j; cbn [upd length].
  - destruct i, j; cbn; rewrite ?andb_false_r; reflexivity.
  - destruct i as [|i], j as [|j]; cbn [nth]; try reflexivity. apply IH.
Qed.

Lemma nth_upd_same {A} (l : list A) i x d : i < length l -> nth i (upd l i x) d = x.
Proof.
  intros H; rewrite nth_upd, Nat.eqb_refl. apply Nat.ltb_lt in H; rewrite H; reflexivity.
Qed.

Lemma nth_upd_other {A} (l : list A) i j x d : j <> i -> nth j (upd l i x) d = nth j l d.
Proof. intros H; rewrite nth_upd. apply Nat.eqb_neq in H; rewrite H; reflexivity. Qed.

Lemma set_idx_ret {A} (l : list A) i x : i < length l -> set_idx l i x = Ret (upd l i x).
Proof. intros H; unfold set_idx. apply Nat.ltb_lt in H; rewrite H; reflexivity. Qed.

Lemma slice_ret {A} (l : list A) a b :
  a <= b -> b <= length l -> slice l a b = Ret (firstn (b - a) (skipn a l)).
Proof.
  intros H1 H2; unfold slice.
  apply Nat.leb_le in H1; apply Nat.leb_le in H2; rewrite H1, H2; reflexivity.
Qed.

Lemma nth_error_ext {A} (l1 l2 : list A) :
  (forall i, nth_error l1 i = nth_error l2 i) -> l1 = l2.
Proof.
  revert l2; induction l1 as [|x l1 IH]; intros [|y l2] H; auto.
  - specialize (H 0); discriminate.
  - specialize (H 0); discriminate.
  - f_equal; [specialize (H 0); cbn in H; congruence|].
    apply IH; intros i; apply (H (S i)).
Qed.

Lemma nth_error_firstn {A} (l : list A) n i :
  nth_error (firstn n l) i = if i <? n then nth_error l i else None.
Proof.
  revert l i; induction n as [|n IH]; intros l i; cbn [firstn].
  - destruct i; reflexivity.
  - destruct l as [|x l].
    + destruct (i <? S n); destruct i; reflexivity.
    + destruct i as [|i]; cbn [nth_error]; [reflexivity|].
      rewrite IH. reflexivity.
Qed.

Lemma nth_error_skipn {A} (l : list A) n i : nth_error (skipn n l) i = nth_error l (n + i).
Proof.
  revert l; induction n as [|n IH]; intros l; cbn [skipn]; [reflexivity|].
  destruct l as [|x l]; [destruct i; reflexivity|]. apply IH.
Qed.

Lemma nth_error_seq a n i : nth_error (seq a n) i = if i <? n then Some (a + i) else None.
Proof.
  destruct (Nat.ltb_spec i n).
  - rewrite (nth_error_nth' _ 0) by (rewrite seq_length; lia). rewrite seq_nth by lia. reflexivity.
  - apply nth_error_None; rewrite seq_length; lia.
Qed.

Lemma nth_error_repeat_iff {A} (x : A) n i y :
  nth_error (repeat x n) i = Some y <-> i < n /\ y = x.
Proof.
  revert i; induction n as [|n IH]; intros i; cbn [repeat].
  - split; [destruct i; discriminate | lia].
  - destruct i as [|i]; cbn [nth_error].
    + split; [intros [= ->]; split; [lia|auto] | intros [_ ->]; auto].
    + rewrite IH. split; intros [H1 H2]; split; auto; lia.
Qed.

Lemma nth_error_map_iff {A B} (f : A -> B) l i y :
  nth_error (map f l) i = Some y <-> exists x, nth_error l i = Some x /\ f x = y.
Proof.
  rewrite nth_error_map. destruct (nth_error l i) as [x|]; cbn [option_map].
  - split; [intros [= <-]; eauto | intros (x' & [= <-] & <-); auto].
  - split; [discriminate | intros (x & H & _); discriminate].
Qed.

(** ** mapM, foldM *)

Lemma mapM_ret {A B} (f : A -> exec B) (g : A -> B) l :
  (forall x, In x l -> f x = Ret (g x)) -> mapM f l = Ret (map g l).
Proof.
  induction l as [|x l IH]; intros H; cbn [mapM map]; [reflexivity|].
  rewrite H by (left; auto). cbn [bind]. rewrite IH by (intros; apply H; right; auto). reflexivity.
Qed.

Lemma mapM_panic {A B} (f : A -> exec B) l :
  (forall x, In x l -> f x = Panic \/ exists y, f x = Ret y) ->
  (exists x, In x l /\ f x = Panic) -> mapM f l = Panic.
Proof.
  induction l as [|x l IH]; intros H (z & Hz & Hp); [destruct Hz|].
  cbn [mapM].
  destruct (H x (or_introl eq_refl)) as [E | (y & E)]; rewrite E; cbn [bind]; [reflexivity|].
  destruct Hz as [-> | Hz]; [congruence|].
  rewrite IH; [reflexivity | intros; apply H; right; auto | eauto].
Qed.

Lemma mapM_Forall2 {A B} (f : A -> exec B) l ys :
  mapM f l = Ret ys <-> Forall2 (fun x y => f x = Ret y) l ys.
Proof.
  revert ys; induction l as [|x l IH]; intros ys; cbn [mapM].
  - split; [intros [= <-]; constructor | intros H; inversion H; reflexivity].
  - rewrite bind_ret. split.
    + intros (y & Hy & H). apply bind_ret in H. destruct H as (ys' & Hys & [= <-]).
      constructor; auto. apply IH; auto.
    + intros H; inversion H as [|? y ? ys' Hy Hys]; subst. exists y; split; auto.
      apply bind_ret. exists ys'; split; auto. apply IH; auto.
Qed.

Lemma mapM_length {A B} (f : A -> exec B) l ys : mapM f l = Ret ys -> length ys = length l.
Proof. intros H; apply mapM_Forall2 in H. induction H; cbn; auto. Qed.

Lemma foldM_ret {A S} (f : S -> A -> exec S) (g : S -> A -> S) (I : S -> Prop) l s :
  I s -> (forall s x, I s -> In x l -> f s x = Ret (g s x) /\ I (g s x)) ->
  foldM f l s = Ret (fold_left g l s) /\ I (fold_left g l s).
Proof.
  revert s; induction l as [|x l IH]; intros s Hs H; cbn [foldM fold_left]; [auto|].
  destruct (H s x Hs (or_introl eq_refl)) as [E HI]. rewrite E. cbn [bind].
  apply IH; [exact HI | intros s' x' Hs' Hx'; apply H; [auto | right; auto]].
Qed.

Lemma foldM_app {A S} (f : S -> A -> exec S) l1 l2 s :
  foldM f (l1 ++ l2) s = bind (foldM f l1 s) (foldM f l2).
Proof.
  revert s; induction l1 as [|x l1 IH]; intros s; cbn [foldM app]; [reflexivity|].
  destruct (f s x); cbn [bind]; auto.
Qed.

(** ** enumerate, position, filter_map *)

Lemma length_enumerate_from {A} n (l : list A) : length (enumerate_from n l) = length l.
Proof. revert n; induction l; intros n; cbn; auto. Qed.

Lemma nth_error_enumerate_from {A} n (l : list A) i :
  nth_error (enumerate_from n l) i = option_map (fun x => (n + i, x)) (nth_error l i).
Proof.
  revert n i; induction l as [|x l IH]; intros n i; cbn [enumerate_from].
  - destruct i; reflexivity.
  - destruct i as [|i]; cbn [nth_error option_map]; [rewrite Nat.add_0_r; reflexivity|].
    rewrite IH. replace (S n + i) with (n + S i) by lia. reflexivity.
Qed.

Lemma In_enumerate_from {A} n (l : list A) i x :
  In (i, x) (enumerate_from n l) <-> n <= i /\ nth_error l (i - n) = Some x.
Proof.
  revert n; induction l as [|y l IH]; intros n; cbn [enumerate_from In].
  - split; [tauto | intros [_ H]; destruct (i - n); discriminate].
  - rewrite IH. split.
    + intros [[= -> ->] | [H1 H2]].
      * rewrite Nat.sub_diag; auto.
      * split; [lia|]. replace (i - n) with (S (i - S n)) by lia. exact H2.
    + intros [H1 H2]. destruct (Nat.eq_dec i n) as [->|Hne].
      * rewrite Nat.sub_diag in H2; cbn in H2. left; congruence.
      * right; split; [lia|]. replace (i - n) with (S (i - S n)) in H2 by lia. exact H2.
Qed.

Lemma In_enumerate {A} (l : list A) i x : In (i, x) (enumerate l) <-> nth_error l i = Some x.
Proof.
  unfold enumerate; rewrite In_enumerate_from, Nat.sub_0_r. split; [intros [_ H] | split]; auto; lia.
Qed.

Lemma enumerate_from_app {A} n (l1 l2 : list A) :
  enumerate_from n (l1 ++ l2) = enumerate_from n l1 ++ enumerate_from (n + length l1) l2.
Proof.
  revert n; induction l1 as [|x l1 IH]; intros n; cbn [enumerate_from app length].
  - rewrite Nat.add_0_r; reflexivity.
  - rewrite IH. replace (S n + length l1) with (n + S (length l1)) by lia. reflexivity.
Qed.

Lemma position_Some {A} (p : A -> bool) l i :
  position p l = Some i <->
  (exists x, nth_error l i = Some x /\ p x = true) /\
  (forall j x, j < i -> nth_error l j = Some x -> p x = false).
Proof.
  revert i; induction l as [|x l IH]; intros i; cbn [position].
  - split; [discriminate|]. intros [(x & H & _) _]; destruct i; discriminate.
  - destruct (p x) eqn:Hp.
    + split.
      * intros [= <-]. split; [exists x; auto | intros; lia].
      * intros [_ H]. destruct i as [|i]; [reflexivity|].
        specialize (H 0 x). rewrite H in Hp; [discriminate | lia | reflexivity].
    + destruct i as [|i].
      * split; [destruct (position p l); discriminate|].
        intros [(y & [= <-] & Hy) _]; congruence.
      * split.
        -- destruct (position p l) as [k|]; cbn [option_map]; [|discriminate].
           intros [= <-]. destruct (proj1 (IH k) eq_refl) as [H1 H2]. split; [exact H1|].
           intros [|j] y Hj Hy; [cbn in Hy; congruence | apply (H2 j); [lia|auto]].
        -- intros [H1 H2]. assert (position p l = Some i) as ->; [|reflexivity].
           apply IH; split; [exact H1 | intros j y Hj Hy; apply (H2 (S j)); [lia | auto]].
Qed.

Lemma position_None {A} (p : A -> bool) l :
  position p l = None <-> forall x, In x l -> p x = false.
Proof.
  induction l as [|x l IH]; cbn [position].
  - split; [intros _ x [] | auto].
  - destruct (p x) eqn:Hp.
    + split; [discriminate | intros H; rewrite H in Hp; [discriminate | left; auto]].
    + split.
      * destruct (position p l); [discriminate|]. intros _ y [<-|Hy]; [auto | apply IH; auto].
      * intros H. assert (position p l = None) as ->; [|reflexivity].
        apply IH; intros; apply H; right; auto.
Qed.

Lemma filter_map_app {A B} (f : A -> option B) l1 l2 :
  filter_map f (l1 ++ l2) = filter_map f l1 ++ filter_map f l2.
Proof.
  induction l1 as [|x l1 IH]; cbn; [reflexivity|]. destruct (f x); cbn; rewrite IH; reflexivity.
Qed.

Lemma In_filter_map {A B} (f : A -> option B) l y :
  In y (filter_map f l) <-> exists x, In x l /\ f x = Some y.
Proof.
  induction l as [|x l IH]; cbn [filter_map In].
  - split; [intros [] | intros (x & [] & _)].
  - destruct (f x) as [z|] eqn:E; cbn [In]; rewrite IH; split.
    + intros [<- | (x' & Hx' & Hf)]; eauto.
    + intros (x' & [<-|Hx'] & Hf); [left; congruence | eauto].
    + intros (x' & Hx' & Hf); eauto.
    + intros (x' & [<-|Hx'] & Hf); [congruence | eauto].
Qed.

Lemma list_eqb_eq a b : list_eqb a b = true <-> a = b.
Proof.
  revert b; induction a as [|x a IH]; intros [|y b]; cbn [list_eqb]; split; try congruence; auto.
  - intros H; apply andb_true_iff in H as [H1 H2].
    apply Nat.eqb_eq in H1 as ->; apply IH in H2 as ->; auto.
  - intros [= -> ->]. rewrite Nat.eqb_refl; apply IH; auto.
Qed.

Lemma str_eqb_eq a b : str_eqb a b = true <-> a = b.
Proof.
  revert b; induction a as [|x a IH]; intros [|y b]; cbn [str_eqb]; split; try congruence; auto.
  - intros H; apply andb_true_iff in H as [H1 H2].
    apply N.eqb_eq in H1 as ->; apply IH in H2 as ->; auto.
  - intros [= -> ->]. rewrite N.eqb_refl; apply IH; auto.
Qed.

(** ** Permutations of [0..n) as lists *)

Lemma NoDup_lt_all l :
  NoDup l -> Forall (fun b => b < length l) l -> forall b, b < length l -> In b l.
Proof.
  intros Hnd Hlt b Hb.
  assert (Hincl : incl l (seq 0 (length l))).
  { intros x Hx. rewrite Forall_forall in Hlt. apply in_seq. specialize (Hlt x Hx). lia. }
  assert (H : incl (seq 0 (length l)) l).
  { apply NoDup_length_incl; [exact Hnd | rewrite seq_length; lia | exact Hincl]. }
  apply H, in_seq; lia.
Qed.

Lemma lt_all_NoDup l :
  (forall b, b < length l -> In b l) -> NoDup l.
Proof.
  intros H.
  apply (@NoDup_incl_NoDup _ (seq 0 (length l)) l).
  - apply seq_NoDup.
  - rewrite seq_length; lia.
  - intros b Hb; apply in_seq in Hb; apply H; lia.
Qed.

Lemma NoDup_nth_error_inj {A} (l : list A) i j x :
  NoDup l -> nth_error l i = Some x -> nth_error l j = Some x -> i = j.
Proof.
  intros Hnd Hi Hj. rewrite NoDup_nth_error in Hnd. apply Hnd; [|congruence].
  apply nth_error_Some; congruence.
Qed.

Lemma NoDup_map_inj {A B} (f : A -> B) l :
  (forall x y, In x l -> In y l -> f x = f y -> x = y) -> NoDup l -> NoDup (map f l).
Proof.
  induction l as [|x l IH]; intros Hinj Hnd; cbn [map]; [constructor|].
  inversion Hnd as [|? ? Hx Hl]; subst. constructor.
  - intros Hin; apply in_map_iff in Hin as (y & Hy & Hyl).
    assert (y = x) as -> by (apply Hinj; [right; auto | left; auto | auto]). auto.
  - apply IH; auto. intros a b Ha Hb; apply Hinj; right; auto.
Qed.

Lemma Forall_lt_incl_seq l n : Forall (fun b => b < n) l <-> incl l (seq 0 n).
Proof.
  rewrite Forall_forall. split; intros H x Hx.
  - apply in_seq; specialize (H x Hx); lia.
  - specialize (H x Hx); apply in_seq in H; lia.
Qed.

Lemma NoDup_app_intro {A} (l1 l2 : list A) :
  NoDup l1 -> NoDup l2 -> (forall x, In x l1 -> In x l2 -> False) -> NoDup (l1 ++ l2).
Proof.
  induction l1 as [|x l1 IH]; intros H1 H2 H; cbn [app]; [exact H2|].
  inversion H1; subst. constructor.
  - intros Hin. apply in_app_iff in Hin as [Hin|Hin]; [contradiction|].
    apply (H x); [left|]; auto.
  - apply IH; auto. intros y Hy Hy'. apply (H y); [right|]; auto.
Qed.

Lemma NoDup_app_elim {A} (l1 l2 : list A) :
  NoDup (l1 ++ l2) -> NoDup l1 /\ NoDup l2 /\ (forall x, In x l1 -> In x l2 -> False).
Proof.
  induction l1 as [|x l1 IH]; cbn [app]; intros H; [repeat split; auto; constructor|].
  inversion H; subst. destruct (IH H3) as (H4 & H5 & H6). repeat split; auto.
  - constructor; auto. intros Hin; apply H2, in_app_iff; auto.
  - intros y [<-|Hy] Hy'; [apply H2, in_app_iff; auto | eauto].
Qed.
