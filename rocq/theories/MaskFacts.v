(** Proofs about masks. *)
From Verif Require Import Base Bell Stage Row Block Music Mask Spec SpecMask ListFacts BellFacts RowFacts MulFacts BlockFacts.
Local Open Scope list_scope.

(** ** Shapes of masks *)

Lemma specifies_cons_0 x m b : specifies (x :: m) 0 b <-> x = Some b.
Proof. unfold specifies; cbn. split; congruence. Qed.
Lemma specifies_cons_S x m p b : specifies (x :: m) (S p) b <-> specifies m p b.
Proof. reflexivity. Qed.

Definition mbells (m : list (option nat)) : list nat := filter_map (fun x => x) m.
Definition nopen (m : list (option nat)) : nat := length (filter (fun x => match x with None => true | Some _ => false end) m).

Lemma In_mbells m b : In b (mbells m) <-> exists p, specifies m p b.
Proof.
  unfold mbells. rewrite In_filter_map. split.
  - intros (x & Hx & ->). apply In_nth_error in Hx as [p Hp]. exists p; auto.
  - intros (p & Hp). exists (Some b). split; auto. eapply nth_error_In; eauto.
Qed.

Lemma once_NoDup m : each_bell_once m -> NoDup (mbells m).
Proof.
  induction m as [|[b|] m IH]; intros H; cbn; [constructor| |].
  - constructor.
    + intros Hin. fold (mbells m) in Hin. apply In_mbells in Hin as (p & Hp).
      assert (0 = S p) by (apply (H 0 (S p) b); auto; reflexivity). discriminate.
    + apply IH. intros p q c Hp Hq. assert (S p = S q) by (apply (H (S p) (S q) c); auto). lia.
  - apply IH. intros p q c Hp Hq. assert (S p = S q) by (apply (H (S p) (S q) c); auto). lia.
Qed.

Lemma NoDup_once m : NoDup (mbells m) -> each_bell_once m.
Proof.
  induction m as [|[b|] m IH]; cbn; intros H p q c Hp Hq.
  - destruct p; discriminate.
  - inversion H as [|? ? Hn Hd]; subst.
    destruct p as [|p], q as [|q]; auto.
    + injection Hp as ->. exfalso. apply Hn, In_mbells. exists q; auto.
    + injection Hq as ->. exfalso. apply Hn, In_mbells. exists p; auto.
    + f_equal. apply (IH Hd p q c); auto.
  - destruct p as [|p], q as [|q]; try discriminate. f_equal. apply (IH H p q c); auto.
Qed.

Lemma length_mbells m : length (mbells m) + nopen m = length m.
Proof. unfold mbells, nopen. induction m as [|[b|] m IH]; cbn; lia. Qed.

(** ** Completing a mask *)

Fixpoint fill (m : list (option nat)) (fs : list nat) : list nat :=
  match m with
  | [] => []
  | Some b :: t => b :: fill t fs
  | None :: t => match fs with f :: fs' => f :: fill t fs' | [] => 0 :: fill t [] end
  end.

Definition free (m : list (option nat)) : list nat :=
  filter (fun b => negb (existsb (Nat.eqb b) (mbells m))) (seq 0 (length m)).

Lemma length_fill m fs : length (fill m fs) = length m.
Proof. revert fs; induction m as [|[b|] m IH]; intros fs; cbn; [auto|rewrite IH; auto|]. destruct fs; cbn; rewrite IH; auto. Qed.

Lemma fill_fits m fs : fits m (fill m fs).
Proof.
  split; [apply length_fill|]. revert fs.
  induction m as [|[c|] m IH]; intros fs p b Hp; [destruct p; discriminate| |].
  - destruct p as [|p]; [unfold specifies in Hp; cbn in *; congruence|]; cbn. apply IH, Hp.
  - destruct p as [|p]; [discriminate|]. destruct fs; cbn; apply IH, Hp.
Qed.

Lemma fill_perm m fs : length fs = nopen m -> Permutation (fill m fs) (mbells m ++ fs).
Proof.
  unfold nopen, mbells. revert fs; induction m as [|[b|] m IH]; cbn; intros fs H.
  - destruct fs; [constructor|discriminate].
  - constructor. apply IH, H.
  - destruct fs as [|f fs]; [discriminate|]. rewrite IH by (cbn in H; lia).
    apply Permutation_cons_app. reflexivity.
Qed.

Lemma In_free m b : In b (free m) <-> b < length m /\ ~ In b (mbells m).
Proof.
  unfold free. rewrite filter_In, in_seq, negb_true_iff. split.
  - intros [H1 H2]. split; [lia|]. intros H. apply not_true_iff_false in H2. apply H2.
    apply existsb_exists. exists b. split; auto. apply Nat.eqb_refl.
  - intros [H1 H2]. split; [lia|]. apply not_true_iff_false. intros H. apply H2.
    apply existsb_exists in H as (x & Hx & E). apply Nat.eqb_eq in E; subst; auto.
Qed.

Lemma NoDup_free m : NoDup (free m).
Proof. apply NoDup_filter, seq_NoDup. Qed.

Lemma wf_perm m : well_formed_mask m -> Permutation (mbells m ++ free m) (seq 0 (length m)).
Proof.
  intros (H1 & H2 & H3). apply NoDup_Permutation; [|apply seq_NoDup|].
  - apply NoDup_app_intro; [apply once_NoDup; auto|apply NoDup_free|].
    intros x Hx Hf. apply In_free in Hf. tauto.
  - intros x. rewrite in_app_iff, In_free, in_seq. split.
    + intros [H|H]; [|lia]. apply In_mbells in H as (p & Hp). specialize (H3 _ _ Hp). lia.
    + intros H. destruct (in_dec Nat.eq_dec x (mbells m)); [auto|right; split; auto; lia].
Qed.

Lemma length_free m : well_formed_mask m -> length (free m) = nopen m.
Proof.
  intros H. pose proof (Permutation_length (wf_perm m H)) as L. rewrite app_length, seq_length in L.
  pose proof (length_mbells m). lia.
Qed.

Lemma fill_valid m fs : well_formed_mask m -> Permutation fs (free m) -> valid_row (fill m fs).
Proof.
  intros H P. apply valid_row_perm. split.
  - destruct H as [H _]. destruct m as [|[b|] m]; [congruence|discriminate|destruct fs; discriminate].
  - rewrite length_fill, fill_perm, P; [apply wf_perm; auto|].
    rewrite (Permutation_length P). apply length_free; auto.
Qed.

Lemma completion m : well_formed_mask m -> exists r, valid_row r /\ fits m r.
Proof. intros H. exists (fill m (free m)). split; [apply fill_valid; auto|apply fill_fits]. Qed.

(** The bells of a row in the open places. *)
Fixpoint holes (m : list (option nat)) (r : list nat) : list nat :=
  match m, r with
  | None :: m', b :: r' => b :: holes m' r'
  | Some _ :: m', _ :: r' => holes m' r'
  | _, _ => []
  end.

Lemma fits_cons x m b r : fits (x :: m) (b :: r) <-> (match x with Some c => c = b | None => True end) /\ fits m r.
Proof.
  unfold fits; cbn [length]. split.
  - intros [L H]. splits.
    + destruct x as [c|]; auto. specialize (H 0 c eq_refl). cbn in H; congruence.
    + lia.
    + intros p c Hp. apply (H (S p) c Hp).
  - intros (E & L & H). split; [lia|]. intros [|p] c Hp.
    + apply specifies_cons_0 in Hp; subst x. cbn; congruence.
    + apply H, Hp.
Qed.

Lemma fits_nil r : fits [] r <-> r = [].
Proof. unfold fits. split; [intros [L _]; destruct r; [auto|discriminate]|intros ->; split; auto; intros [|p] b; discriminate]. Qed.

Lemma length_holes m r : length r = length m -> length (holes m r) = nopen m.
Proof. unfold nopen. revert r; induction m as [|[c|] m IH]; intros [|b r] L; cbn in *; try discriminate; auto. Qed.

Lemma fits_fill m r : fits m r -> r = fill m (holes m r).
Proof.
  revert r; induction m as [|[c|] m IH]; intros r F.
  - apply fits_nil in F; auto.
  - destruct r as [|b r]; [destruct F as [L _]; discriminate L|]. apply fits_cons in F as [E F]. cbn. subst. f_equal; auto.
  - destruct r as [|b r]; [destruct F as [L _]; discriminate L|]. apply fits_cons in F as [E F]. cbn. f_equal; auto.
Qed.

Lemma fits_wf m r : valid_row r -> fits m r -> well_formed_mask m.
Proof.
  intros V [L F]. unfold well_formed_mask, each_bell_once; splits.
  - apply valid_row_pos in V. destruct m; [cbn in L; lia|discriminate].
  - intros p q b Hp Hq. apply F in Hp, Hq. eapply NoDup_nth_error_inj; eauto. apply valid_row_NoDup, V.
  - intros p b Hp. apply F in Hp. rewrite <- L. eapply valid_row_nth_error_lt; eauto.
Qed.

Lemma holes_perm m r : valid_row r -> fits m r -> Permutation (holes m r) (free m).
Proof.
  intros V F. pose proof (fits_wf m r V F) as W.
  pose proof (wf_perm m W) as P. rewrite valid_row_perm in V. destruct V as [_ V].
  pose proof (fill_perm m (holes m r) (length_holes m r (proj1 F))) as Q. rewrite <- (fits_fill m r F) in Q.
  rewrite (proj1 F) in V. apply (Permutation_app_inv_l (mbells m)).
  etransitivity; [symmetry; exact Q|]. etransitivity; [exact V|]. symmetry; exact P.
Qed.

(** ** All the permutations of a list *)

Fixpoint inserts {A} (x : A) (l : list A) : list (list A) :=
  match l with
  | [] => [[x]]
  | y :: t => (x :: y :: t) :: map (cons y) (inserts x t)
  end.
Fixpoint perms {A} (l : list A) : list (list A) :=
  match l with
  | [] => [[]]
  | x :: t => flat_map (inserts x) (perms t)
  end.

Lemma In_inserts {A} (x : A) l p : In p (inserts x l) <-> exists l1 l2, l = l1 ++ l2 /\ p = l1 ++ x :: l2.
Proof.
  revert p; induction l as [|y l IH]; intros p; cbn.
  - split.
    + intros [<-|[]]. exists [], []; auto.
    + intros (l1 & l2 & E & ->). symmetry in E. apply app_eq_nil in E as [-> ->]. auto.
  - rewrite in_map_iff. split.
    + intros [<-|(q & <- & Hq)]; [exists [], (y :: l); auto|].
      apply IH in Hq as (l1 & l2 & -> & ->). exists (y :: l1), l2; auto.
    + intros (l1 & l2 & E & ->). destruct l1 as [|z l1]; cbn in E.
      * left. rewrite <- E; auto.
      * injection E as <- ->. right. exists (l1 ++ x :: l2). split; auto. apply IH; eauto.
Qed.

Lemma In_perms {A} (l p : list A) : In p (perms l) <-> Permutation l p.
Proof.
  revert p; induction l as [|x l IH]; intros p; cbn.
  - split; [intros [<-|[]]; auto|intros H; apply Permutation_nil in H; auto].
  - rewrite in_flat_map. split.
    + intros (q & Hq & Hp). apply IH in Hq. apply In_inserts in Hp as (l1 & l2 & -> & ->).
      apply Permutation_cons_app; auto.
    + intros H. assert (Hx : In x p) by (eapply Permutation_in; [eauto|left; auto]).
      apply in_split in Hx as (l1 & l2 & ->). apply Permutation_cons_app_inv in H.
      exists (l1 ++ l2). split; [apply IH; auto|apply In_inserts; eauto].
Qed.

Lemma length_inserts {A} (x : A) l : length (inserts x l) = S (length l).
Proof. induction l; cbn; auto. rewrite map_length, IHl; auto. Qed.

Lemma length_flat_map_const {A B} (f : A -> list B) n l :
  (forall x, In x l -> length (f x) = n) -> length (flat_map f l) = length l * n.
Proof.
  induction l as [|x l IH]; intros H; cbn; auto.
  rewrite app_length, IH, (H x); auto; [left; auto|intros; apply H; right; auto].
Qed.

Lemma length_perms {A} (l : list A) : length (perms l) = fact (length l).
Proof.
  induction l as [|x l IH]; auto. cbn [perms length fact].
  rewrite (length_flat_map_const _ (S (length l))), IH.
  - rewrite Nat.mul_succ_r. cbn. rewrite Nat.mul_comm. lia.
  - intros q Hq. rewrite length_inserts. apply In_perms, Permutation_length in Hq. lia.
Qed.

Lemma NoDup_flat_map {A B} (f : A -> list B) l :
  NoDup l -> (forall x, In x l -> NoDup (f x)) ->
  (forall x y z, In x l -> In y l -> In z (f x) -> In z (f y) -> x = y) -> NoDup (flat_map f l).
Proof.
  induction l as [|x l IH]; intros N H D; cbn; [constructor|].
  inversion N as [|? ? Nx Nl]; subst. apply NoDup_app_intro.
  - apply H; left; auto.
  - apply IH; auto; [intros; apply H; right; auto|intros; eapply D; eauto; right; auto].
  - intros z Hz Hf. apply in_flat_map in Hf as (y & Hy & Hzy).
    apply Nx. rewrite (D x y z); auto; [left; auto|right; auto].
Qed.

Lemma NoDup_inserts {A} (x : A) l : ~ In x l -> NoDup (inserts x l).
Proof.
  induction l as [|y l IH]; intros H; cbn; [repeat constructor; auto|].
  constructor.
  - rewrite in_map_iff. intros (q & E & _). injection E as -> _. apply H; left; auto.
  - apply FinFun.Injective_map_NoDup; [intros a b E; congruence|]. apply IH. intros K; apply H; right; auto.
Qed.

Lemma insert_inj {A} (x : A) l1 l2 k1 k2 :
  ~ In x (l1 ++ l2) -> ~ In x (k1 ++ k2) -> l1 ++ x :: l2 = k1 ++ x :: k2 -> l1 ++ l2 = k1 ++ k2.
Proof.
  revert k1; induction l1 as [|a l1 IH]; intros [|b k1] H1 H2 E; cbn in *.
  - congruence.
  - injection E as -> _. exfalso. apply H2; auto.
  - injection E as -> _. exfalso. apply H1; auto.
  - injection E as -> E. f_equal. apply IH; auto.
Qed.

Lemma NoDup_perms {A} (l : list A) : NoDup l -> NoDup (perms l).
Proof.
  induction l as [|x l IH]; intros N; cbn; [repeat constructor; auto|].
  inversion N as [|? ? Nx Nl]; subst.
  assert (K : forall q, In q (perms l) -> ~ In x q).
  { intros q Hq Hx. apply In_perms in Hq. apply Nx. eapply Permutation_in; [symmetry; eauto|auto]. }
  apply NoDup_flat_map; [auto|intros q Hq; apply NoDup_inserts; auto|].
  intros q r z Hq Hr Zq Zr. apply K in Hq, Hr.
  apply In_inserts in Zq as (l1 & l2 & -> & ->). apply In_inserts in Zr as (k1 & k2 & -> & E).
  eapply insert_inj; eauto.
Qed.

(** ** Counting the rows that fit *)

Lemma fill_inj m fs gs : length fs = nopen m -> length gs = nopen m -> fill m fs = fill m gs -> fs = gs.
Proof.
  unfold nopen. revert fs gs; induction m as [|[b|] m IH]; cbn; intros fs gs Lf Lg E.
  - destruct fs, gs; try discriminate; auto.
  - injection E; auto.
  - destruct fs as [|f fs], gs as [|g gs]; try discriminate. injection E as -> E. f_equal.
    apply IH; cbn in *; auto.
Qed.

Lemma NoDup_map_inj' {A B} (f : A -> B) l :
  NoDup l -> (forall x y, In x l -> In y l -> f x = f y -> x = y) -> NoDup (map f l).
Proof.
  induction l as [|a l IH]; intros N H; cbn; [constructor|]. inversion N; subst. constructor.
  - rewrite in_map_iff. intros (y & E & Hy). assert (y = a) by (apply H; auto; [right; auto|left; auto]). congruence.
  - apply IH; auto. intros; apply H; auto; right; auto.
Qed.

Lemma count_fits m : well_formed_mask m ->
  there_are (fact (nopen m)) (fun r => valid_row r /\ fits m r).
Proof.
  intros W. exists (map (fill m) (perms (free m))).
  assert (L : forall q, In q (perms (free m)) -> length q = nopen m).
  { intros q Hq. apply In_perms, Permutation_length in Hq. rewrite <- Hq. apply length_free; auto. }
  splits.
  - rewrite map_length, length_perms, length_free; auto.
  - apply NoDup_map_inj'; [apply NoDup_perms, NoDup_free|].
    intros x y Hx Hy E. eapply fill_inj; eauto.
  - intros r. rewrite in_map_iff. split.
    + intros (q & <- & Hq). apply In_perms in Hq. split; [apply fill_valid; auto; symmetry; auto|apply fill_fits].
    + intros [V F]. exists (holes m r). split; [symmetry; apply fits_fill; auto|].
      apply In_perms. symmetry. apply holes_perm; auto.
Qed.
