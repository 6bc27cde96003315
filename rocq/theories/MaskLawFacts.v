(** Proofs for the laws of masks. *)
From Verif Require Import Base Bell Stage Row Block Music Mask Spec SpecMask ListFacts BellFacts RowFacts MulFacts BlockFacts
  MaskFacts MaskFacts2.
Local Open Scope list_scope.

Lemma nth_error_ext {A} (l k : list A) : (forall i, nth_error l i = nth_error k i) -> l = k.
Proof.
  revert k; induction l as [|x l IH]; intros [|y k] H; auto; try (specialize (H 0); discriminate).
  f_equal; [specialize (H 0); cbn in H; congruence|]. apply IH. intros i. exact (H (S i)).
Qed.

Lemma mask_ext a b : length a = length b -> (forall p x, specifies a p x <-> specifies b p x) -> a = b.
Proof.
  intros L H. apply nth_error_ext. intros i.
  destruct (nth_error a i) as [[x|]|] eqn:E.
  - symmetry. apply H. exact E.
  - destruct (nth_error b i) as [[y|]|] eqn:E'; auto.
    + apply H in E'. unfold specifies in E'. congruence.
    + apply nth_error_None in E'. assert (i < length a) by (apply nth_error_Some; congruence). lia.
  - symmetry. apply nth_error_None. apply nth_error_None in E. lia.
Qed.

Lemma specifies_lt m p x : specifies m p x -> p < length m.
Proof. intros H. apply nth_error_Some. unfold specifies in H. congruence. Qed.

(** The mask which asks for what one of the two asks for. *)
Definition joined (a b c : list (option nat)) : Prop :=
  length c = length a /\ forall p x, specifies c p x <-> specifies a p x \/ specifies b p x.

Lemma compat_joined a b : compat a b -> joined a b (merge a b).
Proof.
  intros [L C]. split; [apply length_merge; auto|]. intros p x. rewrite merge_specifies by auto. split; [tauto|].
  intros [H|H]; auto. destruct (specifies_dec a p) as [(y & Hy)|[Ho|Hl]]; auto.
  - left. rewrite <- (proj1 (C p x H) y Hy); auto.
  - apply specifies_lt in H. lia.
Qed.

Lemma joined_fun a b c d : joined a b c -> joined a b d -> c = d.
Proof. intros [L1 H1] [L2 H2]. apply mask_ext; [congruence|]. intros p x. rewrite H1, H2. tauto. Qed.

Lemma compat_sym a b : compat a b -> compat b a.
Proof.
  intros [L C]. split; auto. intros i y Hy. split.
  - intros x Hx. symmetry. apply (proj1 (C i x Hx)); auto.
  - intros q Hq. symmetry. apply (proj2 (C q y Hq)); auto.
Qed.

Lemma compat_refl a : each_bell_once a -> compat a a.
Proof.
  intros O. split; auto. intros i y Hy. split; [|intros q Hq; eapply O; eauto].
  intros x Hx. unfold specifies in *. congruence.
Qed.

Lemma joined_once a b c : each_bell_once a -> each_bell_once b -> compat a b -> joined a b c -> each_bell_once c.
Proof.
  intros Oa Ob [L C] [_ J] p q x Hp Hq. apply J in Hp, Hq. destruct Hp as [Hp|Hp], Hq as [Hq|Hq].
  - eapply Oa; eauto.
  - apply (C q x Hq); auto.
  - symmetry. apply (C p x Hp); auto.
  - eapply Ob; eauto.
Qed.

Lemma joined_nonempty a b c : a <> [] -> joined a b c -> c <> [].
Proof. intros H [L _] ->. apply H. destruct a; auto; discriminate. Qed.

Lemma compat_joined_l a b c d : length a = length b -> joined a b c -> (compat c d <-> compat a d /\ compat b d).
Proof.
  intros L [Lc J]. unfold compat. split.
  - intros [L' C]. split; (split; [congruence|]); intros i y Hy; destruct (C i y Hy) as [C1 C2]; split;
      intros; (apply C1 || apply C2); apply J; auto.
  - intros [[L1 C1] [_ C2]]. split; [congruence|]. intros i y Hy. destruct (C1 i y Hy), (C2 i y Hy). split; intros z Hz;
      apply J in Hz as [Hz|Hz]; auto.
Qed.

(** What [combine] gives. *)
Lemma combine_gives a b : a <> [] -> b <> [] -> each_bell_once a ->
  (compat a b /\ exists c, mask_combine a b = Ret (Some c) /\ joined a b c) \/ (~ compat a b /\ mask_combine a b = Ret None).
Proof.
  intros Ha Hb O. destruct (mask_compat_ok a b Ha Hb O) as (v & E & V). destruct (mask_combine_ok a b Ha Hb O) as [S N].
  destruct v.
  - left. assert (C : compat a b) by (apply V; auto). split; auto. exists (merge a b). split; auto. apply compat_joined; auto.
  - right. assert (C : ~ compat a b) by (intros C; apply V in C; discriminate). auto.
Qed.

Lemma combine_joined a b c : a <> [] -> b <> [] -> each_bell_once a -> compat a b -> joined a b c -> mask_combine a b = Ret (Some c).
Proof.
  intros Ha Hb O C J. destruct (mask_combine_ok a b Ha Hb O) as [S _]. rewrite (S C). do 2 f_equal.
  eapply joined_fun; [apply compat_joined; auto|auto].
Qed.

Lemma combine_none a b : a <> [] -> b <> [] -> each_bell_once a -> ~ compat a b -> mask_combine a b = Ret None.
Proof. intros Ha Hb O C. apply (mask_combine_ok a b Ha Hb O); auto. Qed.

Lemma compat_dec a b : each_bell_once a -> compat a b \/ ~ compat a b.
Proof.
  intros O. destruct a as [|x a], b as [|y b].
  - left. split; auto. intros [|i]; discriminate.
  - right. intros [L _]; discriminate.
  - right. intros [L _]; discriminate.
  - destruct (mask_compat_ok (x :: a) (y :: b)) as (v & _ & V); try discriminate; auto.
    destruct v; [left; apply V; auto|right; intros C; apply V in C; discriminate].
Qed.

Lemma joined_sym a b c : length a = length b -> joined a b c -> joined b a c.
Proof. intros L [Lc J]. split; [congruence|]. intros p x. rewrite J. tauto. Qed.

Lemma combine_comm a b : a <> [] -> b <> [] -> each_bell_once a -> each_bell_once b -> mask_combine a b = mask_combine b a.
Proof.
  intros Ha Hb Oa Ob. destruct (combine_gives a b Ha Hb Oa) as [(C & c & E & J)|[C E]]; rewrite E; symmetry.
  - apply combine_joined; auto using compat_sym. apply joined_sym; auto. apply C.
  - apply combine_none; auto. intros K. apply C, compat_sym; auto.
Qed.

Lemma compat_comm a b : a <> [] -> b <> [] -> each_bell_once a -> each_bell_once b ->
  mask_is_compatible_with a b = mask_is_compatible_with b a.
Proof.
  intros Ha Hb Oa Ob. destruct (mask_compat_ok a b Ha Hb Oa) as (v & -> & V). destruct (mask_compat_ok b a Hb Ha Ob) as (w & -> & W).
  f_equal. apply Bool.eq_iff_eq_true. rewrite V, W. split; apply compat_sym.
Qed.

Definition both (a : exec (option (list (option nat)))) (f : list (option nat) -> exec (option (list (option nat)))) :=
  o <- a;; match o with Some x => f x | None => Ret None end.

Lemma combine_assoc a b c : a <> [] -> b <> [] -> c <> [] -> each_bell_once a -> each_bell_once b -> each_bell_once c ->
  both (mask_combine a b) (fun ab => mask_combine ab c) = both (mask_combine b c) (fun bc => mask_combine a bc).
Proof.
  intros Ha Hb Hc Oa Ob Oc. unfold both.
  destruct (combine_gives a b Ha Hb Oa) as [(C1 & ab & E1 & J1)|[C1 E1]]; rewrite E1; cbn [bind];
  destruct (combine_gives b c Hb Hc Ob) as [(C2 & bc & E2 & J2)|[C2 E2]]; rewrite E2; cbn [bind]; auto.
  - pose proof (joined_once _ _ _ Oa Ob C1 J1) as O1. pose proof (joined_once _ _ _ Ob Oc C2 J2) as O2.
    pose proof (joined_nonempty _ _ _ Ha J1) as N1. pose proof (joined_nonempty _ _ _ Hb J2) as N2.
    assert (L1 : length a = length b) by apply C1. assert (L2 : length b = length c) by apply C2.
    pose proof (compat_joined_l a b ab c L1 J1) as K1. pose proof (compat_joined_l b c bc a L2 J2) as K2.
    destruct (combine_gives ab c N1 Hc O1) as [(C3 & d & E3 & J3)|[C3 E3]]; rewrite E3; symmetry.
    + assert (C4 : compat a bc).
      { apply compat_sym, K2. apply K1 in C3 as [C3 _]. split; apply compat_sym; auto. }
      apply combine_joined; auto. destruct J1 as [M1 J1], J2 as [M2 J2], J3 as [M3 J3]. split; [congruence|].
      intros p x. rewrite J3, J1, J2. tauto.
    + apply combine_none; auto. intros C4. apply C3, K1. apply compat_sym, K2 in C4 as [_ C4]. split; auto. apply compat_sym; auto.
  - pose proof (joined_once _ _ _ Oa Ob C1 J1) as O1. pose proof (joined_nonempty _ _ _ Ha J1) as N1.
    apply combine_none; auto. intros C3. apply C2. apply (compat_joined_l a b ab c) in C3; auto; [tauto|apply C1].
  - pose proof (joined_once _ _ _ Ob Oc C2 J2) as O2. pose proof (joined_nonempty _ _ _ Hb J2) as N2. symmetry.
    apply combine_none; auto. intros C3. apply C1. apply compat_sym, (compat_joined_l b c bc a) in C3; auto; [|apply C2].
    apply compat_sym. tauto.
Qed.

Lemma subset_true a b : a <> [] -> b <> [] ->
  (mask_is_subset_of a b = Ret true <-> length a = length b /\ forall p x, specifies b p x -> specifies a p x).
Proof.
  intros Ha Hb. destruct (mask_subset_ok a b Ha Hb) as (v & E & V). rewrite E, <- V. split; congruence.
Qed.

Lemma subset_iff a b c d : a <> [] -> b <> [] -> c <> [] -> d <> [] ->
  ((length a = length b /\ forall p x, specifies b p x -> specifies a p x) <->
   (length c = length d /\ forall p x, specifies d p x -> specifies c p x)) ->
  mask_is_subset_of a b = mask_is_subset_of c d.
Proof.
  intros Ha Hb Hc Hd H. destruct (mask_subset_ok a b Ha Hb) as (v & -> & V). destruct (mask_subset_ok c d Hc Hd) as (w & -> & W).
  f_equal. apply Bool.eq_iff_eq_true. tauto.
Qed.

(** ** Products *)

(** What the two products ask for. *)
Lemma mul_row_places m r : valid_row r -> length m = length r ->
  exists m', mask_mul_row m r = Ret m' /\ length m' = length m /\
    forall p, nth_error m' p = match nth_error r p with Some b => nth_error m b | None => None end.
Proof. intros V L. destruct (mask_mul_row_ok m r V L) as (m' & E & L' & H). exists m'. splits; auto. congruence. Qed.

Lemma mask_range_dec (m : list (option nat)) n :
  (forall p b, specifies m p b -> b < n) \/ exists p b, specifies m p b /\ n <= b.
Proof.
  induction m as [|x m IH]; [left; intros [|p] b; discriminate|].
  destruct x as [b|].
  - destruct (Nat.ltb_spec b n) as [K|K].
    + destruct IH as [IH|(p & c & H & G)].
      * left. intros [|p] c Hp; [apply specifies_cons_0 in Hp; congruence|apply (IH p), Hp].
      * right. exists (S p), c. auto.
    + right. exists 0, b. split; auto. reflexivity.
  - destruct IH as [IH|(p & c & H & G)].
    + left. intros [|p] c Hp; [discriminate|apply (IH p), Hp].
    + right. exists (S p), c. auto.
Qed.

Lemma valid_onto r : valid_row r -> forall q, q < length r -> exists p, nth_error r p = Some q.
Proof. intros (_ & _ & H) q Hq. apply H in Hq. apply In_nth_error in Hq. auto. Qed.

Lemma mul_specifies m r m' : valid_row r -> length m = length r ->
  (forall p, nth_error m' p = match nth_error r p with Some b => nth_error m b | None => None end) ->
  forall p x, specifies m' p x <-> exists q, nth_error r p = Some q /\ specifies m q x.
Proof.
  intros V L H p x. unfold specifies. rewrite H. destruct (nth_error r p) as [q|].
  - split; [eauto|]. intros (q' & [= ->] & G); auto.
  - split; [discriminate|]. intros (q & G & _); discriminate.
Qed.

Lemma lmul_specifies r m m' :
  (forall p, nth_error m' p = match nth_error m p with Some (Some b) => option_map Some (nth_error r b) | x => x end) ->
  forall p y, specifies m' p y <-> exists x, specifies m p x /\ nth_error r x = Some y.
Proof.
  intros H p y. unfold specifies. rewrite H. destruct (nth_error m p) as [[x|]|].
  - destruct (nth_error r x) eqn:E; cbn; split.
    + intros [= ->]. eauto.
    + intros (x' & [= ->] & G). congruence.
    + discriminate.
    + intros (x' & [= ->] & G). congruence.
  - split; [discriminate|]. intros (x & G & _); discriminate.
  - split; [discriminate|]. intros (x & G & _); discriminate.
Qed.

Lemma compat_map a b a' b' n (f : nat -> nat -> Prop) :
  length a' = length a -> length b' = length b -> length a = n ->
  (forall q, q < n -> exists p, f p q) -> (forall p q q', f p q -> f p q' -> q = q') -> (forall p p' q, f p q -> f p' q -> p = p') ->
  (forall p x, specifies a' p x <-> exists q, f p q /\ specifies a q x) ->
  (forall p x, specifies b' p x <-> exists q, f p q /\ specifies b q x) ->
  (compat a' b' <-> compat a b).
Proof.
  intros La Lb Ln On Fu In Ha Hb. unfold compat. split.
  - intros [L C]. split; [congruence|]. intros i y Hy.
    destruct (On i) as (p & P); [apply specifies_lt in Hy; congruence|].
    destruct (C p y) as [C1 C2]; [apply Hb; eauto|]. split.
    + intros x Hx. apply C1. apply Ha. eauto.
    + intros q Hq. destruct (On q) as (p' & P'); [apply specifies_lt in Hq; congruence|].
      assert (p' = p) by (apply C2, Ha; eauto). subst. eauto.
  - intros [L C]. split; [congruence|]. intros p y Hy. apply Hb in Hy as (i & P & Hy). destruct (C i y Hy) as [C1 C2]. split.
    + intros x Hx. apply Ha in Hx as (q & Q & Hx). assert (q = i) by eauto. subst. auto.
    + intros q Hq. apply Ha in Hq as (j & Q & Hq). assert (j = i) by auto. subst. eauto.
Qed.
