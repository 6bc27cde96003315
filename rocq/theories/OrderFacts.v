(** Facts for what the order in which hash maps are iterated over may change. *)
From Verif Require Import Base Spec ListFacts Bell Stage Row Utils SameStageVec Block PlaceNot Class Method Library Serde Json
  SpecLib SpecOrder LibFacts.
Local Open Scope list_scope.

(** ** The crossing sections of a treble dodging method *)

Definition cross_at {A} (b : block A) (i : nat) : exec bool :=
  r1 <- unwrap (block_get_row b i);;
  r2 <- unwrap (block_get_row b (i + 1));;
  between <- pn_between r1 r2;;
  pn <- unwrap between;;
  pn_has_internal_places pn.

Lemma zip_eq_or_panic {X Y} (l : list X) : forall (m : list Y), zip_eq l m = Panic \/ exists v, zip_eq l m = Ret v.
Proof.
  induction l as [|x l IH]; intros [|y m]; cbn [zip_eq]; eauto.
  destruct (IH m) as [->|(v & ->)]; cbn [bind]; eauto.
Qed.

Lemma cross_at_or_panic {A} (b : block A) i : cross_at b i = Panic \/ exists v, cross_at b i = Ret v.
Proof.
  unfold cross_at. destruct (block_get_row b i) as [r1|]; cbn [unwrap bind]; auto.
  destruct (block_get_row b (i + 1)) as [r2|]; cbn [unwrap bind]; auto.
  unfold pn_between.
  assert (R : forall r, row_stage r = Panic \/ exists v, row_stage r = Ret v)
    by (intros r; unfold row_stage, stage_new; destruct (stage_try_from (length r)); cbn [unwrap_res]; eauto).
  destruct (R r1) as [->|(s1 & ->)]; cbn [bind]; auto. destruct (R r2) as [->|(s2 & ->)]; cbn [bind]; auto.
  destruct (negb (s1 =? s2)); cbn [bind unwrap]; auto.
  destruct (zip_eq_or_panic r1 r2) as [->|(v & ->)]; cbn [bind]; auto.
  destruct (pnb_loop (enumerate v)) as [ps|]; cbn [bind unwrap]; auto. unfold pn_has_internal_places, assert_. cbn [pn_stage].
  destruct (1 <=? s1); cbn [bind]; eauto.
Qed.

Lemma cross_loop_step {A} (b : block A) i l x y :
  cross_loop b (i :: l) x y = (v <- cross_at b i;; if v then cross_loop b l x false else cross_loop b l false y).
Proof.
  cbn [cross_loop]. unfold cross_at.
  destruct (unwrap (block_get_row b i)); cbn [bind]; auto.
  destruct (unwrap (block_get_row b (i + 1))); cbn [bind]; auto.
  destruct (pn_between a a0); cbn [bind]; auto. destruct (unwrap a1); cbn [bind]; auto.
Qed.

Definition internal_at {A} (b : block A) (i : nat) : bool := match cross_at b i with Ret v => v | _ => false end.

Lemma cross_loop_all {A} (b : block A) l : (forall i, In i l -> cross_at b i <> Panic) -> forall x y,
  cross_loop b l x y = Ret (x && forallb (internal_at b) l, y && forallb (fun i => negb (internal_at b i)) l).
Proof.
  induction l as [|i l IH]; intros H x y.
  - cbn. rewrite !andb_true_r. reflexivity.
  - rewrite cross_loop_step. cbn [forallb]. unfold internal_at at 1 3.
    destruct (cross_at_or_panic b i) as [E|(v & E)]; [exfalso; apply (H i (or_introl eq_refl) E)|]. rewrite E. cbn [bind].
    destruct v; rewrite IH by (intros; apply H; right; auto); f_equal; f_equal;
      rewrite ?andb_false_r, ?andb_false_l, ?andb_true_l; reflexivity.
Qed.

Lemma cross_loop_panic {A} (b : block A) l : (exists i, In i l /\ cross_at b i = Panic) -> forall x y,
  cross_loop b l x y = Panic.
Proof.
  induction l as [|i l IH]; intros (j & Hj & E) x y; [destruct Hj|]. rewrite cross_loop_step.
  destruct (cross_at_or_panic b i) as [Ei|(v & Ei)]; rewrite Ei; cbn [bind]; auto.
  assert (X : exists i, In i l /\ cross_at b i = Panic).
  { exists j. destruct Hj as [->|Hj]; [congruence|auto]. }
  destruct v; auto.
Qed.

Lemma panic_dec {A} (b : block A) l : (exists i, In i l /\ cross_at b i = Panic) \/ forall i, In i l -> cross_at b i <> Panic.
Proof.
  induction l as [|i l IH]; [right; intros i []|]. destruct IH as [(j & Hj & E)|IH]; [left; exists j; split; [right|]; auto|].
  destruct (cross_at_or_panic b i) as [E|(v & E)]; [left; exists i; split; [left|]; auto|].
  right. intros j [<-|Hj]; auto. congruence.
Qed.

Lemma forallb_same_elements (f : nat -> bool) l l' : (forall x, In x l <-> In x l') -> forallb f l = forallb f l'.
Proof.
  intros H. apply eq_iff_eq_true. rewrite !forallb_forall. split; intros K x Hx; apply K; apply H; auto.
Qed.

Lemma cross_loop_same_elements {A} (b : block A) l l' x y : (forall i, In i l <-> In i l') ->
  cross_loop b l x y = cross_loop b l' x y.
Proof.
  intros H. destruct (panic_dec b l) as [(i & Hi & E)|N].
  - rewrite !cross_loop_panic; auto; exists i; split; auto. apply H. auto.
  - rewrite !cross_loop_all by (intros i Hi; apply N; auto; apply H; auto).
    rewrite (forallb_same_elements (internal_at b) l l'), (forallb_same_elements (fun i => negb (internal_at b i)) l l') by auto.
    reflexivity.
Qed.

Section TwoOrders.
Context (o1 o2 : list nat -> list nat).
Hypothesis H1 : forall l, collected_set l (o1 l).
Hypothesis H2 : forall l, collected_set l (o2 l).

Lemma orders_same_elements l i : In i (o1 l) <-> In i (o2 l).
Proof. destruct (H1 l) as [_ A], (H2 l) as [_ B]. rewrite A, B. reflexivity. Qed.

Lemma classify_same {A} (b : block A) : classify o1 b = classify o2 b.
Proof.
  unfold classify, sub_classify_treble_dodging.
  destruct (cycles_from_lead b) as [cs| | |]; cbn [bind]; auto.
  destruct (partition_cycles cs) as [hs ws]. destruct hs as [|h hs]; auto.
  destruct (classify_hunt_cycle h (block_stage b)) as [[l c]| | |]; cbn [bind]; auto.
  destruct (best_loop _ _ _ _ _) as [[[l' best] ib]| | |]; cbn [bind]; auto.
  destruct (mapM _ ib) as [hb| | |]; cbn [bind]; auto.
  destruct best; auto.
  destruct (mapM cross_indices_of ib) as [ins| | |]; cbn [bind]; auto.
  rewrite (cross_loop_same_elements b (o1 (concat ins)) (o2 (concat ins)) true true (orders_same_elements _)). reflexivity.
Qed.
End TwoOrders.

(** ** Suggestions *)

Definition within (t : nat) (l : list nat) : nat := length (filter (fun d => d <=? t) l).

Lemma within_cons t d l : within t (d :: l) = (if d <=? t then 1 else 0) + within t l.
Proof. unfold within. cbn [filter]. destruct (d <=? t); reflexivity. Qed.

Definition ascending (l : list nat) : Prop := forall i j x y, i < j -> nth_error l i = Some x -> nth_error l j = Some y -> x <= y.

Lemma ascending_tail d l : ascending (d :: l) -> ascending l /\ forall x, In x l -> d <= x.
Proof.
  intros H. split.
  - intros i j x y L Hx Hy. apply (H (S i) (S j)); auto. lia.
  - intros x Hx. apply In_nth_error in Hx as (n & E). apply (H 0 (S n) d x); auto. lia.
Qed.

Lemma within_none t l : within t l = 0 -> forall x, In x l -> t < x.
Proof.
  induction l as [|d l IH]; intros E x Hx; [destruct Hx|]. rewrite within_cons in E. destruct Hx as [<-|Hx].
  - destruct (d <=? t) eqn:L; [discriminate|]. apply Nat.leb_gt in L. auto.
  - apply IH; auto. lia.
Qed.

Lemma within_determines l : forall l', ascending l -> ascending l' -> length l = length l' ->
  (forall t, within t l = within t l') -> l = l'.
Proof.
  assert (H : forall a l b l', ascending (a :: l) -> (forall t, within t (a :: l) = within t (b :: l')) -> a <= b).
  { intros a l0 b l1 As W. destruct (le_lt_dec a b) as [|L]; auto. exfalso.
    assert (within b (a :: l0) = 0) as E.
    { assert (F : forall x, In x (a :: l0) -> b < x).
      { intros x [<-|Hx]; auto. apply ascending_tail in As as [_ As]. specialize (As x Hx). lia. }
      clear - F. induction (a :: l0) as [|x t IH]; auto. rewrite within_cons. rewrite IH by (intros; apply F; right; auto).
      pose proof (F x (or_introl eq_refl)). destruct (x <=? b) eqn:E; auto. apply Nat.leb_le in E. lia. }
    rewrite W, within_cons, Nat.leb_refl in E. discriminate. }
  induction l as [|a l IH]; intros [|b l'] A1 A2 L W; try discriminate; auto.
  assert (a = b) as <-.
  { apply Nat.le_antisymm; [apply (H a l b l')|apply (H b l' a l)]; auto. }
  f_equal. apply IH.
  - apply ascending_tail in A1. tauto.
  - apply ascending_tail in A2. tauto.
  - cbn in L. lia.
  - intros t. specialize (W t). rewrite !within_cons in W. lia.
Qed.

Lemma within_perm t l l' : Permutation l l' -> within t l = within t l'.
Proof. unfold within. induction 1; cbn [filter]; repeat (destruct (_ <=? _)); cbn [length]; congruence. Qed.

Lemma within_app t l l' : within t (l ++ l') = within t l + within t l'.
Proof. unfold within. rewrite filter_app, app_length. reflexivity. Qed.

Lemma within_le t l : within t l <= length l.
Proof. unfold within. induction l; cbn; auto. destruct (_ <=? _); cbn; lia. Qed.

Lemma within_all t l : (forall x, In x l -> x <= t) -> within t l = length l.
Proof.
  intros H. induction l as [|d l IH]; auto. rewrite within_cons, IH by (intros; apply H; right; auto).
  rewrite (proj2 (Nat.leb_le _ _)) by (apply H; left; auto). reflexivity.
Qed.

Lemma kept_within n items kept t : keeps_closest n items kept ->
  within t (map snd kept) = Nat.min (length kept) (within t (map snd items)).
Proof.
  intros ((dropped & P & C) & _ & _). rewrite (within_perm t _ _ (Permutation_map snd P)), map_app, within_app.
  pose proof (within_le t (map snd kept)) as L. rewrite map_length in L.
  destruct (within t (map snd dropped)) as [|m] eqn:E; [lia|].
  rewrite (within_all t (map snd kept)); [rewrite map_length; lia|].
  intros x Hx. apply in_map_iff in Hx as (k & <- & Hk).
  assert (exists d, In d (map snd dropped) /\ d <= t) as (d & Hd & Ld).
  { unfold within in E. destruct (filter _ _) as [|d r] eqn:F; [discriminate|]. exists d.
    assert (In d (filter (fun d => d <=? t) (map snd dropped))) by (rewrite F; left; auto).
    apply filter_In in H as [H1 H2]. apply Nat.leb_le in H2. auto. }
  apply in_map_iff in Hd as (y & <- & Hy). specialize (C k y Hk Hy). lia.
Qed.

Lemma rev_nth_error {A} (l : list A) i : i < length l -> nth_error (rev l) i = nth_error l (length l - 1 - i).
Proof.
  intros L. destruct l as [|d l0] eqn:El; [cbn in L; lia|]. rewrite <- El in *.
  rewrite (nth_error_nth' (rev l) d) by (rewrite rev_length; auto). rewrite (nth_error_nth' l d) by lia.
  rewrite rev_nth by auto. f_equal. f_equal. lia.
Qed.

Lemma kept_ascending n items kept : keeps_closest n items kept -> ascending (map snd (rev kept)).
Proof.
  intros (_ & _ & H) i j x y L Hx Hy. apply nth_error_map_iff in Hx as (a & Ha & <-). apply nth_error_map_iff in Hy as (b & Hb & <-).
  pose proof (nth_error_Some (rev kept) i) as S1. rewrite Ha in S1. assert (i < length (rev kept)) as Li by (apply S1; discriminate).
  pose proof (nth_error_Some (rev kept) j) as S2. rewrite Hb in S2. assert (j < length (rev kept)) as Lj by (apply S2; discriminate).
  rewrite rev_length in Li, Lj. rewrite rev_nth_error in Ha by auto. rewrite rev_nth_error in Hb by auto.
  apply (H (length kept - 1 - j) (length kept - 1 - i) b a); auto. lia.
Qed.

Lemma filter_perm {A} (f : A -> bool) l l' : Permutation l l' -> Permutation (filter f l) (filter f l').
Proof.
  induction 1; cbn [filter]; repeat (destruct (f _)); auto; try (apply perm_swap); eapply perm_trans; eauto.
Qed.

Lemma filter_none {A} (f : A -> bool) l : (forall x, In x l -> f x = false) -> filter f l = [].
Proof. induction l as [|x l IH]; intros H; cbn; auto. rewrite H by (left; auto). apply IH. intros; apply H; right; auto. Qed.

Lemma kept_all_nearer n items kept d y : keeps_closest n items kept -> In y kept -> d < snd y ->
  Permutation (filter (fun x => snd x =? d) items) (filter (fun x => snd x =? d) (rev kept)).
Proof.
  intros ((dropped & P & C) & _ & _) Hy L. eapply perm_trans; [apply filter_perm, P|]. rewrite filter_app.
  rewrite (filter_none _ dropped), app_nil_r.
  - apply filter_perm. apply Permutation_rev.
  - intros x Hx. apply Nat.eqb_neq. specialize (C y x Hy Hx). lia.
Qed.

Lemma kept_same n items1 items2 k1 k2 : Permutation items1 items2 -> keeps_closest n items1 k1 -> keeps_closest n items2 k2 ->
  map snd (rev k1) = map snd (rev k2) /\
  (forall d y, In y (rev k1) -> d < snd y ->
     Permutation (filter (fun x => snd x =? d) (rev k1)) (filter (fun x => snd x =? d) (rev k2))) /\
  (length items1 <= n -> Permutation (rev k1) (rev k2)).
Proof.
  intros P K1 K2. pose proof (Permutation_length P) as PL.
  assert (E : map snd (rev k1) = map snd (rev k2)).
  { apply within_determines.
    - apply (kept_ascending n items1); auto.
    - apply (kept_ascending n items2); auto.
    - rewrite !map_length, !rev_length. destruct K1 as (_ & -> & _), K2 as (_ & -> & _). congruence.
    - intros t. rewrite !map_rev, <- !(within_perm t _ _ (Permutation_rev _)).
      rewrite (kept_within _ _ _ t K1), (kept_within _ _ _ t K2), (within_perm t _ _ (Permutation_map snd P)).
      destruct K1 as (_ & -> & _), K2 as (_ & -> & _). congruence. }
  splits; auto.
  - intros d y Hy L. assert (exists y', In y' (rev k2) /\ snd y' = snd y) as (y' & Hy' & Ey).
    { assert (In (snd y) (map snd (rev k2))) as H by (rewrite <- E; apply in_map; auto).
      apply in_map_iff in H as (y' & Ey & Hy'). eauto. }
    apply in_rev in Hy, Hy'.
    eapply perm_trans; [apply Permutation_sym, (kept_all_nearer n items1 k1 d y); auto|].
    eapply perm_trans; [apply filter_perm, P|]. apply (kept_all_nearer n items2 k2 d y'); auto. lia.
  - intros L. destruct K1 as ((d1 & P1 & _) & L1 & _), K2 as ((d2 & P2 & _) & L2 & _).
    assert (d1 = []) as ->. { apply length_zero_iff_nil. apply Permutation_length in P1. rewrite app_length in P1. lia. }
    assert (d2 = []) as ->. { apply length_zero_iff_nil. apply Permutation_length in P2. rewrite app_length in P2. lia. }
    rewrite app_nil_r in P1, P2. rewrite <- !Permutation_rev. eapply perm_trans; [apply Permutation_sym, P1|].
    eapply perm_trans; [exact P|exact P2].
Qed.

Lemma flat_map_perm {A B} (f g : A -> list B) l l' : Permutation l l' -> (forall x, Permutation (f x) (g x)) ->
  Permutation (flat_map f l) (flat_map g l').
Proof.
  intros P H. eapply perm_trans; [apply Permutation_flat_map, P|]. clear P. induction l' as [|x l' IH]; cbn; auto.
  apply Permutation_app; auto.
Qed.

(** ** Compact forms *)

Section Groups.
Context (lib_order : list (stage * list (str * compact_method)) -> list (stage * list (str * compact_method))).
Context (stage_order : list (str * compact_method) -> list (str * compact_method)).

Definition in_group (s : nat) (c : full_class) (lib : list (stage * list (str * compact_method))) : list compact_method :=
  flat_map (fun '(s', ms) => filter (fun cm => group_key_eqb (s', cm_full_class cm) (s, c)) (map snd (stage_order ms))) lib.

Definition held_list (gs : list ((stage * full_class) * list compact_method)) (s : nat) (c : full_class) : list compact_method :=
  match hm_get group_key_eqb gs (s, c) with Some l => l | None => [] end.

Lemma held_list_push gs s' cm s c :
  held_list (hm_update group_key_eqb gs (s', cm_full_class cm) [] (fun v => v ++ [cm])) s c =
  held_list gs s c ++ (if group_key_eqb (s', cm_full_class cm) (s, c) then [cm] else []).
Proof.
  unfold held_list, hm_update. rewrite (hm_get_insert _ group_key_eqb_iff).
  destruct (group_key_eqb (s', cm_full_class cm) (s, c)) eqn:E; [|rewrite app_nil_r; auto].
  apply group_key_eqb_iff in E. rewrite E. destruct (hm_get group_key_eqb gs (s, c)); reflexivity.
Qed.

Lemma held_list_groups lib s c : held_list (group_methods lib_order stage_order lib) s c = in_group s c (lib_order lib).
Proof.
  unfold group_methods, in_group. generalize (lib_order lib) as l. intros l.
  enough (forall gs, held_list (fold_left (fun groups '(s, methods) => fold_left (fun groups '(_, cm) =>
      hm_update group_key_eqb groups (s, cm_full_class cm) [] (fun v => v ++ [cm])) (stage_order methods) groups) l gs) s c =
    held_list gs s c ++ flat_map (fun '(s', ms) => filter (fun cm => group_key_eqb (s', cm_full_class cm) (s, c)) (map snd (stage_order ms))) l)
    as H by exact (H []).
  induction l as [|(s', ms) l IH]; intros gs; cbn [fold_left flat_map]; [rewrite app_nil_r; auto|].
  rewrite IH, app_assoc. f_equal. clear IH. revert gs. induction (stage_order ms) as [|(k, cm) t IH]; intros gs; cbn [fold_left map filter snd].
  - rewrite app_nil_r; auto.
  - rewrite IH, held_list_push, <- app_assoc. f_equal. destruct (group_key_eqb _ _); reflexivity.
Qed.
End Groups.

Definition group_like (g h : (stage * full_class) * list compact_method) : Prop :=
  fst g = fst h /\ Permutation (snd g) (snd h).

Lemma assoc_match (l1 : list ((stage * full_class) * list compact_method)) : forall l2,
  NoDup (map fst l1) -> NoDup (map fst l2) -> Forall (fun e => snd e <> []) l1 -> Forall (fun e => snd e <> []) l2 ->
  (forall s c, Permutation (held_list l1 s c) (held_list l2 s c)) ->
  exists l, Permutation l1 l /\ Forall2 group_like l l2.
Proof.
  assert (Get : forall l k v, NoDup (map fst l) -> In (k, v) l -> held_list l (fst k) (snd k) = v).
  { intros l [s c] v D H. unfold held_list. cbn [fst snd]. rewrite (hm_in_get _ group_key_eqb_iff l (s, c) v); auto. }
  assert (In_ : forall l s c v, held_list l s c = v -> v <> [] -> In ((s, c), v) l).
  { intros l s c v E N. unfold held_list in E. destruct (hm_get group_key_eqb l (s, c)) as [w|] eqn:G; [|congruence].
    subst w. apply (hm_get_in _ group_key_eqb_iff); auto. }
  intros l2. revert l1. induction l2 as [|((s, c), v) l2 IH]; intros l1 D1 D2 N1 N2 P.
  - exists []. split; [|constructor]. destruct l1 as [|((s, c), v) l1]; auto. exfalso.
    specialize (P s c). pose proof (Get (((s, c), v) :: l1) (s, c) v D1 (or_introl eq_refl)) as E. cbn [fst snd] in E.
    rewrite E in P. apply Permutation_sym, Permutation_nil in P. inversion N1; subst. cbn in *. congruence.
  - inversion D2 as [|? ? NI D2']; subst. inversion N2 as [|? ? Nv N2']; subst. cbn [snd fst] in Nv, NI.
    assert (E2 : held_list (((s, c), v) :: l2) s c = v) by (apply (Get (((s, c), v) :: l2) (s, c) v D2 (or_introl eq_refl))).
    pose proof (P s c) as Pv. rewrite E2 in Pv.
    assert (Hin : In ((s, c), held_list l1 s c) l1).
    { apply In_; auto. intros E. rewrite E in Pv. apply Permutation_nil in Pv. congruence. }
    apply in_split in Hin as (a & b & El1).
    assert (Pm : Permutation l1 (((s, c), held_list l1 s c) :: a ++ b)) by (rewrite El1 at 1; apply Permutation_sym, Permutation_middle).
    assert (Dab : NoDup (map fst (((s, c), held_list l1 s c) :: a ++ b))) by (eapply Permutation_NoDup; [apply Permutation_map, Pm|auto]).
    inversion Dab as [|? ? NIab Dab']; subst x l. cbn [fst] in NIab.
    assert (Nab : Forall (fun e => snd e <> []) (a ++ b)).
    { rewrite Forall_forall in N1 |- *. intros x Hx. apply N1. apply (Permutation_in _ (Permutation_sym Pm)). right; auto. }
    destruct (IH (a ++ b) Dab' D2' Nab N2') as (l & Pl & F).
    { intros s' c'. destruct (group_key_eqb (s, c) (s', c')) eqn:E.
      - apply group_key_eqb_iff in E. injection E as <- <-.
        assert (X : forall l, ~ In (s, c) (map fst l) -> held_list l s c = []).
        { intros l H. unfold held_list. rewrite (proj2 (hm_get_none _ group_key_eqb_iff l (s, c))); auto. }
        rewrite !X; auto.
      - specialize (P s' c'). assert (Y : held_list (((s, c), v) :: l2) s' c' = held_list l2 s' c').
        { unfold held_list. rewrite hm_get_cons. rewrite E. reflexivity. }
        rewrite Y in P. eapply perm_trans; [|exact P].
        assert (Z : held_list (a ++ b) s' c' = held_list l1 s' c'); [|rewrite Z; apply Permutation_refl].
        clear - E El1. rewrite El1. generalize (held_list (a ++ ((s, c), held_list l1 s c) :: b) s c) as w. intros w.
        generalize (held_list l1 s c). intros w'.
        unfold held_list. clear - E. induction a as [|((s0, c0), v0) a IHa]; cbn [app].
        + rewrite hm_get_cons, E. reflexivity.
        + rewrite !hm_get_cons. destruct (group_key_eqb (s0, c0) (s', c')); auto. }
    exists (((s, c), held_list l1 s c) :: l). split; [eapply perm_trans; [exact Pm|]; constructor; auto|].
    constructor; auto. split; auto.
Qed.

Lemma mapM_perm {A B} (f : A -> exec B) l l' : Permutation l l' -> forall ys, mapM f l = Ret ys ->
  exists ys', mapM f l' = Ret ys' /\ Permutation ys ys'.
Proof.
  induction 1 as [|x l l' P IH|x y l|l l' l'' P1 IH1 P2 IH2]; intros ys E.
  - eauto.
  - cbn [mapM] in E |- *. destruct (f x) as [z| | |]; try discriminate. cbn [bind] in E |- *.
    destruct (mapM f l) as [zs| | |] eqn:El; try discriminate. injection E as <-.
    destruct (IH zs eq_refl) as (zs' & -> & P'). cbn [bind]. exists (z :: zs'). auto.
  - cbn [mapM] in E |- *. destruct (f y) as [a| | |]; try discriminate. cbn [bind] in E |- *.
    destruct (f x) as [b| | |]; try discriminate. cbn [bind] in E |- *.
    destruct (mapM f l) as [zs| | |]; try discriminate. injection E as <-. cbn [bind]. eexists. split; [reflexivity|]. apply perm_swap.
  - destruct (IH1 ys E) as (ys' & E' & P'). destruct (IH2 ys' E') as (ys'' & E'' & P''). exists ys''. split; auto.
    eapply perm_trans; eauto.
Qed.

Lemma group_serde_like g h m : group_like g h -> group_to_serde g = Ret m ->
  exists m', group_to_serde h = Ret m' /\ same_group m m'.
Proof.
  destruct g as [[s c] l], h as [[s' c'] l']. intros [E P]. cbn [fst snd] in E, P. injection E as <- <-. unfold group_to_serde.
  intros E. destruct (mapM (compact_to_serde s c) l) as [cs| | |] eqn:El; try discriminate. cbn [bind] in E. injection E as <-.
  destruct (mapM_perm _ _ _ P cs El) as (cs' & -> & P'). cbn [bind]. eexists. split; [reflexivity|].
  unfold same_group. cbn. auto 10.
Qed.

Lemma groups_serde_like l l' : Forall2 group_like l l' -> forall ys, mapM group_to_serde l = Ret ys ->
  exists ys', mapM group_to_serde l' = Ret ys' /\ Forall2 same_group ys ys'.
Proof.
  induction 1 as [|g h l l' G F IH]; intros ys E.
  - injection E as <-. exists []. auto.
  - cbn [mapM] in E |- *. destruct (group_to_serde g) as [m| | |] eqn:Eg; try discriminate. cbn [bind] in E.
    destruct (mapM group_to_serde l) as [ms| | |] eqn:El; try discriminate. injection E as <-.
    destruct (group_serde_like g h m G Eg) as (m' & -> & S). destruct (IH ms eq_refl) as (ms' & -> & Fs). cbn [bind]. eauto.
Qed.

Lemma mapM_ret_or_panic {A B} (f : A -> exec B) l : (forall x, f x = Panic \/ exists y, f x = Ret y) ->
  mapM f l = Panic \/ exists ys, mapM f l = Ret ys.
Proof.
  intros H. induction l as [|x l IH]; cbn [mapM]; eauto. destruct (H x) as [->|(y & ->)]; cbn [bind]; auto.
  destruct IH as [->|(ys & ->)]; cbn [bind]; eauto.
Qed.

Lemma group_to_serde_or_panic g : group_to_serde g = Panic \/ exists m, group_to_serde g = Ret m.
Proof.
  destruct g as [[s c] l]. unfold group_to_serde.
  destruct (mapM_ret_or_panic (compact_to_serde s c) l) as [->|(ys & ->)]; cbn [bind]; eauto.
  intros cm. unfold compact_to_serde, generate_title. destruct (stage_name s); cbn [unwrap bind]; eauto.
Qed.

Lemma to_serde_same lo1 so1 go1 lo2 so2 go2 lib :
  (forall l, Permutation l (lo1 l)) -> (forall l, Permutation l (so1 l)) -> (forall l, Permutation l (go1 l)) ->
  (forall l, Permutation l (lo2 l)) -> (forall l, Permutation l (so2 l)) -> (forall l, Permutation l (go2 l)) ->
  lib_to_serde lo1 so1 go1 lib = Panic /\ lib_to_serde lo2 so2 go2 lib = Panic \/
  exists c1 c2, lib_to_serde lo1 so1 go1 lib = Ret c1 /\ lib_to_serde lo2 so2 go2 lib = Ret c2 /\ same_but_for_order c1 c2.
Proof.
  assert (Half : forall lo1 so1 go1 lo2 so2 go2 c1,
    (forall l, Permutation l (lo1 l)) -> (forall l, Permutation l (so1 l)) -> (forall l, Permutation l (go1 l)) ->
    (forall l, Permutation l (lo2 l)) -> (forall l, Permutation l (so2 l)) -> (forall l, Permutation l (go2 l)) ->
    lib_to_serde lo1 so1 go1 lib = Ret c1 ->
    exists c2, lib_to_serde lo2 so2 go2 lib = Ret c2 /\ same_but_for_order c1 c2).
  { clear. intros lo1 so1 go1 lo2 so2 go2 c1 PL1 PS1 PG1 PL2 PS2 PG2 E. unfold lib_to_serde in E |- *.
    destruct (group_ok lo1 so1 PL1 PS1 lib) as [D1 _]. destruct (group_ok lo2 so2 PL2 PS2 lib) as [D2 _].
    set (g1 := group_methods lo1 so1 lib) in *. set (g2 := group_methods lo2 so2 lib) in *.
    destruct (assoc_match g1 (go2 g2)) as (g & P & F).
    - exact D1.
    - eapply Permutation_NoDup; [apply Permutation_map, PG2|exact D2].
    - apply groups_nonempty.
    - rewrite Forall_forall. intros x Hx. apply (Permutation_in _ (Permutation_sym (PG2 g2))) in Hx.
      pose proof (groups_nonempty lo2 so2 lib) as N. rewrite Forall_forall in N. apply N. exact Hx.
    - intros s c. assert (X : held_list (go2 g2) s c = held_list g2 s c).
      { unfold held_list. destruct (hm_get group_key_eqb g2 (s, c)) as [v|] eqn:G.
        - apply (hm_get_in _ group_key_eqb_iff) in G. rewrite (hm_in_get _ group_key_eqb_iff (go2 g2) (s, c) v); auto.
          + eapply Permutation_NoDup; [apply Permutation_map, PG2|exact D2].
          + apply (Permutation_in _ (PG2 g2)). auto.
        - apply (hm_get_none _ group_key_eqb_iff) in G. rewrite (proj2 (hm_get_none _ group_key_eqb_iff (go2 g2) (s, c))); auto.
          intros H. apply G. apply (Permutation_in _ (Permutation_map fst (Permutation_sym (PG2 g2)))). auto. }
      rewrite X. unfold g1, g2. rewrite !held_list_groups. unfold in_group. apply flat_map_perm.
      + eapply perm_trans; [apply Permutation_sym, PL1|apply PL2].
      + intros (s', ms). apply filter_perm, Permutation_map. eapply perm_trans; [apply Permutation_sym, PS1|apply PS2].
    - assert (Pg : Permutation (go1 g1) g) by (eapply perm_trans; [apply Permutation_sym, PG1|exact P]).
      destruct (mapM_perm _ _ _ Pg c1 E) as (c' & E' & P'). destruct (groups_serde_like _ _ F c' E') as (c2 & E2 & F2).
      exists c2. split; auto. exists c'. auto. }
  intros PL1 PS1 PG1 PL2 PS2 PG2.
  destruct (mapM_ret_or_panic group_to_serde (go1 (group_methods lo1 so1 lib)) group_to_serde_or_panic) as [E1|(c1 & E1)];
    fold (lib_to_serde lo1 so1 go1 lib) in E1.
  - destruct (mapM_ret_or_panic group_to_serde (go2 (group_methods lo2 so2 lib)) group_to_serde_or_panic) as [E2|(c2 & E2)];
      fold (lib_to_serde lo2 so2 go2 lib) in E2; auto.
    destruct (Half lo2 so2 go2 lo1 so1 go1 c2 PL2 PS2 PG2 PL1 PS1 PG1 E2) as (c & E & _). congruence.
  - destruct (Half lo1 so1 go1 lo2 so2 go2 c1 PL1 PS1 PG1 PL2 PS2 PG2 E1) as (c2 & E2 & S). right. eauto.
Qed.

(** ** Lengths of JSON texts *)

Lemma commas_perm l l' : Permutation l l' -> length (commas l) = length (commas l').
Proof.
  assert (H : forall m, length (commas m) = list_sum (map (@length _) m) + (length m - 1)).
  { induction m as [|x [|y t] IH]; [reflexivity|cbn; lia|]. change (commas (x :: y :: t)) with (x ++ [44%N] ++ commas (y :: t)).
    rewrite !app_length, IH. cbn [map length]. change (list_sum (length x :: length y :: map (@length _) t))
      with (length x + list_sum (length y :: map (@length _) t)). lia. }
  intros P. rewrite !H, (Permutation_length P). f_equal. clear H. unfold list_sum. induction P; cbn [map fold_right]; lia.
Qed.

Lemma commas_lengths l l' : Forall2 (fun a b : str => length a = length b) l l' -> length (commas l) = length (commas l').
Proof.
  induction 1 as [|x y l l' E F IH]; auto. cbn [commas]. destruct F as [|x' y' t t' E' F']; auto.
  rewrite !app_length, E, IH. reflexivity.
Qed.

Lemma Forall2_same_length (l : list str) : Forall2 (fun a b : str => length a = length b) l l.
Proof. induction l; auto. Qed.

Lemma arr_length l l' : length (commas (map json_write l)) = length (commas (map json_write l')) ->
  length (json_write (JArr l)) = length (json_write (JArr l')).
Proof. intros E. cbn [json_write]. rewrite !app_length, E. reflexivity. Qed.

Lemma obj_length f f' :
  Forall2 (fun a b : str * json => fst a = fst b /\ length (json_write (snd a)) = length (json_write (snd b))) f f' ->
  length (json_write (JObj f)) = length (json_write (JObj f')).
Proof.
  intros F. cbn [json_write]. rewrite !app_length. f_equal. f_equal. apply commas_lengths.
  induction F as [|[k v] [k' v'] f f' [E L] F IH]; cbn [map]; constructor; auto. cbn [fst snd] in E, L. subst k'.
  rewrite !app_length, L. reflexivity.
Qed.

Lemma fields_same (f : list (str * json)) :
  Forall2 (fun a b : str * json => fst a = fst b /\ length (json_write (snd a)) = length (json_write (snd b))) f f.
Proof. induction f; constructor; auto. Qed.

Lemma json_length_same c d : same_but_for_order c d -> length (json_write (lib_to_json c)) = length (json_write (lib_to_json d)).
Proof.
  intros (c' & P & F). unfold lib_to_json. apply obj_length. constructor; [|constructor]. cbn [fst snd]. split; auto.
  apply arr_length. rewrite !map_map, (commas_perm _ _ (Permutation_map (fun x => json_write (group_to_json x)) P)).
  apply commas_lengths.
  clear P c. induction F as [|g h c' d G F IH]; cbn [map]; constructor; auto. clear F IH.
  destruct g as [s j l df k ms], h as [s' j' l' df' k' ms']. destruct G as (E1 & E2 & E3 & E4 & E5 & P). cbn in E1, E2, E3, E4, E5, P.
  subst. unfold group_to_json. cbn [g_stage g_is_jump g_is_little g_is_differential g_class_id g_methods]. apply obj_length.
  repeat (apply Forall2_app; [apply fields_same|]). constructor; auto. constructor; auto. cbn [fst snd]. split; auto.
  apply arr_length. apply commas_perm. rewrite !map_map. apply Permutation_map. auto.
Qed.

(** ** Stages of rows *)

Lemma same_or_not (rows : list row) : (exists n, Forall (fun r => length r = n) rows) \/
  exists x y, In x rows /\ In y rows /\ length x <> length y.
Proof.
  destruct rows as [|r rows]; [left; exists 0; constructor|].
  destruct (Forall_Exists_dec (fun x : row => length x = length r) (fun x => Nat.eq_dec (length x) (length r)) rows) as [F|E].
  - left. exists (length r). constructor; auto.
  - right. apply Exists_exists in E as (x & Hx & N). exists x, r. splits; auto; cbn; auto.
Qed.
