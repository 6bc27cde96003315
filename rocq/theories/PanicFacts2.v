(** Which computations do not panic: blocks, place notation, masks and methods. *)
From Verif Require Import Base Bell Stage Parity Row Utils SameStageVec Block PlaceNot Mask Class Method Program
  Spec SpecVec SpecBlock SpecPn SpecClass SpecProg ListFacts BellFacts RowFacts MulFacts GroupFacts ParityFacts SsvFacts SsvFacts2 BlockFacts
  GroupFacts2 RowThms MethodFacts PnFacts PnFacts2 PnFacts3 PnThms MaskFacts MaskFacts2 ClassFacts ClassThms CtorFacts MethodThms CtorThms PropsBell
  SafeFacts SafeFacts2 UnwindFacts2 UnwindFacts3 UnwindFacts4 SpecMask SpecPanics PanicFacts.
From Verif Require Call Library.
Local Open Scope list_scope.

(** ** Blocks *)

Lemma returns_ex {A} (e : exec A) : (exists a, e = Ret a) -> returns e.
Proof. intros [a ->]. exact I. Qed.

Lemma with_default_panic_iff {A} (d : A) s rs v : rep s rs v -> with_default_annots d v = Panic <-> rs = [].
Proof.
  intros R. destruct rs as [|r rs].
  - split; auto. intros _. unfold with_default_annots. erewrite ssv_is_empty_ok by eauto. reflexivity.
  - destruct (with_default_ok _ _ _ d R) as (b & E & _); [congruence|]. rewrite E. split; congruence.
Qed.
Lemma block_parse_panic_iff {A} (d : A) t : block_parse d t = Panic <-> t = [].
Proof.
  rewrite <- ssv_parse_panic_iff. unfold block_parse. pose proof (safe_ssv_parse t) as S.
  destruct (ssv_parse t) as [[v|e]| | |]; cbn [bind]; try (split; congruence).
  destruct S as [rs R]. destruct rs as [|r rs].
  - erewrite ssv_is_empty_ok by eauto. split; discriminate.
  - erewrite ssv_is_empty_ok by eauto. cbn [length Nat.eqb].
    destruct (with_default_ok _ _ _ d R) as (b & E & _); [congruence|]. rewrite E. split; discriminate.
Qed.
Lemma returns_from_indices {A} v (f : nat -> A) : okv v -> returns (with_annots_from_indices v f).
Proof.
  intros [rs R]. destruct rs as [|r rs].
  - unfold with_annots_from_indices. erewrite ssv_len_ok by eauto. exact I.
  - destruct (from_indices_ok _ _ _ f R) as (b' & E' & H); [congruence|]. rewrite E'. exact I.
Qed.
Section Whole.
Context {A : Type} (b : block A) (W : whole b).
Lemma returns_first_row : returns (block_first_row b).
Proof. destruct W as (s & ars & lo & H). destruct (brep_first_row _ _ _ _ H) as (r & E & _). rewrite E. exact I. Qed.
Lemma returns_leftover : returns (block_leftover_row b).
Proof. destruct W as (s & ars & lo & H). erewrite brep_leftover by eauto. exact I. Qed.
Lemma returns_block_rows : returns (block_rows b).
Proof. destruct W as (s & ars & lo & H). erewrite brep_rows by eauto. exact I. Qed.
Lemma returns_all_rows : returns (block_all_rows b).
Proof. destruct W as (s & ars & lo & H). erewrite brep_all_rows by eauto. exact I. Qed.
Lemma returns_annot_rows : returns (block_annot_rows b).
Proof. destruct W as (s & ars & lo & H). erewrite brep_annot_rows by eauto. exact I. Qed.
Lemma returns_rows_iter : returns (block_rows_iter b).
Proof. destruct W as (s & ars & lo & H). destruct (brep_rows_iter _ _ _ _ H) as (E & _). rewrite E. exact I. Qed.
Lemma returns_block_path x : returns (block_path_of b x).
Proof.
  destruct W as (s & ars & lo & H). destruct (le_lt_dec s x) as [L|L].
  - unfold block_path_of, block_full_path_of. rewrite (ssv_path_none _ _ _ _ (proj1 H) L). exact I.
  - destruct (brep_path s ars lo b x H L) as (p & l & E & _). rewrite E. exact I.
Qed.
Lemma returns_block_pre_multiply t : valid_row t -> returns (block_pre_multiply b t).
Proof.
  intros V. destruct W as (s & ars & lo & H). destruct (Nat.eq_dec (length t) s) as [L|L].
  - destruct (brep_pre_multiply s ars lo b t H) as (b1 & E1 & H1); [split; auto|]. rewrite E1. exact I.
  - erewrite brep_pre_multiply_err by eauto. exact I.
Qed.
Lemma returns_block_extend o : whole o -> returns (block_extend b o).
Proof. intros Wo. destruct (whole_extend b o W Wo) as (b' & res & E & _). rewrite E. exact I. Qed.
Lemma returns_split i : returns (block_split b i).
Proof.
  destruct W as (s & ars & l & H). destruct (le_lt_dec i (length ars)) as [L|L].
  - destruct (brep_split s ars l b i H L) as (c1 & c2 & E1 & _). rewrite E1. exact I.
  - erewrite brep_split_none by eauto. exact I.
Qed.
Lemma returns_repeat_new r : valid_row r -> returns (repeat_iter_new r b).
Proof.
  intros V. destruct W as (s & ars & l & H). destruct (Nat.eq_dec (length r) s) as [L|L].
  - destruct (repeat_new_ok s ars l b r H) as (ri' & E' & R); [split; auto|]. rewrite E'. exact I.
  - erewrite repeat_new_err by eauto. exact I.
Qed.
End Whole.
Lemma returns_next {A} (ri : repeat_iter A) : wholeri ri -> returns (repeat_iter_next ri).
Proof. intros W. destruct (whole_next ri W) as (o & ri' & E & _). rewrite E. exact I. Qed.
Lemma returns_next_into {A} (ri : repeat_iter A) out : wholeri ri -> returns (repeat_iter_next_into ri out).
Proof. intros W. destruct (whole_next_into ri out W) as (o & o' & ri' & E & _). rewrite E. exact I. Qed.

Lemma block_extend_range_panic_iff {A} s ars lo (b : block A) s' ars' lo' o lo_ hi_ : brep s ars lo b -> brep s' ars' lo' o ->
  block_extend_range b o lo_ hi_ = Panic <->
  (length ars' < range_start lo_ \/
   s = s' /\ ~ in_range (range_start lo_) (range_end hi_ (length ars') + 1) (length ars' + 1)).
Proof.
  intros H Ho. unfold in_range. set (a := range_start lo_). set (e := range_end hi_ (length ars')).
  destruct (Nat.eq_dec s' s) as [->|N].
  - destruct (le_dec a e) as [L|L]; [destruct (le_dec e (length ars')) as [L'|L']|].
    + destruct (brep_extend_range_rows s ars lo b ars' lo' o lo_ hi_ H Ho L L') as (v & E & _). rewrite E.
      split; [discriminate|]. lia.
    + rewrite (brep_extend_range_panic s ars lo b ars' lo' o lo_ hi_ H Ho) by (fold a e; lia).
      split; auto. intros _. right. split; auto. lia.
    + destruct (Nat.eq_dec a (e + 1)) as [Ea|Ea]; [destruct (le_dec a (length ars')) as [L'|L']|].
      * destruct (brep_extend_range_inverted s ars lo b ars' lo' o lo_ hi_ H Ho Ea L') as (v & E & _). rewrite E.
        split; [discriminate|]. lia.
      * split; [intros _; left; lia|]. intros _.
        unfold block_extend_range, clamp_range.
        change (match lo_ with Included y => y | Excluded z => z + 1 | Unbounded => 0 end) with (range_start lo_).
        erewrite brep_get_row by eauto. fold a.
        rewrite (proj2 (nth_error_None (all_rows_of ars' lo') a)) by (rewrite all_rows_length; lia). reflexivity.
      * rewrite (brep_extend_range_panic s ars lo b ars' lo' o lo_ hi_ H Ho) by (fold a e; lia).
        split; auto. intros _. right. split; auto. lia.
  - destruct (brep_extend_range_err s ars lo b s' ars' lo' o lo_ hi_ H Ho N) as [E1 E2]. fold a in E1, E2.
    destruct (le_lt_dec a (length ars')) as [L|L].
    + rewrite E1 by auto. split; [discriminate|]. intros [X|[X _]]; [lia|congruence].
    + rewrite E2 by auto. split; auto.
Qed.
Lemma block_from_within_panic_iff {A} s ars lo (b : block A) lo_ hi_ : brep s ars lo b ->
  block_extend_from_within b lo_ hi_ = Panic <-> ~ in_range (range_start lo_) (range_end hi_ (length ars)) (length ars).
Proof.
  intros H. unfold in_range.
  destruct (le_dec (range_start lo_) (range_end hi_ (length ars))) as [L|L]; [destruct (le_dec (range_end hi_ (length ars)) (length ars)) as [L'|L']|].
  - destruct (brep_from_within s ars lo b lo_ hi_ H L L') as (b1 & E1 & H1). rewrite E1. split; [discriminate|tauto].
  - erewrite brep_from_within_panic by (eauto; tauto). tauto.
  - erewrite brep_from_within_panic by (eauto; tauto). tauto.
Qed.

(** ** Place notation *)

Definition pnblock_ok (pns : list place_not) : Prop :=
  exists s, 0 < s /\ pns <> [] /\ Forall (fun pn => legal pn /\ pn_stage pn = s) pns.

Lemma returns_pn_parse t s : 0 < s -> returns (pn_parse t s).
Proof. intros Hs. destruct (pn_parse_total t s Hs) as [r E]. rewrite E. exact I. Qed.
Lemma returns_between a b : valid_row a -> valid_row b -> returns (pn_between a b).
Proof. intros Va Vb. destruct (pn_between_ok a b Va Vb) as (o & E & _). rewrite E. exact I. Qed.
Lemma returns_permute_new pn r : legal pn -> valid_row r -> returns (pn_permute_new pn r).
Proof.
  intros L V. destruct (Nat.eq_dec (length r) (pn_stage pn)) as [E|E].
  - destruct (pn_permute_ok pn r L V E) as (r' & _ & X & _). rewrite X. exact I.
  - destruct (pn_permute_err pn r V E) as [_ X]. rewrite X. exact I.
Qed.
Lemma returns_transposition pn : legal pn -> returns (pn_transposition pn).
Proof. intros L. destruct (pn_transposition_ok pn L) as (t & E & _). rewrite E. exact I. Qed.
Lemma returns_pn_block_parse t s : 0 < s -> returns (pn_block_parse t s).
Proof. intros Hs. destruct (pf_C43_parse_block t s Hs) as (r & E & _). rewrite E. exact I. Qed.
Lemma returns_to_rows pns r : pnblock_ok pns -> valid_row r -> returns (pn_block_to_rows pns r).
Proof.
  intros (s & Hs & N & F) V. destruct (Nat.eq_dec (length r) s) as [L|L].
  - destruct (pf_C45_to_rows pns r s N F V L) as (v & rs & lr & ts & E & _). rewrite E. exact I.
  - destruct pns as [|pn pns]; [congruence|]. inversion F as [|? ? [_ Ep] _]; subst.
    rewrite pf_C45_to_rows_wrong_stage by auto. exact I.
Qed.
Lemma returns_to_block {A} (d : A) pns r : pnblock_ok pns -> valid_row r -> returns (pn_block_to_block d pns r).
Proof.
  intros (s & Hs & N & F) V. destruct (Nat.eq_dec (length r) s) as [L|L].
  - destruct (pf_C45_to_block A d pns r s N F V L) as (b & rs & lr & E & _). rewrite E. exact I.
  - destruct pns as [|pn pns]; [congruence|]. inversion F as [|? ? [_ Ep] _]; subst.
    unfold pn_block_to_block. rewrite pf_C45_to_rows_wrong_stage by auto. exact I.
Qed.
Lemma from_rounds_ok {A} (d : A) s pns : 0 < s -> pns <> [] -> Forall (fun pn => legal pn /\ pn_stage pn = s) pns ->
  exists b rs lo, pn_block_to_block_from_rounds d pns = Ret b /\ rung (seq 0 s) pns rs lo /\
    block_holds b s (map (fun r => (r, d)) (removelast (seq 0 s :: rs))) lo.
Proof.
  intros Hs N F. assert (V : vrow s (seq 0 s)) by (rewrite <- rounds_seq; apply valid_rounds; auto).
  destruct (pf_C45_to_block A d pns (seq 0 s) s N F (proj1 V) (proj2 V)) as (b & rs & lo & _ & R & H & E).
  exists b, rs, lo. split; [auto|]. split; auto.
Qed.
Lemma returns_from_rounds {A} (d : A) pns : pnblock_ok pns -> returns (pn_block_to_block_from_rounds d pns).
Proof. intros (s & Hs & N & F). destruct (from_rounds_ok d s pns Hs N F) as (b & rs & lo & E & _). rewrite E. exact I. Qed.
Lemma pnblock_ok_okpn pns : pnblock_ok pns -> Forall okpn pns.
Proof. intros (s & Hs & N & F). eapply Forall_impl; [|exact F]. intros pn [L _]. apply L. Qed.

(** ** Masks *)

Lemma set_idx_panic_iff {X} (l : list X) i x : set_idx l i x = Panic <-> length l <= i.
Proof.
  destruct (le_lt_dec (length l) i).
  - unfold set_idx. destruct (Nat.ltb_spec i (length l)); [lia|]. tauto.
  - rewrite set_idx_ret by auto. split; [discriminate|lia].
Qed.
Lemma fix_bells_loop n bells : forall m, length m = n ->
  Base.foldM mask_fix_unchecked bells m = Panic <-> exists b, In b bells /\ n <= b.
Proof.
  induction bells as [|b bells IH]; intros m L; cbn [Base.foldM].
  - split; [discriminate|]. intros (b & [] & _).
  - unfold mask_fix_unchecked at 1, mask_set_bell_unchecked. destruct (le_lt_dec n b) as [H|H].
    + rewrite (proj2 (set_idx_panic_iff m b (Some b))) by lia. cbn [bind]. split; auto. intros _. exists b. cbn. auto.
    + rewrite set_idx_ret by lia. cbn [bind]. rewrite IH by (rewrite length_upd; auto). split.
      * intros (x & Hx & Hn). exists x. cbn. auto.
      * intros (x & [->|Hx] & Hn); [lia|eauto].
Qed.
Lemma mask_place_of_none m b : mask_place_of m b = None <-> ~ In (Some b) m.
Proof.
  unfold mask_place_of. induction m as [|x m IH]; cbn; [tauto|].
  destruct (obell_eqb x (Some b)) eqn:E.
  - split; [discriminate|]. intros N. exfalso. apply N. left. destruct x; cbn in E; [|discriminate]. apply Nat.eqb_eq in E. congruence.
  - assert (x <> Some b) by (intros ->; cbn in E; rewrite Nat.eqb_refl in E; discriminate).
    destruct (position _ m); cbn; intuition congruence.
Qed.
Lemma mask_set_bell_panic_iff m b p : mask_set_bell m b p = Panic <-> ~ In (Some b) m /\ length m <= p.
Proof.
  rewrite <- mask_place_of_none. destruct (set_bell_ok m b p) as (A1 & A2 & A3).
  destruct (mask_place_of m b) as [q|] eqn:E.
  - rewrite (A1 _ eq_refl). split; [discriminate|]. intros [X _]. discriminate.
  - destruct (le_lt_dec (length m) p).
    + rewrite A3 by auto. tauto.
    + rewrite A2 by auto. split; [discriminate|]. lia.
Qed.
Lemma compat_loop_agree m : forall pairs k, mask_compat_loop m (enumerate_from k pairs) = true ->
  forall x y, In (Some x, Some y) pairs -> x = y.
Proof.
  induction pairs as [|[[o|] s] pairs IH]; intros k H x y Hin; cbn [enumerate_from mask_compat_loop] in *; [destruct Hin| |].
  - destruct (negb _) eqn:E1 in H; [discriminate|]. destruct (negb _) in H; [discriminate|].
    destruct Hin as [E|Hin]; [|eapply IH; eauto]. injection E as -> ->. apply Bool.negb_false_iff, Nat.eqb_eq in E1. auto.
  - destruct Hin as [E|Hin]; [discriminate|]. eapply IH; eauto.
Qed.
Lemma mask_combine_panic_iff a b : mask_combine a b = Panic <-> a = [] \/ b = [].
Proof.
  destruct a as [|x a]. { split; auto. }
  destruct b as [|y b]. { split; auto. }
  split; [|intros [X|X]; discriminate]. intros E. exfalso. revert E. unfold mask_combine, mask_is_compatible_with.
  rewrite !mask_stage_ok by discriminate. cbn [bind].
  destruct (Nat.eqb_spec (length (x :: a)) (length (y :: b))) as [L|L]; cbn [negb bind]; [|discriminate].
  rewrite !zip_combine by auto. cbn [bind].
  destruct (mask_compat_loop _ _) eqn:C; cbn [negb]; [|discriminate].
  rewrite mapM_merge; [cbn; discriminate|auto|].
  intros i u v Hu Hv. unfold specifies in *. unfold enumerate in C. symmetry. eapply compat_loop_agree; [exact C|].
  assert (X : nth_error (combine (y :: b) (x :: a)) i = Some (Some v, Some u)).
  { apply nth_error_combine. auto. }
  eapply nth_error_In; eauto.
Qed.
Lemma returns_as_row m : returns (mask_as_row m).
Proof.
  unfold mask_as_row. destruct (forallb _ m) eqn:F; [|exact I].
  assert (X : returns (mapM unwrap m)).
  { induction m as [|[b|] m IH]; cbn in *; auto; [|discriminate]. apply returns_bind; auto. cbn; auto. }
  apply returns_bind; cbn; auto.
Qed.
Lemma mask_mul_row_panic_iff m r : valid_row r -> mask_mul_row m r = Panic <-> length m <> length r.
Proof.
  intros V. pose proof (valid_row_pos r V) as P. destruct (Nat.eq_dec (length m) (length r)) as [L|L].
  - destruct (mask_mul_row_ok m r V L) as (m' & E & _). rewrite E. split; [discriminate|congruence].
  - destruct m as [|x m]; [split; auto; reflexivity|]. rewrite mask_mul_row_panic; auto; [tauto|discriminate].
Qed.
Lemma row_mul_mask_panic_iff m r : valid_row r ->
  row_mul_mask r m = Panic <-> length m <> length r \/ exists b, In (Some b) m /\ length r <= b.
Proof.
  intros V. pose proof (valid_row_pos r V) as P. unfold row_mul_mask. rewrite valid_row_stage by auto. cbn [bind].
  destruct m as [|x m]. { split; auto. intros _. left. cbn. lia. }
  rewrite mask_stage_ok by discriminate. cbn [bind]. destruct (Nat.eqb_spec (length r) (length (x :: m))) as [L|L]; cbn [assert_ bind].
  2: { split; auto. }
  assert (G : forall l, mapM (fun mb => match mb with None => Ret None | Some b => x0 <- idx r b;; Ret (Some x0) end) l = Panic <->
    exists b, In (Some b) l /\ length r <= b).
  { induction l as [|[b|] l IH]; cbn [mapM].
    - split; [discriminate|]. intros (b & [] & _).
    - destruct (le_lt_dec (length r) b) as [Lb|Lb].
      + unfold idx at 1. rewrite (proj2 (nth_error_None r b)) by auto. cbn [bind]. split; auto. intros _. exists b. cbn; auto.
      + rewrite (idx_ret 0 r b) by auto. cbn [bind].
        transitivity (exists b0, In (Some b0) l /\ length r <= b0).
        * rewrite <- IH. destruct (mapM _ l); cbn; split; congruence.
        * split; [intros (c & Hc & Lc); exists c; cbn; auto|]. intros (c & [Ec|Hc] & Lc); [injection Ec as ->; lia|eauto].
    - cbn [bind]. transitivity (exists b0, In (Some b0) l /\ length r <= b0).
      + rewrite <- IH. destruct (mapM _ l); cbn; split; congruence.
      + split; [intros (c & Hc & Lc); exists c; cbn; auto|]. intros (c & [Ec|Hc] & Lc); [discriminate|eauto]. }
  rewrite G. split; [auto|]. intros [X|X]; [congruence|auto].
Qed.

(** ** Methods *)

Lemma stage_name_none s : 0 < s -> stage_name s = None <-> nameless s.
Proof.
  intros Hs. unfold nameless. pose proof (proj1 C03_stage_names_round_trip s) as N.
  destruct (stage_name s) as [n|] eqn:E.
  - split; [discriminate|]. intros X. assert (1 <= s <= 22) by (apply N; eauto). lia.
  - split; auto. intros _. destruct (le_lt_dec s 22); auto. assert (exists n, None = Some n) as [n X] by (apply N; lia). discriminate.
Qed.
Lemma title_panic_iff name c s : 0 < s -> generate_title name c s = Panic <-> nameless s.
Proof.
  intros Hs. rewrite <- stage_name_none by auto. destruct (pf_C63_title name c s) as [T1 T2].
  destruct (stage_name s) as [n|].
  - rewrite (T1 n eq_refl). split; discriminate.
  - rewrite T2 by auto. tauto.
Qed.
Lemma replace_nth_fst {X Y} (l : list (X * Y)) i x y y' : nth_error l i = Some (x, y) -> map fst (replace_nth l i (x, y')) = map fst l.
Proof.
  intros E. apply nth_error_split in E as (l1 & l2 & -> & E). rewrite <- E, replace_nth_split, !map_app. reflexivity.
Qed.
Section Ho.
Context (ho : list nat -> list nat) (HO : forall l, collected_set l (ho l)).

Lemma classify_cases {A} (b : block A) s ars lo : block_holds b s ars lo ->
  (classify ho b = Panic <-> (ars = [] \/ ~ is_identity (hd [] (map fst ars)) \/ ~ all_cross_sections (map fst ars) lo no_jump)) /\
  (classify ho b = Panic \/ exists c, classify ho b = Ret c).
Proof.
  intros H. pose proof (pf_C61_panics A b s ars lo H) as P.
  assert (D : (ars <> [] /\ is_identity (hd [] (map fst ars))) \/ ~ (ars <> [] /\ is_identity (hd [] (map fst ars)))).
  { destruct (cycles_from_lead b) eqn:E; [left|right|left|left]; try (apply P; reflexivity).
    all: assert (N : ~ ~ (ars <> [] /\ is_identity (hd [] (map fst ars)))) by (intros X; apply P in X; discriminate).
    all: unfold is_identity in *; destruct ars as [|[r0 a0] ars]; [exfalso; apply N; tauto|]; cbn in *.
    all: split; [discriminate|].
    all: intros i x Hi; destruct (Nat.eq_dec x i); auto; exfalso; apply N; intros [_ K]; apply n; eauto. }
  destruct D as [[N Id]|D].
  - destruct (pf_C62_panics A b s ars lo ho H N Id HO) as [[E (r1 & r2 & C & J)]|[C [fc E]]].
    + rewrite E. split; [|auto]. split; auto. intros _. right; right. intros K. apply J. eapply K; eauto.
    + rewrite E. split; [|eauto]. split; [discriminate|]. tauto.
  - assert (E : classify ho b = Panic). { unfold classify. apply P in D. rewrite D. reflexivity. }
    rewrite E. split; [|auto]. split; auto. intros _. destruct ars as [|ra ars]; [auto|]. right; left. intros X. apply D. split; auto. discriminate.
Qed.
Lemma with_name_panic_iff name b s ars lo : block_holds b s ars lo -> with_name ho name b = Panic <->
  (ars = [] \/ ~ is_identity (hd [] (map fst ars)) \/ ~ all_cross_sections (map fst ars) lo no_jump \/ nameless s).
Proof.
  intros H. destruct (classify_cases b s ars lo H) as [P [E|[c E]]]; unfold with_name; rewrite E in *; cbn [bind].
  - split; auto. intros _. destruct (proj1 P eq_refl) as [X|[X|X]]; auto.
  - assert (S : block_stage b = s) by apply H. rewrite S. assert (Hs : 0 < s) by apply H.
    rewrite <- (title_panic_iff name c s Hs). split.
    + destruct (generate_title name c s); cbn; try discriminate. auto.
    + intros [X|[X|[X|X]]]; [| | |rewrite X; reflexivity]; exfalso; assert (Ret c = @Panic full_class) by (apply P; auto); discriminate.
Qed.
Lemma from_string_panic_iff name n t : (s <- stage_new n;; from_place_not_string ho name s t) = Panic <->
  (n = 0 \/ nameless n /\ exists pns, pns <> [] /\ block_changes n t pns).
Proof.
  destruct (Nat.eq_dec n 0) as [->|Hn]; [split; auto|].
  rewrite (proj2 (stage_new_iff n)) by lia. cbn [bind]. assert (Hp : 0 < n) by lia.
  unfold from_place_not_string. destruct (pf_C43_parse_block t n Hp) as (r & E & P & _). rewrite E. cbn [bind]. destruct r as [pns|e].
  - destruct (proj1 (P pns) eq_refl) as [N B].
    destruct (pf_C43_parsed_changes_are_legal t n pns Hp E) as [_ F].
    destruct (from_rounds_ok (@None str) n pns Hp N F) as (b & rs & lo & Eb & R & H). rewrite Eb. cbn [bind].
    destruct (legal_classify ho b n pns rs lo _ N F R H) as (fc & Ec & J); auto. { rewrite map_map. cbn [fst]. apply map_id. }
    unfold with_name. rewrite Ec. cbn [bind]. assert (St : block_stage b = n) by apply H. rewrite St.
    pose proof (title_panic_iff name fc n Hp) as T. destruct (generate_title name fc n); cbn [bind].
    + split; [discriminate|]. intros [X|[X _]]; [lia|]. apply T in X. discriminate.
    + split; auto. intros _. right. split; [apply T; auto|eauto].
    + split; [discriminate|]. intros [X|[X _]]; [lia|]. apply T in X. discriminate.
    + split; [discriminate|]. intros [X|[X _]]; [lia|]. apply T in X. discriminate.
  - split; [discriminate|]. intros [X|[_ (pns & N & B)]]; [lia|]. assert (Err e = Ok pns) by (apply P; auto). discriminate.
Qed.
Lemma with_lead_end_panic_iff name pns : pnblock_ok pns -> with_lead_end ho name pns = Panic <-> exists pn, In pn pns /\ nameless (pn_stage pn).
Proof.
  intros (s & Hs & N & F).
  assert (X : (exists pn, In pn pns /\ nameless (pn_stage pn)) <-> nameless s).
  { rewrite Forall_forall in F. split.
    - intros (pn & Hin & X). destruct (F pn Hin) as [_ E]. congruence.
    - intros X. destruct pns as [|pn pns]; [congruence|]. exists pn. split; [left; auto|]. destruct (F pn) as [_ E]; [left; auto|]. congruence. }
  rewrite X. clear X. rewrite <- stage_name_none by auto.
  destruct (stage_name s) as [n|] eqn:E.
  - destruct (pf_C71_with_lead_end ho name s pns n HO E N F) as (m & rs & lo & ars & Em & _). rewrite Em. split; discriminate.
  - split; auto. intros _. unfold with_lead_end.
    destruct (from_rounds_ok (@None str) s pns Hs N F) as (b & rs & lo & Eb & R & H). rewrite Eb. cbn [bind].
    apply holds_brep in H. erewrite (brep_len s) by eauto.
    assert (Lr : length rs = length pns) by (clear - R; induction R; cbn; auto).
    rewrite map_length. destruct rs as [|r1 rs]. { destruct pns; [congruence|discriminate]. }
    set (l := removelast (seq 0 s :: r1 :: rs)) in *. assert (Ll : length l = S (length rs)).
    { unfold l. rewrite removelast_firstn_len, firstn_length. cbn. lia. }
    unfold usub. rewrite Ll. cbn [Nat.leb bind]. rewrite Nat.sub_succ, Nat.sub_0_r.
    assert (exists r, nth_error l (length rs) = Some r) as [r Er].
    { destruct (nth_error l (length rs)) eqn:K; eauto. apply nth_error_None in K. lia. }
    destruct (brep_set_annot s _ lo b (length rs) (Some LABEL_LEAD_END) r None H) as (b' & Es & H').
    { rewrite nth_error_map, Er. reflexivity. }
    rewrite Es. cbn [unwrap bind].
    assert (M : map fst (replace_nth (map (fun r0 : row => (r0, @None str)) l) (length rs) (r, Some LABEL_LEAD_END)) = l).
    { erewrite replace_nth_fst; [rewrite map_map; apply map_id|]. rewrite nth_error_map, Er. reflexivity. }
    apply brep_holds in H'.
    destruct (legal_classify ho b' s pns (r1 :: rs) lo _ N F R H') as (fc & Ec & J); auto.
    unfold with_name. rewrite Ec. cbn [bind]. assert (St : block_stage b' = s) by apply H'. rewrite St.
    rewrite (proj2 (title_panic_iff name fc s Hs)); [reflexivity|]. apply stage_name_none; auto.
Qed.
End Ho.
