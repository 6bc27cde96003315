(** Proofs about products of sets of rows, generated groups, the group test and fast_hash. *)
From Verif Require Import Base Bell Stage Parity Row Spec ListFacts BellFacts RowFacts MulFacts
  GroupFacts.
Local Open Scope list_scope.

(** ** multi_cartesian_product, continued *)

Lemma picks_vrow {A} (P : A -> Prop) sets : Forall (Forall P) sets -> Forall (Forall P) (picks sets).
Proof.
  induction sets as [|s t IH]; intros H; cbn [picks].
  - repeat constructor.
  - inversion H as [|? ? Hs Ht]; subst. apply Forall_forall. intros x Hx.
    apply in_flat_map in Hx as (y & Hy & Hx). apply in_map_iff in Hx as (z & <- & Hz).
    constructor.
    + rewrite Forall_forall in Hs; auto.
    + specialize (IH Ht). rewrite Forall_forall in IH; auto.
Qed.

Lemma times_product n p xs q : vrow n p -> Forall (vrow n) xs -> forall ys, is_product ys p ->
  times p xs = q -> is_product (ys ++ xs) q.
Proof.
  intros Hp Hf. revert p q Hp. induction Hf as [|x xs Hx Hf IH]; intros p q Hp ys Hy E.
  - rewrite app_nil_r. unfold times in E. cbn in E. subst; auto.
  - unfold times in E. cbn [fold_left] in E. fold (times (rmul p x) xs) in E.
    change (x :: xs) with ([x] ++ xs). rewrite app_assoc.
    eapply IH; [ | | exact E].
    + apply valid_rmul; auto.
    + econstructor; eauto. apply (composition_vrow n); auto.
Qed.

Lemma mcp_products n set sets : Forall (Forall (vrow n)) (set :: sets) ->
  exists l ps, multi_cartesian_product (set :: sets) = Ret (Ok l) /\
    Permutation ps (picks (set :: sets)) /\ Forall2 is_product ps l.
Proof.
  intros H. pose proof (mcp_ok n set sets H) as E.
  inversion H as [|? ? Hs Ht]; subst.
  pose proof (fold_mstep_picks sets set) as P.
  set (prod := fun xs => match xs with [] => [] | x :: t => times x t end).
  assert (P' : Permutation (fold_left mstep sets set) (map prod (picks (set :: sets)))).
  { rewrite P. cbn [picks]. clear. induction set as [|x set IH]; cbn [flat_map map]; auto.
    rewrite map_app. apply Permutation_app; auto. rewrite map_map. reflexivity. }
  apply Permutation_map_inv in P' as (ps & E' & P').
  exists (fold_left mstep sets set), ps. splits; auto.
  - symmetry; auto.
  - rewrite E'. assert (Hp : Forall (fun xs => xs <> [] /\ Forall (vrow n) xs) ps).
    { apply Forall_forall. intros xs Hxs. apply (Permutation_in _ (Permutation_sym P')) in Hxs.
      split.
      - intros ->. cbn [picks] in Hxs. apply in_flat_map in Hxs as (y & _ & Hxs).
        apply in_map_iff in Hxs as (? & ? & _); discriminate.
      - pose proof (picks_vrow _ _ H) as K. rewrite Forall_forall in K; auto. }
    clear - Hp. induction Hp as [|xs ps [Hne Hf] Hp IH]; cbn [map]; constructor; auto.
    destruct xs as [|x xs]; [congruence|]. inversion Hf; subst. cbn [prod].
    change (x :: xs) with ([x] ++ xs). eapply (times_product n x xs _); eauto. constructor.
Qed.

Lemma mcp_first_err st set : Forall valid_row set ->
  (exists r, mcp_first st set = Ret (Ok r) /\ snd r = set /\
     exists s, (fst r = s) /\ (st = None \/ s = st) /\
               (Forall (fun x => s = Some (length x)) set) /\ (set = [] -> s = st)) \/
  (exists e, mcp_first st set = Ret (Err e) /\
     ~ (forall x y, In x set -> In y set -> length x = length y /\ (st = None \/ st = Some (length x)))).
Proof.
  revert st. induction set as [|r t IH]; intros st H; cbn [mcp_first].
  - left. exists (st, []). cbn. splits; auto. exists st. splits; auto.
  - inversion H as [|? ? Hr Ht]; subst. rewrite valid_row_stage by auto. cbn [bind].
    destruct st as [s0|]; cbn [test_err_opt].
    + unfold test_err. destruct (Nat.eqb_spec s0 (length r)) as [E|E].
      * destruct (IH (Some s0) Ht) as [((s' & rs) & E' & Es & s & Hs & Hst & Hf & Hnil) | (e & E' & Hn)]; rewrite E'; cbn [bind].
        -- left. exists (s', r :: rs). cbn in *. subst s' rs. splits; auto. exists s. splits; auto.
           ++ destruct Hst as [|]; [discriminate|]. subst. constructor; auto. 
           ++ discriminate.
        -- right. exists e. split; auto. intros Hall. apply Hn. intros x y Hx Hy. apply Hall; right; auto.
      * right. eexists. split; [reflexivity|]. intros Hall.
        destruct (Hall r r (or_introl eq_refl) (or_introl eq_refl)) as [_ [|]]; congruence.
    + destruct (IH (Some (length r)) Ht) as [((s' & rs) & E' & Es & s & Hs & Hst & Hf & Hnil) | (e & E' & Hn)]; rewrite E'; cbn [bind].
      * left. exists (s', r :: rs). cbn in *. subst s' rs. splits; auto. exists s. splits; auto.
        -- destruct Hst as [|]; [discriminate|]. subst. constructor; auto.
        -- discriminate.
      * right. exists e. split; auto. intros Hall. apply Hn. intros x y Hx Hy. split.
        -- apply Hall; right; auto.
        -- right. f_equal. apply Hall; [left; auto | right; auto].
Qed.

Lemma mcp_step_err n from set : from <> [] -> Forall (vrow n) from -> Forall valid_row set ->
  ~ Forall (vrow n) set -> exists e, mcp_step n from set = Ret (Err e).
Proof.
  intros Hne Hf. induction set as [|r t IH]; intros H Hn; cbn [mcp_step].
  - exfalso; apply Hn; constructor.
  - inversion H as [|? ? Hr Ht]; subst. rewrite valid_row_stage by auto. cbn [bind]. unfold test_err.
    destruct (Nat.eqb_spec n (length r)) as [E|E].
    + assert (Vr : vrow n r) by (split; auto).
      rewrite (mapM_ret _ (fun r1 => rmul r1 r)).
      * cbn [bind]. destruct IH as (e & E'); auto. rewrite E'. cbn [bind]. eauto.
      * intros r1 Hr1. rewrite Forall_forall in Hf. apply (mul_unchecked_vrow n); auto.
    + eauto.
Qed.

(** every outcome of the remaining loop: a value or an error, never a panic *)
Lemma mcp_loop_total n sets : Forall (Forall valid_row) sets -> forall from, Forall (vrow n) from ->
  (exists l, mcp_loop (Some n) from sets = Ret (Ok l)) \/
  ((exists e, mcp_loop (Some n) from sets = Ret (Err e)) /\ ~ Forall (Forall (vrow n)) sets).
Proof.
  induction sets as [|set t IH]; intros H from Hf; cbn [mcp_loop]; [eauto|].
  inversion H as [|? ? Hs Ht]; subst. destruct from as [|f from]; [eauto|]. cbn [unwrap bind].
  assert (D : Forall (vrow n) set \/ ~ Forall (vrow n) set).
  { clear - Hs. induction Hs as [|x l Hx Hl [IH|IH]].
    - left; constructor.
    - destruct (Nat.eq_dec (length x) n); [left; constructor; auto; split; auto|].
      right. intros K; inversion K as [|? ? [_ ?] ?]; auto.
    - right. intros K; inversion K; auto. }
  destruct D as [D|D].
  - rewrite mcp_step_ok by auto. cbn [bind]. fold (mstep (f :: from) set).
    destruct (IH Ht (mstep (f :: from) set)) as [K | [K1 K2]]; auto.
    + apply mstep_vrow; auto.
    + right; split; auto. intros K. inversion K; auto.
  - destruct (mcp_step_err n (f :: from) set) as (e & E); auto; [discriminate|]. rewrite E. cbn [bind].
    right; split; eauto. intros K; inversion K; auto.
Qed.

Lemma mcp_total sets : Forall (Forall valid_row) sets ->
  (exists l, multi_cartesian_product sets = Ret (Ok l)) \/
  ((exists e, multi_cartesian_product sets = Ret (Err e)) /\
   exists s1 s2 a b, In s1 sets /\ In s2 sets /\ In a s1 /\ In b s2 /\ length a <> length b).
Proof.
  destruct sets as [|set t]; intros H; [left; eexists; reflexivity|].
  inversion H as [|? ? Hs Ht]; subst. unfold multi_cartesian_product.
  destruct (mcp_first_err None set Hs) as [((s' & rs) & E & Ers & s & Es & _ & Hf & Hnil) | (e & E & Hn)];
    rewrite E; cbn [bind].
  - cbn in Es, Ers. subst rs s'. destruct set as [|r set].
    + left. rewrite mcp_loop_nil. eauto.
    + inversion Hf as [|? ? E1 Hf']; subst.
      assert (V : Forall (vrow (length r)) (r :: set)).
      { apply Forall_forall. intros x Hx. rewrite Forall_forall in Hs, Hf. split; auto.
        specialize (Hf x Hx). congruence. }
      destruct (mcp_loop_total (length r) t Ht _ V) as [K|[K1 K2]]; auto.
      right. split; auto.
      assert (D : exists s2 b, In s2 t /\ In b s2 /\ length b <> length r).
      { clear - Ht K2. induction t as [|x t IH]; [exfalso; apply K2; constructor|].
        inversion Ht as [|? ? Hx Ht']; subst.
        assert (D : Forall (vrow (length r)) x \/ exists b, In b x /\ length b <> length r).
        { clear - Hx. induction Hx as [|y l Hy Hl [IH|(b & Hb & Hne)]].
          - left; constructor.
          - destruct (Nat.eq_dec (length y) (length r)); [left; constructor; auto; split; auto|].
            right. exists y; split; auto. left; auto.
          - right. exists b; split; auto. right; auto. }
        destruct D as [D|(b & Hb & Hne)].
        - destruct IH as (s2 & b & H1 & H2 & H3); auto.
          exists s2, b. splits; auto. right; auto.
        - exists x, b. splits; auto. left; auto. }
      destruct D as (s2 & b & H1 & H2 & H3).
      exists (r :: set), s2, r, b. splits; auto; [left; auto | right; auto | left; auto].
  - right. split; [eauto|].
    destruct set as [|r set]; [exfalso; apply Hn; intros x y []|].
    assert (D : exists b, In b (r :: set) /\ length r <> length b).
    { assert (D : (forall b, In b (r :: set) -> length b = length r) \/ exists b, In b (r :: set) /\ length r <> length b).
      { generalize (r :: set). induction l as [|y l [IH|(b & Hb & Hne)]].
        - left; intros b [].
        - destruct (Nat.eq_dec (length y) (length r)).
          + left. intros b [<-|Hb]; auto.
          + right. exists y. split; [left; auto|auto].
        - right. exists b. split; [right; auto|auto]. }
      destruct D as [D|D]; auto. exfalso. apply Hn. intros x y Hx Hy. split; auto.
      rewrite (D x Hx), (D y Hy). auto. }
    destruct D as (b & Hb & Hne). exists (r :: set), (r :: set), r, b. splits; auto; left; auto.
Qed.

Lemma mcp_mixed sets : Forall (Forall valid_row) sets -> Forall (fun s => s <> []) sets ->
  (exists s1 s2 a b, In s1 sets /\ In s2 sets /\ In a s1 /\ In b s2 /\ length a <> length b) ->
  exists e, multi_cartesian_product sets = Ret (Err e).
Proof.
  intros H Hne (s1 & s2 & a & b & H1 & H2 & Ha & Hb & Hab).
  destruct sets as [|set t]; [destruct H1|].
  inversion H as [|? ? Hs Ht]; subst. inversion Hne as [|? ? Hs0 Ht0]; subst.
  unfold multi_cartesian_product.
  destruct (mcp_first_err None set Hs) as [((s' & rs) & E & Ers & s & Es & _ & Hf & Hnil) | (e & E & Hn)];
    rewrite E; cbn [bind]; [|eauto].
  cbn in Es, Ers. subst rs s'. destruct set as [|r set]; [congruence|].
  inversion Hf as [|? ? E1 Hf']; subst.
  assert (V : Forall (vrow (length r)) (r :: set)).
  { apply Forall_forall. intros x Hx. rewrite Forall_forall in Hs, Hf. split; auto.
    specialize (Hf x Hx). congruence. }
  assert (K : ~ Forall (Forall (vrow (length r))) t).
  { intros K. apply Hab. assert (G : forall s x, In s ((r :: set) :: t) -> In x s -> length x = length r).
    { intros s x [<-|Hi] Hx.
      - rewrite Forall_forall in V. apply V; auto.
      - rewrite Forall_forall in K. specialize (K s Hi). rewrite Forall_forall in K. apply K; auto. }
    rewrite (G s1 a), (G s2 b); auto. }
  assert (Hne' : r :: set <> []) by discriminate. clear - V K Ht Ht0 Hne'.
  revert V Hne'. generalize (r :: set). intros from. generalize dependent (length r). intros n. 
  revert from. induction t as [|x t IH]; intros from K V Hne'; [exfalso; apply K; constructor|].
  inversion Ht as [|? ? Hx Ht']; subst. inversion Ht0 as [|? ? Hx0 Ht0']; subst. cbn [mcp_loop].
  destruct from as [|f from]; [congruence|]. cbn [unwrap bind].
  assert (D : Forall (vrow n) x \/ ~ Forall (vrow n) x).
  { clear - Hx. induction Hx as [|z l Hz Hl [IH|IH]].
    - left; constructor.
    - destruct (Nat.eq_dec (length z) n); [left; constructor; auto; split; auto|].
      right. intros C; inversion C as [|? ? [_ ?] ?]; auto.
    - right. intros C; inversion C; auto. }
  destruct D as [D|D].
  - rewrite mcp_step_ok by auto. cbn [bind]. fold (mstep (f :: from) x). apply IH; auto.
    + apply mstep_vrow; auto.
    + destruct x; [congruence|]. unfold mstep. cbn. discriminate.
  - destruct (mcp_step_err n (f :: from) x) as (e & E); auto; try discriminate. rewrite E. cbn [bind]. eauto.
Qed.

(** ** Generated groups *)

Lemma row_mem_iff r set : row_mem r set = true <-> In r set.
Proof.
  unfold row_mem. rewrite existsb_exists. split.
  - intros (x & Hx & E). apply list_eqb_eq in E. subst; auto.
  - intros H. exists r. split; auto. apply list_eqb_eq; auto.
Qed.

(** words over the generators *)
Inductive word (rows : list row) : row -> Prop :=
| word_gen r : In r rows -> word rows r
| word_mul a r : word rows a -> In r rows -> word rows (rmul a r).

Lemma word_vrow n rows x : Forall (vrow n) rows -> word rows x -> vrow n x.
Proof.
  intros H W. rewrite Forall_forall in H. induction W; auto. apply valid_rmul; auto.
Qed.

Lemma lgc_seed_ok n rows : Forall (vrow n) rows -> forall st set frontier,
  st = None \/ st = Some n ->
  exists new, lgc_seed st set frontier rows = Ret (Ok (set ++ new, frontier ++ new)) /\
    (NoDup set -> NoDup (set ++ new)) /\ (forall x, In x new -> In x rows) /\
    (forall x, In x rows -> In x (set ++ new)).
Proof.
  induction rows as [|r t IH]; intros H st set frontier Hst; cbn [lgc_seed].
  - exists []. rewrite !app_nil_r. splits; auto. intros x [].
  - inversion H as [|? ? Hr Ht]; subst. rewrite valid_row_stage by apply Hr. cbn [bind].
    rewrite (proj2 Hr).
    assert (E : test_err_opt st n = (Some n, Ok tt)).
    { destruct Hst as [-> | ->]; cbn; [reflexivity|]. unfold test_err; rewrite Nat.eqb_refl; reflexivity. }
    rewrite E. destruct (row_mem r set) eqn:M.
    + apply row_mem_iff in M. destruct (IH Ht (Some n) set frontier) as (new & E' & H1 & H2 & H3); auto.
      exists new. splits; auto.
      * intros x Hx; right; auto.
      * intros x [<-|Hx]; auto. apply in_or_app; auto.
    + assert (M' : ~ In r set) by (intros C; apply row_mem_iff in C; congruence).
      destruct (IH Ht (Some n) (set ++ [r]) (frontier ++ [r])) as (new & E' & H1 & H2 & H3); auto.
      exists (r :: new). rewrite <- !app_assoc in E'. cbn [app] in E'. splits; auto.
      * intros Hnd. rewrite <- app_assoc in H1. apply H1. apply NoDup_app_intro; auto.
        -- constructor; [intros []|constructor].
        -- intros x Hx [<-|[]]; auto.
      * intros x [<-|Hx]; [left; auto|right; auto].
      * intros x [<-|Hx].
        -- apply in_or_app; right; left; auto.
        -- specialize (H3 x Hx). rewrite <- app_assoc in H3. exact H3.
Qed.

Lemma lgc_seed_err rows : Forall valid_row rows -> forall st set frontier,
  (exists x y, In x rows /\ In y rows /\ length x <> length y) \/
  (exists s x, st = Some s /\ In x rows /\ length x <> s) ->
  exists e, lgc_seed st set frontier rows = Ret (Err e).
Proof.
  induction rows as [|r t IH]; intros H st set frontier K; cbn [lgc_seed].
  - destruct K as [(x & y & [] & _)|(s & x & _ & [] & _)].
  - inversion H as [|? ? Hr Ht]; subst. rewrite valid_row_stage by auto. cbn [bind].
    assert (G : forall s0, s0 = length r ->
      (exists x y, In x t /\ In y t /\ length x <> length y) \/ (exists s x, Some s0 = Some s /\ In x t /\ length x <> s) \/
      ~ ((exists x y, In x (r :: t) /\ In y (r :: t) /\ length x <> length y) \/
         (exists s x, Some s0 = Some s /\ In x (r :: t) /\ length x <> s))).
    { intros s0 ->. assert (D : (forall x, In x t -> length x = length r) \/ exists x, In x t /\ length x <> length r).
      { clear. induction t as [|y t [IH|(b & Hb & Hne)]].
        - left; intros x [].
        - destruct (Nat.eq_dec (length y) (length r)).
          + left; intros x [<-|Hx]; auto.
          + right; exists y; split; [left; auto|auto].
        - right; exists b; split; [right; auto|auto]. }
      destruct D as [D|(x & Hx & Hne)].
      - right; right. intros [(x & y & [<-|Hx] & [<-|Hy] & Hne) | (s & x & [= <-] & [<-|Hx] & Hne)];
          repeat match goal with H : In _ t |- _ => apply D in H end; congruence.
      - right; left. eauto. }
    destruct st as [s0|]; cbn [test_err_opt].
    + unfold test_err. destruct (Nat.eqb_spec s0 (length r)) as [E|E]; [|eauto].
      destruct (G s0 E) as [K'|[K'|K']].
      * destruct (row_mem r set); apply IH; auto.
      * destruct (row_mem r set); apply IH; auto.
      * contradiction.
    + assert (K0 : (exists x y, In x (r :: t) /\ In y (r :: t) /\ length x <> length y)).
      { destruct K as [K|(s & x & C & _)]; [auto|discriminate]. }
      destruct (G (length r) eq_refl) as [K'|[K'|K']].
      * destruct (row_mem r set); apply IH; auto.
      * destruct (row_mem r set); apply IH; auto.
      * exfalso; apply K'; auto.
Qed.

Lemma lgc_expand_ok n r rows : vrow n r -> Forall (vrow n) rows -> forall set frontier,
  exists new, lgc_expand r set frontier rows = Ret (set ++ new, frontier ++ new) /\
    (NoDup set -> NoDup (set ++ new)) /\
    (forall x, In x new -> exists g, In g rows /\ x = rmul r g) /\
    (forall g, In g rows -> In (rmul r g) (set ++ new)).
Proof.
  intros Hr. induction rows as [|g t IH]; intros H set frontier; cbn [lgc_expand].
  - exists []. rewrite !app_nil_r. splits; auto; intros x [].
  - inversion H as [|? ? Hg Ht]; subst. rewrite (mul_unchecked_vrow n) by auto. cbn [bind].
    destruct (row_mem (rmul r g) set) eqn:M.
    + apply row_mem_iff in M. destruct (IH Ht set frontier) as (new & E' & H1 & H2 & H3).
      exists new. splits; auto.
      * intros x Hx. destruct (H2 x Hx) as (g' & Hg' & ->). exists g'; split; auto; right; auto.
      * intros x [<-|Hx]; auto. apply in_or_app; auto.
    + assert (M' : ~ In (rmul r g) set) by (intros C; apply row_mem_iff in C; congruence).
      destruct (IH Ht (set ++ [rmul r g]) (frontier ++ [rmul r g])) as (new & E' & H1 & H2 & H3).
      exists (rmul r g :: new). rewrite <- !app_assoc in E'. cbn [app] in E'. splits; auto.
      * intros Hnd. rewrite <- app_assoc in H1. apply H1. apply NoDup_app_intro; auto.
        -- constructor; [intros []|constructor].
        -- intros x Hx [<-|[]]; auto.
      * intros x [<-|Hx].
        -- exists g; split; auto; left; auto.
        -- destruct (H2 x Hx) as (g' & Hg' & ->). exists g'; split; auto; right; auto.
      * intros g' [<-|Hx].
        -- apply in_or_app; right; left; auto.
        -- specialize (H3 g' Hx). rewrite <- app_assoc in H3. exact H3.
Qed.

Lemma lgc_loop_ok n rows : Forall (vrow n) rows -> forall fuel set frontier,
  NoDup set -> (forall x, In x frontier -> In x set) -> (forall x, In x rows -> In x set) ->
  (forall x, In x set -> word rows x) ->
  (forall x g, In x set -> In g rows -> In x frontier \/ In (rmul x g) set) ->
  (length (universe n) - length set) + length frontier < fuel ->
  exists set', lgc_loop fuel rows set frontier = Ret set' /\ NoDup set' /\
    (forall x, In x set' <-> word rows x).
Proof.
  intros Hrows. induction fuel as [|fuel IH]; intros set frontier Hnd Hsub Hgen Hw Hcl Hf; [lia|].
  cbn [lgc_loop]. destruct frontier as [|r frontier].
  - exists set. splits; auto. intros x; split; auto. intros W. induction W as [x Hx|a g W IHW Hg]; auto.
    destruct (Hcl a g IHW Hg) as [[]|K]; auto.
  - assert (Hr : vrow n r) by (eapply word_vrow; eauto; apply Hw, Hsub; left; auto).
    destruct (lgc_expand_ok n r rows Hr Hrows set frontier) as (new & E & H1 & H2 & H3).
    rewrite E. cbn [bind]. specialize (H1 Hnd). apply IH; auto.
    + intros x Hx. apply in_app_iff in Hx as [Hx|Hx]; apply in_or_app; auto. left; apply Hsub; right; auto.
    + intros x Hx. apply in_or_app; auto.
    + intros x Hx. apply in_app_iff in Hx as [Hx|Hx]; auto.
      destruct (H2 x Hx) as (g & Hg & ->). apply word_mul; auto. apply Hw, Hsub; left; auto.
    + intros x g Hx Hg. apply in_app_iff in Hx as [Hx|Hx].
      * destruct (Hcl x g Hx Hg) as [[<-|K]|K].
        -- right; auto.
        -- left; apply in_or_app; auto.
        -- right; apply in_or_app; auto.
      * left; apply in_or_app; auto.
    + assert (Hlen : length (set ++ new) <= length (universe n)).
      { apply NoDup_incl_length; auto. intros x Hx. apply vrow_universe.
        apply in_app_iff in Hx as [Hx|Hx].
        - eapply word_vrow; eauto.
        - destruct (H2 x Hx) as (g & Hg & ->). apply valid_rmul; auto. rewrite Forall_forall in Hrows; auto. }
      rewrite !app_length in *. cbn [length] in Hf. lia.
Qed.

Lemma lgc_ok n rows : Forall (vrow n) rows ->
  exists fuel0, forall fuel, fuel0 <= fuel ->
  exists set, least_group_containing fuel rows = Ret (Ok set) /\ NoDup set /\
    (forall x, In x set <-> word rows x).
Proof.
  intros H. exists (S (length (universe n) + length rows + length (universe n))). intros fuel Hf.
  unfold least_group_containing.
  destruct (lgc_seed_ok n rows H None [] []) as (new & E & H1 & H2 & H3); auto.
  rewrite E. cbn [bind app]. cbn [app] in H1, H3. specialize (H1 (NoDup_nil _)).
  assert (Hlen : length new <= length (universe n)).
  { apply NoDup_incl_length; auto. intros x Hx. apply vrow_universe. rewrite Forall_forall in H; auto. }
  destruct (lgc_loop_ok n rows H fuel new new) as (set & E' & H4 & H5); auto.
  - intros x Hx. apply word_gen; auto.
  - lia.
  - exists set. rewrite E'. cbn [bind]. auto.
Qed.

(** words are exactly the generated subgroup *)
Lemma word_app rows a b : (forall x, word rows x -> exists n, vrow n x /\ Forall (vrow n) rows) ->
  word rows a -> word rows b -> word rows (rmul a b).
Proof.
  intros V Wa Wb. induction Wb as [g Hg|b g Wb IH Hg].
  - apply word_mul; auto.
  - destruct (V b Wb) as (n & Vb & Vr). rewrite <- (rmul_assoc_vrow n).
    + apply word_mul; auto.
    + auto.
    + rewrite Forall_forall in Vr; auto.
Qed.

Lemma word_mul_closed n rows a b : Forall (vrow n) rows -> word rows a -> word rows b -> word rows (rmul a b).
Proof. intros H. apply word_app. intros x W. exists n. split; auto. eapply word_vrow; eauto. Qed.

Lemma word_pow n rows a k : Forall (vrow n) rows -> word rows a -> 0 < k -> word rows (rpow a k).
Proof.
  intros H W Hk. pose proof (word_vrow n rows a H W) as V. destruct k as [|k]; [lia|]. clear Hk.
  induction k as [|k IH].
  - rewrite (rpow_1 n); auto.
  - change (rpow a (S (S k))) with (rmul (rpow a (S k)) a). apply (word_mul_closed n); auto.
Qed.

Lemma word_subgroup n rows : rows <> [] -> Forall (vrow n) rows -> subgroup n (word rows).
Proof.
  intros Hne H. destruct rows as [|r0 rows]; [congruence|]. set (R := r0 :: rows) in *.
  assert (W0 : word R r0) by (apply word_gen; left; auto).
  assert (Id : word R (row_rounds n)).
  { pose proof (word_vrow n R r0 H W0) as V. destruct (finite_order n r0 V) as (k & Hk & E).
    rewrite <- E. apply (word_pow n); auto. }
  split.
  - intros e L I. apply identity_rounds in I. rewrite L in I. subst e. exact Id.
  - intros a b c Wa Wb C. apply composition_fun in C. subst c. apply (word_mul_closed n); auto.
  - intros a b e Wa Lb Le Vb I C. apply composition_fun in C.
    apply identity_rounds in I. rewrite Le in I. rewrite I in C. symmetry in C.
    pose proof (word_vrow n R a H Wa) as Va.
    apply (rinv_unique n) in C; [|auto|split; auto]. subst b.
    destruct (finite_order n a Va) as (k & Hk & E).
    assert (Ei : rpow a (k - 1) = rinv a).
    { apply (rinv_unique n); auto using vrow_rpow. rewrite (rpow_comm n) by auto.
      change (rpow a (S (k - 1)) = row_rounds n). replace (S (k - 1)) with k by lia. auto. }
    rewrite <- Ei. destruct (k - 1) as [|k'] eqn:K.
    + cbn [rpow]. rewrite (proj2 Va). exact Id.
    + apply (word_pow n); auto. lia.
Qed.

Lemma word_least n rows S x : subgroup n S -> Forall (vrow n) rows -> (forall r, In r rows -> S r) ->
  word rows x -> S x.
Proof.
  intros Hs H Hin W. induction W as [r Hr|a r W IH Hr]; auto.
  apply (sg_mul n S Hs a r); auto. apply (composition_vrow n).
  - eapply word_vrow; eauto.
  - rewrite Forall_forall in H; auto.
Qed.

(** ** The group test *)

Lemma is_group_stages_ok n set : Forall (vrow n) set -> forall f, f = None \/ f = Some n ->
  is_group_stages f set = Ret (Ok tt).
Proof.
  induction set as [|r t IH]; intros H f Hf; cbn [is_group_stages]; auto.
  inversion H as [|? ? Hr Ht]; subst. rewrite valid_row_stage by apply Hr. cbn [bind]. rewrite (proj2 Hr).
  destruct Hf as [-> | ->].
  - apply IH; auto.
  - unfold test_err. rewrite Nat.eqb_refl. apply IH; auto.
Qed.

Lemma is_group_stages_err set : Forall valid_row set -> forall f,
  (forall n, f = Some n -> exists x, In x set /\ length x <> n) ->
  (f = None -> exists x y, In x set /\ In y set /\ length x <> length y) ->
  exists e, is_group_stages f set = Ret (Err e).
Proof.
  induction set as [|r t IH]; intros H f Hs Hn; cbn [is_group_stages].
  - destruct f as [n|].
    + destruct (Hs n eq_refl) as (x & [] & _).
    + destruct (Hn eq_refl) as (x & _ & [] & _).
  - inversion H as [|? ? Hr Ht]; subst. rewrite valid_row_stage by auto. cbn [bind]. destruct f as [n|].
    + unfold test_err. destruct (Nat.eqb_spec n (length r)) as [E|E]; [|eauto].
      apply IH; auto; [|discriminate]. intros m [= <-]. destruct (Hs n eq_refl) as (x & [<-|Hx] & Hne); [congruence|eauto].
    + apply IH; auto; [|discriminate]. intros m [= <-].
      destruct (Hn eq_refl) as (x & y & [<-|Hx] & [<-|Hy] & Hne); [congruence|eauto|eauto|].
      destruct (Nat.eq_dec (length x) (length r)) as [E|E]; [|eauto].
      exists y. split; auto. congruence.
Qed.

Lemma is_group_inner_ok n set bi todo : vrow n bi -> Forall (vrow n) todo -> forall buf,
  exists buf' ok, is_group_inner set bi buf todo = Ret (buf', ok) /\
    (ok = true <-> forall a, In a todo -> In (rmul a bi) set).
Proof.
  intros Hb. induction todo as [|a t IH]; intros H buf; cbn [is_group_inner].
  - exists buf, true. split; auto. split; auto. intros _ a [].
  - inversion H as [|? ? Ha Ht]; subst.
    assert (E : mul_into_unchecked a bi buf = Ret (rmul a bi)).
    { unfold mul_into_unchecked. fold (mul_unchecked a bi). rewrite (mul_unchecked_vrow n) by auto. reflexivity. }
    rewrite E. cbn [bind]. destruct (row_mem (rmul a bi) set) eqn:M.
    + apply row_mem_iff in M. destruct (IH Ht (rmul a bi)) as (buf' & ok & E' & K). exists buf', ok. split; auto.
      rewrite K. split.
      * intros K' x [<-|Hx]; auto.
      * intros K' x Hx. apply K'; right; auto.
    + exists (rmul a bi), false. split; auto. split; [discriminate|]. intros K.
      specialize (K a (or_introl eq_refl)). apply row_mem_iff in K. congruence.
Qed.

Lemma is_group_outer_ok n set todo : Forall (vrow n) set -> Forall (vrow n) todo ->
  forall bi buf, bi <> [] ->
  exists ok, is_group_outer set bi buf todo = Ret ok /\
    (ok = true <-> forall a b, In a set -> In b todo -> In (rmul a (rinv b)) set).
Proof.
  intros Hset. induction todo as [|b t IH]; intros H bi buf Hne; cbn [is_group_outer].
  - exists true. split; auto. split; auto. intros _ a b _ [].
  - inversion H as [|? ? Hb Ht]; subst. rewrite inv_into_buf_ok by (auto; apply Hb). cbn [bind].
    pose proof (valid_rinv n b Hb) as Hbi.
    destruct (is_group_inner_ok n set (rinv b) set Hbi Hset buf) as (buf' & ok & E & K). rewrite E. cbn [bind].
    destruct ok.
    + destruct (IH Ht (rinv b) buf') as (ok & E' & K').
      { apply Hbi. }
      exists ok. split; auto. rewrite K'. split.
      * intros K2 a b' Ha [<-|Hb']; auto. apply K; auto.
      * intros K2 a b' Ha Hb'. apply K2; auto. right; auto.
    + exists false. split; auto. split; [discriminate|]. intros K2.
      assert (C : false = true); [|discriminate]. apply K. intros a Ha. apply K2; auto. left; auto.
Qed.

Lemma is_group_set_ok n set : set <> [] -> Forall (vrow n) set ->
  exists ok, is_group_set set = Ret (Ok ok) /\
    (ok = true <-> forall a b, In a set -> In b set -> In (rmul a (rinv b)) set).
Proof.
  intros Hne H. unfold is_group_set. destruct set as [|r t]; [congruence|].
  rewrite (is_group_stages_ok n) by auto. cbn [bind].
  destruct (is_group_outer_ok n (r :: t) (r :: t) H H (row_rounds 1) (row_rounds 1)) as (ok & E & K); [discriminate|].
  exists ok. rewrite E. cbn [bind]. auto.
Qed.

Lemma subgroup_test n set : set <> [] -> Forall (vrow n) set ->
  (forall a b, In a set -> In b set -> In (rmul a (rinv b)) set) <-> subgroup n (fun x => In x set).
Proof.
  intros Hne H. assert (V : forall x, In x set -> vrow n x) by (rewrite Forall_forall in H; auto).
  assert (Hn : 0 < n). { destruct set as [|r t]; [congruence|]. destruct (V r (or_introl eq_refl)) as [V1 V2].
    rewrite <- V2. apply valid_row_pos; auto. }
  split.
  - intros K. assert (Id : In (row_rounds n) set).
    { destruct set as [|r t]; [congruence|]. specialize (K r r (or_introl eq_refl) (or_introl eq_refl)).
      rewrite (rmul_rinv_r n) in K; auto. apply V; left; auto. }
    assert (Inv : forall b, In b set -> In (rinv b) set).
    { intros b Hb. specialize (K _ b Id Hb). rewrite rmul_rounds_l_vrow in K; auto using valid_rinv. }
    split.
    + intros e L I. apply identity_rounds in I. rewrite L in I. rewrite I; exact Id.
    + intros a b c Ha Hb C. apply composition_fun in C. subst c.
      specialize (K a (rinv b) Ha (Inv b Hb)). rewrite (rinv_rinv n) in K; auto.
    + intros a b e Ha Lb Le Vb I C. apply composition_fun in C.
      apply identity_rounds in I. rewrite Le in I. rewrite I in C. symmetry in C.
      apply (rinv_unique n) in C; [|auto|split; auto]. subst b. auto.
  - intros [S1 S2 S3] a b Ha Hb. pose proof (valid_rinv n b (V b Hb)) as [Vi1 Vi2].
    eapply S2; [exact Ha| |apply (composition_vrow n); [auto|split; auto]].
    apply (S3 b _ (row_rounds n)); auto using length_rounds, rounds_identity.
    rewrite <- (rmul_rinv_r n b) by auto. apply (composition_vrow n); [auto|split; auto].
Qed.

(** ** fast_hash *)

Local Open Scope N_scope.

Fixpoint hval (s : N) (r : row) : N :=
  match r with
  | [] => 0
  | b :: t => N.of_nat b + s * hval s t
  end.

Lemma hval_bound s r : Forall (fun b => N.of_nat b < s) r -> hval s r < s ^ N.of_nat (length r).
Proof.
  induction 1 as [|b t Hb Ht IH]; cbn [hval length].
  - cbn; lia.
  - rewrite Nat2N.inj_succ, N.pow_succ_r'. nia.
Qed.

Lemma hval_inj s a b : Forall (fun b => N.of_nat b < s) a -> Forall (fun b => N.of_nat b < s) b ->
  length a = length b -> hval s a = hval s b -> a = b.
Proof.
  intros Ha. revert b. induction Ha as [|x t Hx Ht IH]; intros [|y u] Hb L E; try discriminate; auto.
  inversion Hb as [|? ? Hy Hu]; subst. cbn [hval] in E. injection L as L.
  assert (Hs : s <> 0) by lia.
  assert (E1 : N.of_nat x = N.of_nat y).
  { assert (M : forall z h, z < s -> (z + s * h) mod s = z).
    { intros z h Hz. rewrite (N.mul_comm s), N.mod_add by auto. apply N.mod_small; auto. }
    rewrite <- (M (N.of_nat x) (hval s t) Hx), <- (M (N.of_nat y) (hval s u) Hy), E. reflexivity. }
  f_equal.
  - lia.
  - apply IH; auto. nia.
Qed.

Lemma wrapping_loop_spec w s r : forall acc m,
  acc < 2 ^ w ->
  fast_hash_wrapping_loop w s r acc m = (acc + m * hval s r) mod 2 ^ w.
Proof.
  assert (H2 : 2 ^ w <> 0) by (apply N.pow_nonzero; lia).
  induction r as [|b t IH]; intros acc m Hacc; cbn [fast_hash_wrapping_loop hval].
  - rewrite N.mul_0_r, N.add_0_r, N.mod_small; auto.
  - rewrite IH by (apply N.mod_lt; auto).
    rewrite N.add_mod_idemp_r by auto.
    rewrite N.add_mod_idemp_l by auto.
    rewrite <- (N.add_mod_idemp_r _ ((m * s) mod 2 ^ w * hval s t)) by auto.
    rewrite N.mul_mod_idemp_l by auto.
    rewrite N.add_mod_idemp_r by auto. f_equal. ring.
Qed.

Lemma fast_hash_wrapping_ok w r : valid_row r ->
  fast_hash_wrapping w r = Ret (hval (N.of_nat (length r)) r mod 2 ^ w).
Proof.
  intros H. unfold fast_hash_wrapping. rewrite valid_row_stage by auto. cbn [bind].
  rewrite wrapping_loop_spec.
  - f_equal. f_equal. lia.
  - assert (2 ^ w <> 0) by (apply N.pow_nonzero; lia). lia.
Qed.

Lemma checked_loop_spec w s r : forall acc m, 0 < m -> 0 < s ->
  Forall (fun b => N.of_nat b < s) r -> acc < m ->
  m * s ^ N.of_nat (length r) < 2 ^ w ->
  fast_hash_checked_loop w s r acc m = Ret (acc + m * hval s r).
Proof.
  induction r as [|b t IH]; intros acc m Hm Hs Hf Hacc Hlt; cbn [fast_hash_checked_loop hval].
  - rewrite N.mul_0_r, N.add_0_r; auto.
  - inversion Hf as [|? ? Hb Ht]; subst. cbn [length] in Hlt. rewrite Nat2N.inj_succ, N.pow_succ_r' in Hlt.
    assert (Hp : 0 < s ^ N.of_nat (length t)).
    { assert (s ^ N.of_nat (length t) <> 0) by (apply N.pow_nonzero; lia). lia. }
    assert (Hms : m * s < 2 ^ w).
    { apply N.le_lt_trans with (m * (s * s ^ N.of_nat (length t))); auto. nia. }
    assert (Hbm : N.of_nat b * m <= (s - 1) * m) by (apply N.mul_le_mono_r; lia).
    assert (Hsm : (s - 1) * m + m = m * s) by nia.
    unfold mul_checked, add_checked, fits.
    rewrite (proj2 (N.ltb_lt (N.of_nat b * m) (2 ^ w))) by lia. cbn [bind].
    rewrite (proj2 (N.ltb_lt (acc + N.of_nat b * m) (2 ^ w))) by lia. cbn [bind].
    rewrite (proj2 (N.ltb_lt (m * s) (2 ^ w))) by lia. cbn [bind].
    rewrite IH; auto; try nia.
    f_equal. ring.
Qed.

Lemma fast_hash_checked_ok w r : valid_row r -> N.of_nat (length r) ^ N.of_nat (length r) < 2 ^ w ->
  fast_hash_checked w r = Ret (hval (N.of_nat (length r)) r).
Proof.
  intros H Hlt. unfold fast_hash_checked. rewrite valid_row_stage by auto. cbn [bind].
  assert (Hp := valid_row_pos r H). rewrite checked_loop_spec.
  - f_equal. lia.
  - lia.
  - lia.
  - pose proof (valid_row_Forall r H) as F. rewrite Forall_forall in F |- *. intros b Hb. specialize (F b Hb). lia.
  - lia.
  - lia.
Qed.

Lemma checked_loop_last w s r b : forall acc m, s <> 0 ->
  2 ^ w <= m * s ^ N.of_nat (length (r ++ [b])) -> 
  (exists v, fast_hash_checked_loop w s (r ++ [b]) acc m = Ret v) -> False.
Proof.
  induction r as [|x t IH]; intros acc m Hs Hle [v E]; cbn [app fast_hash_checked_loop length] in *.
  - change (N.of_nat 1) with 1 in Hle. rewrite N.pow_1_r in Hle.
    unfold mul_checked, add_checked, fits in E.
    destruct (N.of_nat b * m <? 2 ^ w); cbn [bind] in E; [|discriminate].
    destruct (acc + N.of_nat b * m <? 2 ^ w); cbn [bind] in E; [|discriminate].
    rewrite (proj2 (N.ltb_ge _ _)) in E by auto. discriminate.
  - rewrite Nat2N.inj_succ, N.pow_succ_r' in Hle.
    destruct (mul_checked w (N.of_nat x) m) as [p| | |]; cbn [bind] in E; try discriminate.
    destruct (add_checked w acc p) as [a'| | |]; cbn [bind] in E; try discriminate.
    unfold mul_checked in E. destruct (fits w (m * s)); cbn [bind] in E; [|discriminate].
    apply (IH a' (m * s)); eauto. rewrite <- N.mul_assoc. exact Hle.
Qed.

Lemma checked_loop_outcome w s r : forall acc m,
  (exists v, fast_hash_checked_loop w s r acc m = Ret v) \/ fast_hash_checked_loop w s r acc m = Panic.
Proof.
  induction r as [|x t IH]; intros acc m; cbn [fast_hash_checked_loop]; eauto.
  unfold mul_checked, add_checked.
  destruct (fits w _); cbn [bind]; auto. destruct (fits w _); cbn [bind]; auto.
  destruct (fits w _); cbn [bind]; auto.
Qed.

Lemma fast_hash_checked_panics w r : valid_row r ->
  2 ^ w <= N.of_nat (length r) ^ N.of_nat (length r) -> fast_hash_checked w r = Panic.
Proof.
  intros H Hle. unfold fast_hash_checked. rewrite valid_row_stage by auto. cbn [bind].
  destruct (checked_loop_outcome w (N.of_nat (length r)) r 0 1) as [K|K]; auto. exfalso.
  assert (Hp := valid_row_pos r H).
  destruct (exists_last (l := r)) as (r' & b & E); [intros ->; cbn in Hp; lia|].
  assert (Hs : N.of_nat (length r) <> 0) by lia.
  assert (Hle' : 2 ^ w <= 1 * N.of_nat (length r) ^ N.of_nat (length (r' ++ [b]))) by (rewrite <- E; lia).
  generalize dependent (N.of_nat (length r)). intros s _ K Hs Hle'. rewrite E in K.
  revert K. apply checked_loop_last; auto.
Qed.

(** ** What the errors about stages say *)

Definition other_in (n : nat) (rows : list row) (e : incompatible_stages) : Prop :=
  exists pre b post, rows = pre ++ b :: post /\ (forall x, In x pre -> length x = n) /\ length b <> n /\
    e = IncompatibleStages n (length b).

Lemma other_in_cons n r rows e : length r = n -> other_in n rows e -> other_in n (r :: rows) e.
Proof.
  intros L (pre & b & post & -> & A & B & C). exists (r :: pre), b, post. splits; auto. intros x [<-|X]; auto.
Qed.

Lemma other_in_here n r rows : length r <> n -> other_in n (r :: rows) (IncompatibleStages n (length r)).
Proof. intros L. exists [], r, rows. splits; auto. intros x []. Qed.

Lemma other_in_app n xs ys e : (forall x, In x xs -> length x = n) -> other_in n ys e -> other_in n (xs ++ ys) e.
Proof. induction xs as [|x xs IH]; intros A H; auto. cbn [app]. apply other_in_cons; [apply A; left; auto|]. apply IH; auto. intros y Y. apply A. right; auto. Qed.

Lemma other_in_prefix n xs ys e : other_in n xs e -> other_in n (xs ++ ys) e.
Proof.
  intros (pre & b & post & -> & A & B & C). exists pre, b, (post ++ ys). splits; auto. rewrite <- app_assoc. reflexivity.
Qed.

Lemma other_in_first r rows e : other_in (length r) rows e ->
  exists b, first_of_another_stage (r :: rows) r b /\ e = IncompatibleStages (length r) (length b).
Proof. intros (pre & b & post & -> & A & B & C). exists b. split; auto. exists pre, post. splits; auto. Qed.

Lemma lgc_seed_err_some n rows : Forall valid_row rows -> forall set frontier e,
  lgc_seed (Some n) set frontier rows = Ret (Err e) -> other_in n rows e.
Proof.
  induction 1 as [|r t Hr Ht IH]; intros set frontier e E; cbn [lgc_seed] in E; [discriminate|].
  rewrite valid_row_stage in E by auto. cbn [bind test_err_opt] in E. unfold test_err in E.
  destruct (Nat.eqb_spec n (length r)) as [K|K].
  - apply other_in_cons; auto. destruct (row_mem r set); eapply IH; exact E.
  - injection E as <-. apply other_in_here; auto.
Qed.

Lemma lgc_err_first rows fuel e : Forall valid_row rows -> least_group_containing fuel rows = Ret (Err e) ->
  exists a b, first_of_another_stage rows a b /\ e = IncompatibleStages (length a) (length b).
Proof.
  intros H E. unfold least_group_containing in E. destruct rows as [|r t].
  - cbn in E. destruct fuel; discriminate.
  - inversion H as [|? ? Hr Ht]; subst. destruct (lgc_seed None [] [] (r :: t)) as [[[set fr]|e']| | |] eqn:S; cbn [bind] in E; try discriminate.
    + destruct (lgc_loop fuel (r :: t) set fr); discriminate.
    + injection E as ->. cbn [lgc_seed] in S. rewrite valid_row_stage in S by auto. cbn [bind test_err_opt row_mem existsb] in S.
      apply lgc_seed_err_some in S; auto. apply other_in_first in S as (b & S). exists r, b. exact S.
Qed.

Lemma is_group_stages_err_some n set : Forall valid_row set -> forall e,
  is_group_stages (Some n) set = Ret (Err e) -> other_in n set e.
Proof.
  induction 1 as [|r t Hr Ht IH]; intros e E; cbn [is_group_stages] in E; [discriminate|].
  rewrite valid_row_stage in E by auto. cbn [bind] in E. unfold test_err in E.
  destruct (Nat.eqb_spec n (length r)) as [K|K].
  - apply other_in_cons; auto.
  - injection E as <-. apply other_in_here; auto.
Qed.

Lemma is_group_err_first set e : Forall valid_row set -> is_group_set set = Ret (Err e) ->
  exists a b, first_of_another_stage set a b /\ e = IncompatibleStages (length a) (length b).
Proof.
  intros H E. unfold is_group_set in E. destruct set as [|r t]; [discriminate|].
  inversion H as [|? ? Hr Ht]; subst.
  destruct (is_group_stages None (r :: t)) as [[u|e']| | |] eqn:S; cbn [bind] in E; try discriminate.
  - destruct (is_group_outer (r :: t) (row_rounds 1) (row_rounds 1) (r :: t)); discriminate.
  - injection E as ->. cbn [is_group_stages] in S. rewrite valid_row_stage in S by auto. cbn [bind] in S.
    apply is_group_stages_err_some in S; auto. apply other_in_first in S as (b & S). exists r, b. exact S.
Qed.

Lemma mcp_first_err_some n set : Forall valid_row set -> forall e,
  mcp_first (Some n) set = Ret (Err e) -> other_in n set e.
Proof.
  induction 1 as [|r t Hr Ht IH]; intros e E; cbn [mcp_first] in E; [discriminate|].
  rewrite valid_row_stage in E by auto. cbn [bind test_err_opt] in E. unfold test_err in E.
  destruct (Nat.eqb_spec n (length r)) as [K|K].
  - apply other_in_cons; auto. apply IH. destruct (mcp_first (Some n) t) as [[[? ?]|?]| | |]; cbn [bind] in E; congruence.
  - injection E as <-. apply other_in_here; auto.
Qed.

Lemma mcp_step_err_some n from set : Forall valid_row set -> forall e,
  mcp_step n from set = Ret (Err e) -> other_in n set e.
Proof.
  induction 1 as [|r t Hr Ht IH]; intros e E; cbn [mcp_step] in E; [discriminate|].
  rewrite valid_row_stage in E by auto. cbn [bind] in E. unfold test_err in E.
  destruct (Nat.eqb_spec n (length r)) as [K|K].
  - apply other_in_cons; auto. apply IH. destruct (mapM (fun r1 => mul_unchecked r1 r) from); cbn [bind] in E; try discriminate.
    destruct (mcp_step n from t) as [[?|?]| | |]; cbn [bind] in E; congruence.
  - injection E as <-. apply other_in_here; auto.
Qed.

Lemma mcp_step_ok_some n from set : Forall valid_row set -> forall l,
  mcp_step n from set = Ret (Ok l) -> forall x, In x set -> length x = n.
Proof.
  induction 1 as [|r t Hr Ht IH]; intros l E x X; cbn [mcp_step] in E; [destruct X|].
  rewrite valid_row_stage in E by auto. cbn [bind] in E. unfold test_err in E.
  destruct (Nat.eqb_spec n (length r)) as [K|K]; [|discriminate].
  destruct (mapM (fun r1 => mul_unchecked r1 r) from); cbn [bind] in E; try discriminate.
  destruct (mcp_step n from t) as [[l'|?]| | |]; cbn [bind] in E; try discriminate.
  destruct X as [<-|X]; auto. eapply IH; eauto.
Qed.

Lemma mcp_loop_err_some n sets : Forall (Forall valid_row) sets -> forall from e,
  mcp_loop (Some n) from sets = Ret (Err e) -> other_in n (concat sets) e.
Proof.
  induction 1 as [|set t Hs Ht IH]; intros from e E; cbn [mcp_loop] in E; [discriminate|].
  destruct from as [|f from]; [discriminate|]. cbn [unwrap bind] in E. cbn [concat].
  destruct (mcp_step n (f :: from) set) as [[l|e']| | |] eqn:S; cbn [bind] in E; try discriminate.
  - apply other_in_app.
    + intros x X. exact (mcp_step_ok_some n _ set Hs l S x X).
    + eapply IH; exact E.
  - injection E as ->. apply other_in_prefix, (mcp_step_err_some n (f :: from)); auto.
Qed.

Lemma mcp_err_first sets e : Forall (Forall valid_row) sets -> multi_cartesian_product sets = Ret (Err e) ->
  exists a b, first_of_another_stage (concat sets) a b /\ e = IncompatibleStages (length a) (length b).
Proof.
  intros H E. unfold multi_cartesian_product in E. destruct sets as [|set t]; [discriminate|].
  inversion H as [|? ? Hs Ht]; subst. destruct set as [|r set].
  - cbn [mcp_first bind] in E. rewrite mcp_loop_nil in E. discriminate.
  - cbn [concat app]. inversion Hs as [|? ? Hr Hs']; subst. cbn [mcp_first] in E. rewrite valid_row_stage in E by auto. cbn [bind test_err_opt] in E.
    destruct (mcp_first_err (Some (length r)) set Hs') as [((s' & rs) & F & Ers & s & Es & Hst & Hf & Hnil) | (e' & F & Hn)];
      rewrite F in E; cbn [bind] in E.
    + cbn in Es, Ers. subst s' rs. destruct Hst as [|]; [discriminate|]. subst s.
      assert (K : other_in (length r) (set ++ concat t) e).
      { apply other_in_app; [|eapply mcp_loop_err_some; eauto].
        intros x X. rewrite Forall_forall in Hf. specialize (Hf x X). congruence. }
      apply other_in_first in K as (b & K). exists r, b. exact K.
    + injection E as ->. apply mcp_first_err_some in F; auto. apply (other_in_prefix _ _ (concat t)) in F.
      apply other_in_first in F as (b & F). exists r, b. exact F.
Qed.
