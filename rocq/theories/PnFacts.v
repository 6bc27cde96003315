(** Proofs about single place notations. *)
From Coq Require Import Sorted.
From Verif Require Import Base Bell Stage Row Utils SameStageVec Block PlaceNot Spec SpecVec SpecBlock SpecPn ListFacts
  BellFacts RowFacts MulFacts SsvFacts BlockFacts.
Local Open Scope list_scope.

(** ** Legal places *)


Lemma legal_ge s i l : legal_from s i l -> i <= s /\ Forall (fun p => i <= p < s) l.
Proof.
  induction 1 as [|i l H L [I1 I2]|i l H L [I1 I2]].
  - split; auto.
  - split; [lia|]. constructor; [lia|]. eapply Forall_impl; [|exact I2]. cbn; intros; lia.
  - split; [lia|]. eapply Forall_impl; [|exact I2]. cbn; intros; lia.
Qed.

Lemma legal_In s i l x : legal_from s i l -> In x l -> i <= x < s.
Proof. intros L H. apply legal_ge in L as [_ F]. rewrite Forall_forall in F. auto. Qed.

(** the next place made, or the end *)
Lemma legal_next s i l : legal_from s i l ->
  match l with
  | [] => Nat.Even (s - i) /\ i <= s
  | p :: l' => i <= p /\ p < s /\ Nat.Even (p - i) /\ legal_from s (p + 1) l'
  end.
Proof.
  induction 1 as [|i l H L IH|i l H L IH].
  - split; auto. exists 0. lia.
  - splits; auto. exists 0. lia.
  - destruct l as [|p l'].
    + destruct IH as [[k E] IH]. split; [|lia]. exists (k + 1). lia.
    + destruct IH as (I1 & I2 & [k I3] & I4). splits; auto; [lia|]. exists (k + 1). lia.
Qed.

Lemma legal_swaps s k : forall i l, legal_from s (i + 2 * k) l -> legal_from s i l.
Proof.
  induction k as [|k IH]; intros i l H.
  - rewrite Nat.mul_0_r, Nat.add_0_r in H. auto.
  - apply IH. pose proof (legal_ge _ _ _ H) as [G _]. apply lf_swap; [lia|].
    replace (i + 2 * k + 2) with (i + 2 * S k) by lia. auto.
Qed.

Lemma legal_even s i j l : i <= j -> Nat.Even (j - i) -> legal_from s j l -> legal_from s i l.
Proof. intros H [k E] L. apply (legal_swaps s k). replace (i + 2 * k) with j by lia. auto. Qed.

Lemma legal_sorted s i l : legal_from s i l -> StronglySorted lt l.
Proof.
  revert i. induction l as [|p l IH]; intros i H; [constructor|].
  apply legal_next in H as (_ & _ & _ & H). constructor; [eauto|].
  apply legal_ge in H as [_ H]. eapply Forall_impl; [|exact H]. cbn; intros; lia.
Qed.

Lemma sorted_lt_NoDup l : StronglySorted lt l -> NoDup l.
Proof.
  induction 1 as [|x l H IH F]; constructor; auto. rewrite Forall_forall in F. intros Hx. apply F in Hx. lia.
Qed.

Lemma sorted_ext l m : StronglySorted lt l -> StronglySorted lt m -> (forall x, In x l <-> In x m) -> l = m.
Proof.
  intros Hl. revert m. induction Hl as [|x l Hl IH F]; intros m Hm E.
  - destruct m as [|y m]; auto. exfalso. apply (proj2 (E y)). left; auto.
  - inversion Hm as [|y m' Hm' G]; subst.
    + exfalso. apply (proj1 (E x)). left; auto.
    + rewrite Forall_forall in F, G.
      assert (x = y).
      { destruct (proj1 (E x) (or_introl eq_refl)) as [->|H1]; auto.
        destruct (proj2 (E y) (or_introl eq_refl)) as [->|H2]; auto.
        apply G in H1. apply F in H2. lia. }
      subst y. f_equal. apply IH; auto. intros z. split; intros Hz.
      * destruct (proj1 (E z) (or_intror Hz)) as [->|]; auto. apply F in Hz. lia.
      * destruct (proj2 (E z) (or_intror Hz)) as [->|]; auto. apply G in Hz. lia.
Qed.

(** ** Sorting *)

Lemma insert_perm x l : Permutation (insert_sorted x l) (x :: l).
Proof.
  induction l as [|y l IH]; cbn; auto. destruct (x <=? y); auto.
  eapply perm_trans; [apply perm_skip, IH|]. apply perm_swap.
Qed.

Lemma sort_perm l : Permutation (sort_unstable l) l.
Proof.
  induction l as [|x l IH]; cbn; auto. eapply perm_trans; [apply insert_perm|]. apply perm_skip, IH.
Qed.

Lemma insert_sorted_sorted x l : StronglySorted le l -> StronglySorted le (insert_sorted x l).
Proof.
  induction 1 as [|y l H IH F]; cbn; [repeat constructor|].
  destruct (Nat.leb_spec x y) as [L|L].
  - constructor; [constructor; auto|]. constructor; auto. eapply Forall_impl; [|exact F]. cbn; intros; lia.
  - constructor; auto. apply (Permutation_Forall (Permutation_sym (insert_perm x l))). constructor; auto. lia.
Qed.

Lemma sort_sorted l : StronglySorted le (sort_unstable l).
Proof. induction l; cbn; [constructor|]. apply insert_sorted_sorted; auto. Qed.

Lemma sort_id l : StronglySorted le l -> sort_unstable l = l.
Proof.
  induction 1 as [|x l H IH F]; cbn; auto. fold (sort_unstable l). rewrite IH. destruct l as [|y l]; auto.
  cbn. inversion F; subst. rewrite (proj2 (Nat.leb_le x y)) by auto. reflexivity.
Qed.

Lemma sorted_lt_le l : StronglySorted lt l -> StronglySorted le l.
Proof.
  induction 1 as [|x l H IH F]; constructor; auto. eapply Forall_impl; [|exact F]. cbn; intros; lia.
Qed.

(** ** The windows loop *)

Fixpoint expand (w : list nat) : list nat :=
  match w with
  | p :: ((q :: _) as t) => (if q - p =? 2 then [p; p + 1] else [p]) ++ expand t
  | _ => []
  end.

Fixpoint gaps_ok (w : list nat) : Prop :=
  match w with
  | p :: ((q :: _) as t) => p < q /\ (q = p + 2 \/ Nat.Even (q - p - 1)) /\ gaps_ok t
  | _ => True
  end.

Lemma even_mod n : Nat.Even n <-> n mod 2 = 0.
Proof.
  rewrite Nat.mod_divide by lia. unfold Nat.Even, Nat.divide. split; intros [k E]; exists k; lia.
Qed.
Lemma odd_mod n : Nat.Odd n <-> n mod 2 = 1.
Proof.
  split.
  - intros [k ->]. replace (2 * k + 1) with (1 + k * 2) by lia. rewrite Nat.mod_add by lia. reflexivity.
  - intros H. exists (n / 2). pose proof (Nat.div_mod n 2 ltac:(lia)). lia.
Qed.

Lemma fss_loop_cons acc p q w : fss_loop acc (p :: q :: w) =
  if q <? p then Panic
  else
    match q - p with
    | O => Ret (Err (DuplicatePlace p))
    | S n =>
        if n =? 1 then fss_loop (acc ++ [p] ++ [p + 1]) (q :: w)
        else if n mod 2 =? 1 then Ret (Err (AmbiguousPlacesBetween p q))
        else fss_loop (acc ++ [p]) (q :: w)
    end.
Proof. reflexivity. Qed.

Lemma expand_cons p q w : expand (p :: q :: w) = (if q - p =? 2 then [p; p + 1] else [p]) ++ expand (q :: w).
Proof. reflexivity. Qed.
Lemma gaps_cons p q w : gaps_ok (p :: q :: w) = (p < q /\ (q = p + 2 \/ Nat.Even (q - p - 1)) /\ gaps_ok (q :: w)).
Proof. reflexivity. Qed.

Lemma fss_cases w : StronglySorted le w -> forall acc,
  (fss_loop acc w = Ret (Ok (acc ++ expand w)) /\ gaps_ok w) \/
  (exists p l1 l2, fss_loop acc w = Ret (Err (DuplicatePlace p)) /\ w = l1 ++ p :: p :: l2) \/
  (exists p q l1 l2, fss_loop acc w = Ret (Err (AmbiguousPlacesBetween p q)) /\ w = l1 ++ p :: q :: l2 /\
     p + 2 < q /\ Nat.Odd (q - p - 1)).
Proof.
  induction 1 as [|p w H IH F]; intros acc.
  - left. cbn. rewrite app_nil_r. auto.
  - destruct w as [|q w].
    + left. cbn. rewrite app_nil_r. auto.
    + inversion F as [|? ? Hq Fq]; subst. rewrite fss_loop_cons, expand_cons, gaps_cons.
      rewrite (proj2 (Nat.ltb_ge _ _)) by auto. destruct (q - p) as [|n] eqn:E.
      * right; left. assert (q = p) by lia. subst q. exists p, [], w. auto.
      * destruct (Nat.eqb_spec n 1) as [E1|E1].
        -- subst n. specialize (IH (acc ++ [p] ++ [p + 1])). cbn [Nat.eqb].
           destruct IH as [[-> G]|[(d & l1 & l2 & -> & ->)|(a & b & l1 & l2 & -> & -> & K)]].
           ++ left. rewrite <- app_assoc. cbn [app]. splits; auto; [lia|left; lia].
           ++ right; left. exists d, (p :: l1), l2. auto.
           ++ right; right. exists a, b, (p :: l1), l2. auto.
        -- assert (En : (S n =? 2) = false) by (apply Nat.eqb_neq; lia). rewrite En.
           destruct (Nat.eqb_spec (n mod 2) 1) as [O|O].
           ++ right; right. exists p, q, [], w. splits; auto.
              ** apply odd_mod in O as [k O]. lia.
              ** replace (q - p - 1) with n by lia. apply odd_mod; auto.
           ++ specialize (IH (acc ++ [p])).
              destruct IH as [[-> G]|[(d & l1 & l2 & -> & ->)|(a & b & l1 & l2 & -> & -> & K)]].
              ** left. rewrite <- app_assoc. cbn [app]. splits; auto; [lia|]. right.
                 replace (S n - 1) with n by lia. apply even_mod. pose proof (Nat.mod_upper_bound n 2). lia.
              ** right; left. exists d, (p :: l1), l2. auto.
              ** right; right. exists a, b, (p :: l1), l2. auto.
Qed.

Lemma last_place_snoc l x : last_place (l ++ [x]) = Some x.
Proof. unfold last_place. rewrite rev_app_distr. reflexivity. Qed.

Lemma last_place_cases l : (l = [] /\ last_place l = None) \/ exists l' x, l = l' ++ [x] /\ last_place l = Some x.
Proof. destruct l as [|x l] using rev_ind; [left; auto|]. right. exists l, x. rewrite last_place_snoc. auto. Qed.

(** [expand] does not include the last place *)
Lemma expand_legal s w x tl : gaps_ok (w ++ [x]) -> legal_from s x tl ->
  legal_from s (hd x w) (expand (w ++ [x]) ++ tl).
Proof.
  intros G L. induction w as [|p w IH]; cbn [hd app expand] in *; auto.
  assert (K : exists q t, w ++ [x] = q :: t /\ q = hd x w).
  { destruct w; cbn; eauto. }
  destruct K as (q & t & Ew & Eq). rewrite Ew in *. rewrite gaps_cons in G. destruct G as (G1 & G2 & G3).
  specialize (IH G3). rewrite <- Eq in IH.
  assert (Hs : q < s \/ q = s).
  { pose proof (legal_ge _ _ _ IH). lia. }
  pose proof (legal_ge _ _ _ IH) as [Q _].
  destruct (Nat.eqb_spec (q - p) 2) as [E|E].
  - cbn [app]. apply lf_place; [lia|]. apply lf_place; [lia|]. replace (p + 1 + 1) with q by lia. exact IH.
  - cbn [app]. apply lf_place; [lia|]. destruct G2 as [G2|[k G2]]; [lia|].
    apply (legal_swaps s k). replace (p + 1 + 2 * k) with q by lia. exact IH.
Qed.

Lemma gaps_sorted w : gaps_ok w -> StronglySorted lt w.
Proof.
  induction w as [|p w IH]; [constructor|]. destruct w as [|q w]; [repeat constructor|].
  intros (G1 & _ & G3). specialize (IH G3). constructor; auto.
  inversion IH as [|? ? _ F]; subst. constructor; auto. eapply Forall_impl; [|exact F]. cbn; intros; lia.
Qed.

Lemma In_expand w x y : gaps_ok (w ++ [x]) ->
  (In y (expand (w ++ [x])) \/ y = x) <-> (In y (w ++ [x]) \/ exists q, y = q + 1 /\ In q (w ++ [x]) /\ In (q + 2) (w ++ [x])).
Proof.
  induction w as [|p w IH]; intros G.
  - cbn. split.
    + intros [[]| ->]; auto.
    + intros [[->|[]]|(q & -> & [->|[]] & [E|[]])]; auto. lia.
  - assert (K : exists q t, w ++ [x] = q :: t) by (destruct w; cbn; eauto).
    destruct K as (q & t & Ew). pose proof (gaps_sorted _ G) as Sg. cbn [app] in G, Sg |- *. rewrite Ew in G.
    rewrite gaps_cons in G. destruct G as (G1 & G2 & G3). rewrite <- Ew in G3. specialize (IH G3).
    cbn [expand]. rewrite Ew at 1. rewrite Ew at 1.
    replace (expand (q :: t)) with (expand (w ++ [x])) by (rewrite Ew; auto).
    rewrite in_app_iff.
    inversion Sg as [|? ? Sg' F]; subst. rewrite Ew in Sg', F. inversion Sg' as [|? ? _ F']; subst.
    rewrite Forall_forall in F, F'.
    split.
    + intros [[H|H]|H].
      * destruct (Nat.eqb_spec (q - p) 2) as [E|E].
        -- destruct H as [<-|[<-|[]]]; [left; left; auto|]. right. exists p. splits; auto; [left; auto|].
           right. rewrite Ew. left. lia.
        -- destruct H as [<-|[]]. left; left; auto.
      * destruct (proj1 IH (or_introl H)) as [I|(z & -> & I1 & I2)]; [left; right; auto|].
        right. exists z. splits; auto; right; auto.
      * destruct (proj1 IH (or_intror H)) as [I|(z & -> & I1 & I2)]; [left; right; auto|].
        right. exists z. splits; auto; right; auto.
    + intros [[->|H]|(z & -> & H1 & H2)].
      * left. left. destruct (q - y =? 2); left; auto.
      * destruct (proj2 IH (or_introl H)); auto.
      * destruct H1 as [->|H1].
        -- destruct H2 as [H2|H2]; [lia|]. rewrite Ew in H2.
           destruct (Nat.eqb_spec (q - z) 2) as [E|E]; [left; left; right; left; auto|].
           assert (q = z + 2 \/ q = z + 1).
           { destruct H2 as [H2|H2]; [left; auto|]. apply F' in H2. specialize (F q (or_introl eq_refl)). lia. }
           destruct H as [H|H]; [lia|]. destruct (proj2 IH) as [K|K]; auto.
           left. rewrite Ew, <- H. left; auto.
        -- destruct H2 as [H2|H2]; [specialize (F z); rewrite Ew in H1; specialize (F H1); lia|].
           destruct (proj2 IH) as [K|K]; auto. right. exists z. auto.
Qed.

Lemma gaps_unambiguous s w x : gaps_ok (w ++ [x]) -> x < s -> unambiguous s (w ++ [x]).
Proof.
  intros G Hx. pose proof (gaps_sorted _ G) as Sg. unfold unambiguous. splits.
  - destruct w; discriminate.
  - apply sorted_lt_NoDup; auto.
  - intros p Hp. enough (p <= x) by lia. clear -Sg Hp. induction w as [|q w IH]; cbn in *.
    + destruct Hp as [->|[]]; auto.
    + inversion Sg as [|? ? Sg' F]; subst. destruct Hp as [->|Hp]; auto. rewrite Forall_forall in F.
      specialize (F x). rewrite in_app_iff in F. cbn in F. specialize (F (or_intror (or_introl eq_refl))). lia.
  - generalize dependent (w ++ [x]). clear. intros w. induction w as [|a w IH]; intros G Sg p q (H1 & H2 & H3 & H4).
    + destruct H1.
    + inversion Sg as [|? ? Sg' F]; subst. rewrite Forall_forall in F. destruct w as [|b w].
      * destruct H1 as [->|[]]. destruct H2 as [->|[]]. lia.
      * rewrite gaps_cons in G. destruct G as (G1 & G2 & G3). destruct H2 as [->|H2].
        { destruct H1 as [->|H1]; [lia|]. apply F in H1. lia. }
        destruct H1 as [->|H1].
        -- assert (q = b).
           { destruct H2 as [->|H2]; auto. exfalso. apply (H4 b); [right; left; auto|].
             inversion Sg' as [|? ? _ F']; subst. rewrite Forall_forall in F'. apply F' in H2. lia. }
           subst q. auto.
        -- apply IH; auto. split; [auto|]. split; [auto|]. split; auto. intros y Hy. apply H4. right; auto.
Qed.

Lemma consecutive_adjacent l1 p q l2 : StronglySorted le (l1 ++ p :: q :: l2) -> p < q ->
  consecutive (l1 ++ p :: q :: l2) p q.
Proof.
  intros Sl Hpq. unfold consecutive. splits; auto.
  - apply in_or_app. right; left; auto.
  - apply in_or_app. right; right; left; auto.
  - intros x Hx K. induction l1 as [|y l1 IH]; cbn in *.
    + inversion Sl as [|? ? Sl' F]; subst. inversion Sl' as [|? ? _ F']; subst. rewrite Forall_forall in F'.
      destruct Hx as [->|[->|Hx]]; try lia. apply F' in Hx. lia.
    + inversion Sl as [|? ? Sl' F]; subst. destruct Hx as [->|Hx]; [|apply IH; auto].
      rewrite Forall_forall in F. specialize (F p). rewrite in_app_iff in F. specialize (F (or_intror (or_introl eq_refl))). lia.
Qed.

Lemma unambiguous_perm s w w' : Permutation w w' -> unambiguous s w -> unambiguous s w'.
Proof.
  intros P (H1 & H2 & H3 & H4). unfold unambiguous. splits.
  - intros ->. apply Permutation_sym, Permutation_nil in P. auto.
  - eapply Permutation_NoDup; eauto.
  - intros p Hp. apply H3. apply (Permutation_in _ (Permutation_sym P)); auto.
  - intros p q (C1 & C2 & C3 & C4). apply H4. unfold consecutive. splits; auto;
      try (apply (Permutation_in _ (Permutation_sym P)); auto).
    intros x Hx. apply C4. apply (Permutation_in _ P); auto.
Qed.

Lemma place_made_perm s w w' p : Permutation w w' -> place_made s w p -> place_made s w' p.
Proof.
  intros P. assert (I : forall x, In x w <-> In x w').
  { intros x; split; apply Permutation_in; auto. apply Permutation_sym; auto. }
  unfold place_made. intros [H|[(q & E & H1 & H2)|[(E & m & H1 & H2 & H3)|(E & m & H1 & H2 & H3)]]].
  - left. apply I; auto.
  - right; left. exists q. rewrite <- !I. auto.
  - right; right; left. split; auto. exists m. rewrite <- I. splits; auto. intros q Hq. apply H2, I; auto.
  - right; right; right. split; auto. exists m. rewrite <- I. splits; auto. intros q Hq. apply H2, I; auto.
Qed.

(** ** from_sorted_slice *)

Lemma sorted_snoc_le w x y : StronglySorted le (w ++ [x]) -> In y (w ++ [x]) -> y <= x.
Proof.
  intros Sg Hy. induction w as [|q w IH]; cbn in *.
  - destruct Hy as [->|[]]; auto.
  - inversion Sg as [|? ? Sg' F]; subst. destruct Hy as [->|Hy]; auto. rewrite Forall_forall in F.
    apply F. apply in_or_app. right; left; auto.
Qed.

Lemma sorted_hd_le w x y : StronglySorted le (w ++ [x]) -> In y (w ++ [x]) -> hd x w <= y.
Proof.
  intros Sg Hy. destruct w as [|q w]; cbn in *.
  - destruct Hy as [->|[]]; auto.
  - inversion Sg as [|? ? Sg' F]; subst. destruct Hy as [->|Hy]; auto. rewrite Forall_forall in F. auto.
Qed.

Lemma hd_In (w : list nat) x : In (hd x w) (w ++ [x]).
Proof. destruct w; cbn; auto. Qed.

Definition slice_ok (s : nat) (w : list nat) : Prop :=
  exists pn, from_sorted_slice w s = Ret (Ok pn) /\ pn_stage pn = s /\ legal_from s 0 (pn_places pn) /\
    (forall p, In p (pn_places pn) <-> place_made s w p) /\ unambiguous s w.

Definition slice_err (s : nat) (w : list nat) (e : pn_error) : Prop :=
  match e with
  | NoPlacesGiven => w = []
  | PlaceOutOfStage p s' => s' = s /\ In p w /\ s <= p /\ (forall q, In q w -> q <= p)
  | DuplicatePlace p => ~ NoDup w /\ exists l1 l2 l3, w = l1 ++ p :: l2 ++ p :: l3
  | AmbiguousPlacesBetween p q => consecutive w p q /\ 3 <= q - p - 1 /\ Nat.Odd (q - p - 1)
  | OddStageCross _ => False
  end.

Lemma fss_slice w s : 0 < s -> StronglySorted le w ->
  slice_ok s w \/ exists e, from_sorted_slice w s = Ret (Err e) /\ slice_err s w e.
Proof.
  intros Hs Sg. unfold from_sorted_slice, slice_ok.
  destruct (last_place_cases w) as [[-> E]|(w' & x & -> & E)]; rewrite E.
  { right. eexists; split; [reflexivity|]. reflexivity. }
  unfold from_sorted_slice. rewrite E.
  destruct (Nat.leb_spec s x) as [L|L].
  { right. eexists; split; [reflexivity|]. cbn. splits; auto.
    - apply in_or_app; right; left; auto.
    - intros q Hq. eapply sorted_snoc_le; eauto. }
  set (lead := match w' ++ [x] with p :: _ => if p mod 2 =? 1 then [0] else [] | [] => [] end).
  assert (El : lead = if hd x w' mod 2 =? 1 then [0] else []) by (destruct w'; reflexivity).
  destruct (fss_cases (w' ++ [x]) Sg lead) as [[R G]|[(p & l1 & l2 & R & Ew)|(p & q & l1 & l2 & R & Ew & K1 & K2)]]; rewrite R; cbn [bind].
  - left. eexists. split; [reflexivity|]. cbn [pn_stage pn_places].
    set (lie := if (s - x) mod 2 =? 0 then [s - 1] else []).
    assert (Lie : legal_from s (x + 1) lie).
    { unfold lie. destruct (Nat.eqb_spec ((s - x) mod 2) 0) as [E0|E0].
      - apply even_mod in E0 as [k E0]. apply (legal_even s (x + 1) (s - 1)); [lia|exists (k - 1); lia|].
        apply lf_place; [lia|]. replace (s - 1 + 1) with s by lia. constructor.
      - assert (O : (s - x) mod 2 = 1) by (pose proof (Nat.mod_upper_bound (s - x) 2); lia).
        apply odd_mod in O as [k O]. apply (legal_even s (x + 1) s); [lia|exists k; lia|]. constructor. }
    assert (Lx : legal_from s x (x :: lie)) by (apply lf_place; auto).
    assert (Lm : legal_from s (hd x w') (expand (w' ++ [x]) ++ x :: lie)) by (apply expand_legal; auto).
    assert (L0 : legal_from s 0 (lead ++ expand (w' ++ [x]) ++ x :: lie)).
    { rewrite El. destruct (Nat.eqb_spec (hd x w' mod 2) 1) as [O|O].
      - apply odd_mod in O as [k O]. cbn [app]. apply lf_place; [lia|].
        apply (legal_even s (0 + 1) (hd x w')); [lia|exists k; lia|exact Lm].
      - cbn [app]. apply (legal_even s 0 (hd x w')); [lia| |exact Lm].
        rewrite Nat.sub_0_r. apply even_mod. pose proof (Nat.mod_upper_bound (hd x w') 2). lia. }
    splits; auto.
    + rewrite <- app_assoc. exact L0.
    + intros p. rewrite <- app_assoc. cbn [app]. rewrite !in_app_iff. cbn [In]. unfold place_made.
      pose proof (In_expand w' x p G) as IE. split.
      * intros [H|[H|[H|H]]].
        -- right; right; left. rewrite El in H. destruct (Nat.eqb_spec (hd x w' mod 2) 1) as [O|O]; [|destruct H].
           destruct H as [<-|[]]. split; auto. exists (hd x w'). splits; [apply hd_In| |apply odd_mod; auto].
           intros q Hq. apply sorted_hd_le with (w := w') (x := x); auto.
        -- destruct (proj1 IE (or_introl H)); auto.
        -- destruct (proj1 IE (or_intror (eq_sym H))); auto.
        -- right; right; right. unfold lie in H. destruct (Nat.eqb_spec ((s - x) mod 2) 0) as [E0|E0]; [|destruct H].
           destruct H as [<-|[]]. split; auto. exists x. splits.
           ++ apply in_or_app; right; left; auto.
           ++ intros q Hq. eapply sorted_snoc_le; eauto.
           ++ apply even_mod in E0 as [k E0]. exists (k - 1). lia.
      * intros [H|[H|[(-> & m & H1 & H2 & H3)|(-> & m & H1 & H2 & H3)]]].
        -- destruct (proj2 IE (or_introl H)); auto.
        -- destruct (proj2 IE (or_intror H)); auto.
        -- left. rewrite El. assert (m = hd x w').
           { pose proof (H2 _ (hd_In w' x)). pose proof (sorted_hd_le w' x m Sg H1). lia. }
           subst m. apply odd_mod in H3. rewrite H3. left; auto.
        -- right; right; right. unfold lie. assert (m = x).
           { pose proof (H2 x ltac:(apply in_or_app; right; left; auto)). pose proof (sorted_snoc_le w' x m Sg H1). lia. }
           subst m. destruct H3 as [k H3]. assert (Ev : (s - x) mod 2 = 0) by (apply even_mod; exists (k + 1); lia).
           rewrite Ev. left; auto.
    + apply gaps_unambiguous; auto.
  - right. eexists; split; [reflexivity|]. cbn. rewrite Ew. split.
    + intros N. apply NoDup_remove_2 in N. apply N. apply in_or_app. right; left; auto.
    + exists l1, [], l2. auto.
  - right. eexists; split; [reflexivity|]. cbn. rewrite Ew in *. splits; auto.
    + apply consecutive_adjacent; auto. lia.
    + destruct K2 as [k K2]. lia.
Qed.

Lemma slice_err_unambiguous s w e : slice_err s w e -> ~ unambiguous s w.
Proof.
  intros H (U1 & U2 & U3 & U4). destruct e; cbn in H.
  - destruct H as (_ & H1 & H2 & _). apply U3 in H1. lia.
  - destruct H as (H1 & H2 & H3). destruct (U4 _ _ H1) as [E|[k E]]; [lia|]. destruct H3 as [j H3]. lia.
  - tauto.
  - auto.
  - auto.
Qed.

Lemma slice_err_perm s w w' e : Permutation w w' -> slice_err s w e -> slice_err s w' e.
Proof.
  intros P. assert (I : forall x, In x w <-> In x w').
  { intros x; split; apply Permutation_in; auto. apply Permutation_sym; auto. }
  destruct e; cbn; auto.
  - intros (H1 & H2 & H3 & H4). splits; auto; [apply I; auto|]. intros q Hq. apply H4, I; auto.
  - intros ((C1 & C2 & C3 & C4) & H). split; auto. unfold consecutive. splits; auto; try (apply I; auto).
    intros x Hx. apply C4, I; auto.
  - intros (H & l1 & l2 & l3 & ->). split.
    + intros N. apply H. eapply Permutation_NoDup; [|eassumption]. apply Permutation_sym; auto.
    + assert (In p w') by (apply I; apply in_or_app; right; left; auto).
      apply in_split in H0 as (m1 & m2 & ->).
      assert (P2 : Permutation (l1 ++ l2 ++ p :: l3) (m1 ++ m2)).
      { apply (Permutation_cons_inv (a := p)). eapply perm_trans; [apply Permutation_middle|]. eapply perm_trans; [exact P|].
        apply Permutation_sym, Permutation_middle. }
      assert (Hp : In p (m1 ++ m2)).
      { apply (Permutation_in _ P2). apply in_or_app; right. apply in_or_app; right; left; auto. }
      apply in_app_or in Hp as [Hp|Hp]; apply in_split in Hp as (n1 & n2 & ->).
      * exists n1, n2, m2. rewrite <- app_assoc. reflexivity.
      * exists m1, n1, n2. reflexivity.
  - intros ->. apply Permutation_nil in P. auto.
Qed.

(** ** Parsing *)

Lemma written_filter t l : written t l <-> l = filter_map bell_from_name t.
Proof.
  split.
  - induction 1 as [|c b t l H W IH|c t l H W IH]; cbn [filter_map]; auto; rewrite H; congruence.
  - intros ->. induction t as [|c t IH]; cbn [filter_map]; [constructor|]. destruct (bell_from_name c) eqn:E.
    + apply written_name; auto. + apply written_other; auto.
Qed.

Lemma cross_chars c : is_cm_cross (char_meaning_of c) = true <-> c = 120%N \/ c = 88%N \/ c = 45%N.
Proof.
  unfold char_meaning_of. destruct (bell_from_name c) as [b|] eqn:E.
  - split; [discriminate|]. intros [->|[->| ->]]; vm_compute in E; discriminate.
  - destruct (N.eqb_spec c 43) as [->|H1]; [split; [discriminate|intros; lia]|].
    destruct (N.eqb_spec c 32) as [->|H2]; [split; [discriminate|intros; lia]|].
    destruct (N.eqb_spec c 46) as [->|H3]; [split; [discriminate|intros; lia]|].
    destruct (N.eqb_spec c 120) as [->|H4]; [cbn; tauto|].
    destruct (N.eqb_spec c 88) as [->|H5]; [cbn; tauto|].
    destruct (N.eqb_spec c 45) as [->|H6]; [cbn; tauto|].
    cbn. split; [discriminate|]. intros; lia.
Qed.

Lemma utf8_pos c : 1 <= utf8_len c.
Proof. unfold utf8_len. destruct (c <? 128)%N, (c <? 2048)%N, (c <? 65536)%N; lia. Qed.

Lemma cross_test t :
  ((byte_len t =? 1) && match t with c :: _ => is_cm_cross (char_meaning_of c) | [] => false end = true) <-> cross_text t.
Proof.
  rewrite andb_true_iff, Nat.eqb_eq. unfold cross_text. split.
  - intros [H1 H2]. destruct t as [|c t]; [discriminate|]. cbn in H1.
    destruct t as [|d t].
    + apply cross_chars in H2 as [->|[->| ->]]; auto.
    + cbn in H1. pose proof (utf8_pos c). pose proof (utf8_pos d). lia.
  - intros [->|[->| ->]]; vm_compute; auto.
Qed.

Lemma cross_test_false t : ~ cross_text t ->
  (byte_len t =? 1) && match t with c :: _ => is_cm_cross (char_meaning_of c) | [] => false end = false.
Proof. intros H. apply not_true_is_false. rewrite cross_test. auto. Qed.

Lemma pn_parse_cross t s : cross_text t ->
  pn_parse t s = Ret (if s mod 2 =? 0 then Ok (PlaceNot [] s) else Err (OddStageCross s)).
Proof.
  intros H. apply cross_test in H. unfold pn_parse. rewrite H. unfold pn_cross. destruct (s mod 2 =? 0); reflexivity.
Qed.

Lemma pn_parse_places t s : ~ cross_text t -> pn_parse t s = from_sorted_slice (sort_unstable (filter_map bell_from_name t)) s.
Proof. intros H. unfold pn_parse. rewrite cross_test_false by auto. reflexivity. Qed.

Lemma pn_parse_slice t s w : 0 < s -> ~ cross_text t -> written t w ->
  (exists pn, pn_parse t s = Ret (Ok pn) /\ pn_stage pn = s /\ legal_from s 0 (pn_places pn) /\
     (forall p, In p (pn_places pn) <-> place_made s w p) /\ unambiguous s w) \/
  (exists e, pn_parse t s = Ret (Err e) /\ slice_err s w e /\ ~ unambiguous s w).
Proof.
  intros Hs Hc W. apply written_filter in W. subst w. rewrite pn_parse_places by auto.
  set (w := filter_map bell_from_name t).
  pose proof (sort_perm w) as P.
  destruct (fss_slice (sort_unstable w) s Hs (sort_sorted w)) as [(pn & E & H1 & H2 & H3 & H4)|(e & E & H)].
  - left. exists pn. splits; auto.
    + intros p. rewrite H3. split; apply place_made_perm; auto. apply Permutation_sym; auto.
    + eapply unambiguous_perm; eauto.
  - right. exists e. splits; auto.
    + eapply slice_err_perm; eauto.
    + eapply slice_err_unambiguous, slice_err_perm; eauto.
Qed.

Lemma even_cross_legal s : 0 < s -> s mod 2 = 0 -> legal (PlaceNot [] s).
Proof.
  intros Hs H. split; auto. cbn. apply even_mod in H. apply (legal_even s 0 s); [lia| |constructor]. rewrite Nat.sub_0_r; auto.
Qed.

Lemma pn_parse_legal t s pn : 0 < s -> pn_parse t s = Ret (Ok pn) -> legal pn /\ pn_stage pn = s.
Proof.
  intros Hs E.
  assert (D : cross_text t \/ ~ cross_text t).
  { destruct ((byte_len t =? 1) && match t with c :: _ => is_cm_cross (char_meaning_of c) | [] => false end) eqn:B.
    - left. apply cross_test; auto.
    - right. intros C. apply cross_test in C. congruence. }
  destruct D as [C|C].
  - rewrite pn_parse_cross in E by auto. destruct (Nat.eqb_spec (s mod 2) 0); [|discriminate]. injection E as <-.
    split; auto. apply even_cross_legal; auto.
  - destruct (pn_parse_slice t s _ Hs C (proj2 (written_filter t _) eq_refl)) as [(pn' & E' & H1 & H2 & _)|(e & E' & _)].
    + rewrite E in E'. injection E' as <-. split; auto. split; rewrite ?H1; auto.
    + congruence.
Qed.
