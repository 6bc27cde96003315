(** Proofs about the effect of place notation on rows. *)
From Coq Require Import Sorted.
From Verif Require Import Base Bell Stage Row Utils SameStageVec Block PlaceNot Spec SpecVec SpecBlock SpecPn ListFacts
  BellFacts RowFacts MulFacts SsvFacts BlockFacts PnFacts.
Local Open Scope list_scope.

(** ** [rings] *)

Lemma rings_ext made made' i r r' : (forall j, i <= j -> (In j made <-> In j made')) ->
  rings made i r r' -> rings made' i r r'.
Proof.
  intros H R. induction R as [i|i b r r' I R IH|i a b r r' N1 N2 R IH].
  - constructor.
  - constructor; [apply H; auto|]. apply IH. intros j Hj. apply H. lia.
  - constructor; [rewrite <- H; auto|rewrite <- H; auto; lia|]. apply IH. intros j Hj. apply H. lia.
Qed.

Lemma rings_length made i r r' : rings made i r r' -> length r' = length r.
Proof. induction 1; cbn; congruence. Qed.

Lemma rings_fun made i r r1 r2 : rings made i r r1 -> rings made i r r2 -> r1 = r2.
Proof.
  intros R. revert r2. induction R as [i|i b r r' I R IH|i a b r r' N1 N2 R IH]; intros r2 H; inversion H; subst; auto; try tauto.
  - f_equal; auto.
  - f_equal. f_equal. auto.
Qed.

Lemma rings_sym made i r r' : rings made i r r' -> rings made i r' r.
Proof. induction 1; constructor; auto. Qed.

Lemma rings_map made f i r r' : rings made i r r' -> rings made i (map f r) (map f r').
Proof. induction 1; cbn; constructor; auto. Qed.

Lemma rings_perm made i r r' : rings made i r r' -> Permutation r r'.
Proof.
  induction 1; auto. eapply perm_trans; [apply perm_swap|]. auto.
Qed.

Lemma rings_vrow made i s r r' : vrow s r -> rings made i r r' -> vrow s r'.
Proof.
  intros [V L] R. pose proof (rings_length _ _ _ _ R) as Lr. pose proof (rings_perm _ _ _ _ R) as P.
  split; [|lia]. apply valid_row_perm in V as [V1 V2]. apply valid_row_perm. split.
  - intros ->. apply Permutation_sym, Permutation_nil in P. auto.
  - rewrite Lr. eapply perm_trans; [apply Permutation_sym, P|]. auto.
Qed.

(** a legal place notation takes any row of its stage somewhere *)
Lemma legal_rings s i l : legal_from s i l -> forall r, i + length r = s -> exists r', rings l i r r'.
Proof.
  induction 1 as [|i l H L IH|i l H L IH]; intros r E.
  - destruct r; cbn in E; [|lia]. eexists; constructor.
  - destruct r as [|b r]; cbn in E; [lia|]. destruct (IH r) as [r' R]; [lia|]. exists (b :: r').
    apply rings_place; [left; auto|]. eapply rings_ext; [|exact R]. intros j Hj. cbn. split; auto. intros [->|]; auto. lia.
  - destruct r as [|a [|b r]]; cbn in E; try lia. destruct (IH r) as [r' R]; [lia|]. exists (b :: a :: r').
    apply rings_swap; auto; intros I; apply (legal_In _ _ _ _ L) in I; lia.
Qed.

(** ** [permute_unchecked] *)

Lemma upd_app_r {A} (pre suf : list A) j x : upd (pre ++ suf) (length pre + j) x = pre ++ upd suf j x.
Proof. induction pre; cbn; congruence. Qed.

Lemma row_swap_adjacent pre a b suf :
  row_swap (pre ++ a :: b :: suf) (length pre) (length pre + 1) = Ret (pre ++ b :: a :: suf).
Proof.
  rewrite row_swap_ok by (rewrite app_length; cbn; lia).
  assert (E1 : nth (length pre + 1) (pre ++ a :: b :: suf) 0 = b).
  { rewrite app_nth2 by lia. replace (length pre + 1 - length pre) with 1 by lia. reflexivity. }
  assert (E0 : nth (length pre) (pre ++ a :: b :: suf) 0 = a).
  { rewrite app_nth2 by lia. rewrite Nat.sub_diag. reflexivity. }
  rewrite E1, E0. f_equal.
  replace (length pre) with (length pre + 0) at 1 by lia. rewrite upd_app_r. cbn [upd].
  rewrite upd_app_r. reflexivity.
Qed.

Lemma permute_loop_ok s i l : legal_from s i l -> forall fuel pre suf, length pre = i -> i + length suf = s -> s < i + fuel ->
  exists suf', permute_loop fuel s l i (pre ++ suf) = Ret (pre ++ suf') /\ rings l i suf suf'.
Proof.
  induction 1 as [|i l H L IH|i l H L IH]; intros fuel pre suf Hp Hs Hf.
  - destruct fuel as [|fuel]; [lia|]. cbn [permute_loop]. rewrite Nat.ltb_irrefl. destruct suf; [|cbn in Hs; lia].
    exists []. split; auto. constructor.
  - destruct fuel as [|fuel]; [lia|]. cbn [permute_loop]. rewrite (proj2 (Nat.ltb_lt i s)) by auto. rewrite Nat.eqb_refl.
    destruct suf as [|b suf]; cbn in Hs; [lia|].
    destruct (IH fuel (pre ++ [b]) suf) as (suf' & E & R); [rewrite app_length; cbn; lia|lia|lia|].
    rewrite <- app_assoc in E. cbn [app] in E. rewrite E. exists (b :: suf'). rewrite <- app_assoc. split; auto.
    apply rings_place; [left; auto|]. eapply rings_ext; [|exact R]. intros j Hj. cbn. split; auto. intros [->|]; auto. lia.
  - destruct fuel as [|fuel]; [lia|]. cbn [permute_loop]. rewrite (proj2 (Nat.ltb_lt i s)) by lia.
    destruct suf as [|a [|b suf]]; cbn in Hs; [lia|lia|].
    assert (Sw : row_swap (pre ++ a :: b :: suf) i (i + 1) = Ret (pre ++ b :: a :: suf)).
    { rewrite <- Hp. apply row_swap_adjacent. }
    destruct (IH fuel (pre ++ [b; a]) suf) as (suf' & E & R); [rewrite app_length; cbn; lia|lia|lia|].
    rewrite <- app_assoc in E. cbn [app] in E.
    exists (b :: a :: suf'). rewrite <- app_assoc in E. cbn [app] in E. split.
    + rewrite Sw. cbn [bind]. rewrite E. destruct l as [|p l]; auto.
      destruct (Nat.eqb_spec p i) as [->|]; auto.
      exfalso. pose proof (legal_In _ _ _ i L (or_introl eq_refl)). lia.
    + apply rings_swap; auto; intros I; apply (legal_In _ _ _ _ L) in I; lia.
Qed.

Lemma permute_unchecked_ok pn r : legal pn -> length r = pn_stage pn ->
  exists r', permute_unchecked pn r = Ret r' /\ rings (pn_places pn) 0 r r'.
Proof.
  intros [Hs L] E. unfold permute_unchecked.
  destruct (permute_loop_ok _ _ _ L (S (pn_stage pn)) [] r) as (r' & E' & R); cbn; try lia. exists r'. auto.
Qed.

Lemma permute_unchecked_rings pn r r' : legal pn -> rings (pn_places pn) 0 r r' -> length r = pn_stage pn ->
  permute_unchecked pn r = Ret r'.
Proof.
  intros L R E. destruct (permute_unchecked_ok pn r L E) as (r2 & E2 & R2). rewrite E2. f_equal.
  eapply rings_fun; eauto.
Qed.

Lemma pn_permute_ok pn r : legal pn -> valid_row r -> length r = pn_stage pn ->
  exists r', pn_permute pn r = Ret (r', Ok tt) /\ pn_permute_new pn r = Ret (Ok r') /\
    rings (pn_places pn) 0 r r' /\ valid_row r' /\ length r' = length r.
Proof.
  intros L V E. destruct (permute_unchecked_ok pn r L E) as (r' & P & R). exists r'.
  unfold pn_permute, pn_permute_new. rewrite valid_row_stage by auto. cbn [bind]. unfold test_err.
  rewrite E, Nat.eqb_refl, P. cbn [bind].
  destruct (rings_vrow _ _ _ _ _ (vrow_intro r V) R) as [V' L']. splits; auto. congruence.
Qed.

Lemma pn_permute_err pn r : valid_row r -> length r <> pn_stage pn ->
  pn_permute pn r = Ret (r, Err (IncompatibleStages (length r) (pn_stage pn))) /\
  pn_permute_new pn r = Ret (Err (IncompatibleStages (length r) (pn_stage pn))).
Proof.
  intros V E. unfold pn_permute, pn_permute_new. rewrite valid_row_stage by auto. cbn [bind]. unfold test_err.
  rewrite (proj2 (Nat.eqb_neq _ _) E). auto.
Qed.

(** ** Transpositions *)

Lemma pn_transposition_ok pn : legal pn -> exists t, pn_transposition pn = Ret t /\ vrow (pn_stage pn) t /\
  rings (pn_places pn) 0 (row_rounds (pn_stage pn)) t.
Proof.
  intros L. unfold pn_transposition.
  destruct (permute_unchecked_ok pn (row_rounds (pn_stage pn)) L (length_rounds _)) as (t & E & R).
  exists t. splits; auto. eapply rings_vrow; [|exact R]. apply valid_rounds, L.
Qed.

Lemma rings_rmul s made r t : vrow s r -> rings made 0 (row_rounds s) t -> rings made 0 r (rmul r t).
Proof.
  intros [V E] R. apply (rings_map _ (fun x => nth x r 0)) in R.
  change (map (fun x => nth x r 0) (row_rounds s)) with (rmul r (row_rounds s)) in R.
  rewrite rmul_rounds_r in R by auto. exact R.
Qed.

Lemma rings_involution s made t : 0 < s -> rings made 0 (row_rounds s) t -> rmul t t = row_rounds s.
Proof.
  intros Hs R. pose proof (rings_vrow _ _ _ _ _ (valid_rounds s Hs) R) as V.
  pose proof (rings_rmul s made t t V R) as R2. apply rings_sym in R. eapply rings_fun; eauto.
Qed.

(** ** Place notation between two rows *)

Lemma pnb_sound l : forall i pl, NoDup (map fst l) -> pnb_loop (enumerate_from i l) = Some pl ->
  legal_from (i + length l) i pl /\ rings pl i (map fst l) (map snd l).
Proof.
  remember (length l) as n eqn:En. revert l En.
  induction n as [n IH] using lt_wf_ind. intros l -> i pl N H.
  destruct l as [|[a a'] l]; cbn [enumerate_from pnb_loop] in H.
  - injection H as <-. cbn. rewrite Nat.add_0_r. split; constructor.
  - destruct (Nat.eqb_spec a a') as [<-|Hne].
    + destruct (pnb_loop (enumerate_from (S i) l)) as [pl'|] eqn:E; cbn in H; [|discriminate]. injection H as <-.
      cbn in N. inversion N as [|? ? N1 N2]; subst.
      destruct (IH (length l) ltac:(cbn; lia) l eq_refl (S i) pl' N2 E) as [I1 I2]. split.
      * apply lf_place; cbn; [lia|]. replace (i + S (length l)) with (S i + length l) by lia.
        replace (i + 1) with (S i) by lia. exact I1.
      * cbn. apply rings_place; [left; auto|]. replace (i + 1) with (S i) by lia.
        eapply rings_ext; [|exact I2]. intros j Hj. cbn. split; auto. intros [->|]; auto; lia.
    + destruct l as [|[b b'] l]; cbn [enumerate_from pnb_loop] in H; [discriminate|].
      destruct (_ && _) eqn:C in H; [|discriminate]. apply andb_true_iff in C as [C C3].
      apply andb_true_iff in C as [C1 C2]. apply Nat.eqb_eq in C2, C3. subst a' b'.
      cbn in N. inversion N as [|? ? N1 N2]; subst. inversion N2 as [|? ? N3 N4]; subst.
      destruct (IH (length l) ltac:(cbn; lia) l eq_refl (S (S i)) pl N4 H) as [I1 I2]. split.
      * apply lf_swap; cbn; [lia|]. replace (i + S (S (length l))) with (S (S i) + length l) by lia.
        replace (i + 2) with (S (S i)) by lia. exact I1.
      * cbn. apply rings_swap; try (intros J; apply (legal_In _ _ _ _ I1) in J; lia).
        replace (i + 2) with (S (S i)) by lia. exact I2.
Qed.

Lemma pnb_complete s i pl : legal_from s i pl -> forall l made, NoDup (map fst l) -> s = i + length l ->
  (forall j, i <= j -> (In j made <-> In j pl)) ->
  rings made i (map fst l) (map snd l) -> pnb_loop (enumerate_from i l) = Some pl.
Proof.
  induction 1 as [|i pl H L IH|i pl H L IH]; intros l made N E M R.
  - destruct l; [reflexivity|cbn in E; lia].
  - destruct l as [|[a a'] l]; cbn in E; [lia|]. cbn [map fst snd] in R, N. inversion N as [|? ? N1 N2]; subst.
    inversion R as [|? ? ? ? I R' E1 E2|? ? ? ? ? J1 J2 R' E1 E2]; subst.
    + cbn [enumerate_from pnb_loop]. rewrite Nat.eqb_refl. replace (S i) with (i + 1) by lia.
      rewrite (IH l made); auto; [lia|]. intros j Hj. rewrite M by lia. cbn. split; auto. intros [->|]; auto; lia.
    + exfalso. apply J1. apply M; [lia|]. left; auto.
  - destruct l as [|[a a'] [|[b b'] l]]; cbn in E; try lia. cbn [map fst snd] in R, N.
    inversion N as [|? ? N1 N2]; subst. inversion N2 as [|? ? N3 N4]; subst.
    inversion R as [|? ? ? ? I R' E1 E2|? ? ? ? ? J1 J2 R' E1 E2]; subst.
    + apply M in I; [|lia]. apply (legal_In _ _ _ _ L) in I. lia.
    + cbn [enumerate_from pnb_loop].
      match goal with |- (if ?x =? ?y then _ else _) = _ => destruct (Nat.eqb_spec x y) as [Q|_] end.
      { exfalso. apply N1. rewrite Q. left; auto. } replace (S i =? i + 1) with true by (symmetry; apply Nat.eqb_eq; lia). rewrite !Nat.eqb_refl.
      cbn [andb]. replace (S (S i)) with (i + 2) by lia. apply (IH l made); auto; [lia|].
      intros j Hj. apply M. lia.
Qed.

Lemma pn_between_ok r1 r2 : valid_row r1 -> valid_row r2 -> exists o, pn_between r1 r2 = Ret o /\
  forall pn, o = Some pn <-> (pn_stage pn = length r1 /\ legal pn /\ rings (pn_places pn) 0 r1 r2).
Proof.
  intros V1 V2. unfold pn_between. rewrite !valid_row_stage by auto. cbn [bind].
  destruct (Nat.eqb_spec (length r1) (length r2)) as [E|E]; cbn [negb].
  - assert (Ec : r1 = map fst (combine r1 r2) /\ r2 = map snd (combine r1 r2)).
    { clear -E. revert r2 E. induction r1 as [|a r1 IH]; intros [|b r2] E; cbn in *; try lia; auto.
      destruct (IH r2) as [<- <-]; auto. }
    remember (combine r1 r2) as l eqn:El. clear El. destruct Ec as [-> ->].
    rewrite zip_eq_ok. cbn [bind]. unfold enumerate. rewrite map_length.
    pose proof (valid_row_NoDup _ V1) as N. pose proof (valid_row_pos _ V1) as P. rewrite map_length in P.
    destruct (pnb_loop (enumerate_from 0 l)) as [pl|] eqn:B; eexists; split; try reflexivity; intros pn; split.
    + intros X; injection X as <-. apply pnb_sound in B as [B1 B2]; auto. cbn. splits; auto. split; auto.
    + intros (S1 & [_ L] & R). destruct pn as [q s]. cbn in *. subst s.
      assert (B' := pnb_complete _ _ _ L l q N eq_refl ltac:(tauto) R). congruence.
    + discriminate.
    + intros (S1 & [_ L] & R). destruct pn as [q s]. cbn in *. subst s.
      assert (B' := pnb_complete _ _ _ L l q N eq_refl ltac:(tauto) R). congruence.
  - eexists; split; [reflexivity|]. intros pn; split; [discriminate|]. intros (_ & _ & R).
    apply rings_length in R. lia.
Qed.

(** ** Display *)

Lemma legal_consecutive s i l p q : legal_from s i l -> consecutive l p q -> Nat.Even (q - p - 1).
Proof.
  revert i. induction l as [|a l IH]; intros i L (C1 & C2 & C3 & C4); [destruct C1|].
  apply legal_next in L as (_ & _ & _ & L).
  destruct C2 as [->|C2].
  { destruct C1 as [->|C1]; [lia|]. apply (legal_In _ _ _ _ L) in C1. lia. }
  destruct C1 as [->|C1].
  - destruct l as [|b l]; [destruct C2|]. pose proof (legal_next _ _ _ L) as (K1 & K2 & K3 & K4).
    assert (q = b).
    { destruct C2 as [->|C2]; auto. exfalso. apply (C4 b); [right; left; auto|].
      apply (legal_In _ _ _ _ K4) in C2. lia. }
    subst q. replace (b - p - 1) with (b - (p + 1)) by lia. auto.
  - apply (IH _ L). unfold consecutive. splits; auto. intros x Hx. apply C4. right; auto.
Qed.

Lemma legal_last s i l m : legal_from s i l -> In m l -> (forall q, In q l -> q <= m) -> Nat.Even (s - 1 - m).
Proof.
  revert i. induction l as [|a l IH]; intros i L I M; [destruct I|].
  apply legal_next in L as (K1 & K2 & _ & L). destruct l as [|b l].
  - destruct I as [->|[]]. apply legal_next in L as [[k E] _]. exists k. lia.
  - destruct I as [->|I].
    + assert (b <= m) by (apply M; right; left; auto). pose proof (legal_In _ _ _ b L (or_introl eq_refl)). lia.
    + apply (IH _ L); auto. intros q Hq. apply M. right; auto.
Qed.

Lemma legal_unambiguous s l : legal_from s 0 l -> l <> [] -> unambiguous s l.
Proof.
  intros L N. unfold unambiguous. splits; auto.
  - apply sorted_lt_NoDup. eapply legal_sorted; eauto.
  - intros p Hp. apply (legal_In _ _ _ _ L) in Hp. lia.
  - intros p q C. right. eapply legal_consecutive; eauto.
Qed.

Lemma legal_place_made s l p : legal_from s 0 l -> place_made s l p <-> In p l.
Proof.
  intros L. unfold place_made. split; auto.
  intros [H|[(q & -> & H1 & H2)|[(-> & m & H1 & H2 & H3)|(-> & m & H1 & H2 & H3)]]]; auto.
  - destruct (in_dec Nat.eq_dec (q + 1) l) as [|NI]; auto. exfalso.
    assert (C : consecutive l q (q + 2)).
    { unfold consecutive. splits; auto; [lia|]. intros x Hx K. assert (x = q + 1) by lia. subst x. auto. }
    apply (legal_consecutive _ _ _ _ _ L) in C as [k C]. lia.
  - exfalso. destruct l as [|a l]; [destruct H1|]. apply legal_next in L as (_ & K2 & [k K3] & L).
    assert (m = a).
    { specialize (H2 a (or_introl eq_refl)). destruct H1 as [->|H1]; auto. apply (legal_In _ _ _ _ L) in H1. lia. }
    subst m. destruct H3 as [j H3]. lia.
  - exfalso. apply (legal_last _ _ _ _ L) in H2 as [k H2]; auto. destruct H3 as [j H3]. lia.
Qed.

Lemma written_names l : Forall (fun b => b < 33) l -> written (concat (map bell_name l)) l.
Proof.
  induction 1 as [|b l H F IH]; cbn; [constructor|].
  destruct (bell_name_small b H) as (c & E & C). rewrite E. cbn [app]. apply written_name; auto.
  apply from_name_to_char; auto.
Qed.

Lemma cross_written t : cross_text t -> written t [].
Proof. intros [->|[->| ->]]; apply written_filter; vm_compute; reflexivity. Qed.

Lemma written_fun t l l' : written t l -> written t l' -> l = l'.
Proof. rewrite !written_filter. congruence. Qed.

Lemma pn_display_parse pn : legal pn -> pn_stage pn <= 33 -> pn_parse (pn_display pn) (pn_stage pn) = Ret (Ok pn).
Proof.
  intros [Hs L] H33. destruct pn as [l s]. cbn [pn_stage pn_places] in *. unfold pn_display, pn_is_cross. cbn [pn_places].
  destruct l as [|a l'].
  - rewrite pn_parse_cross by (right; right; reflexivity).
    apply legal_next in L as [L _]. rewrite Nat.sub_0_r in L. apply even_mod in L. rewrite L. reflexivity.
  - set (l := a :: l') in *.
    assert (F : Forall (fun b => b < 33) l).
    { apply legal_ge in L as [_ L]. eapply Forall_impl; [|exact L]. cbn; intros; lia. }
    pose proof (written_names l F) as W.
    assert (NC : ~ cross_text (concat (map bell_name l))).
    { intros C. apply cross_written in C. pose proof (written_fun _ _ _ W C). discriminate. }
    destruct (pn_parse_slice _ s l Hs NC W) as [(pn & E & E1 & E2 & E3 & _)|(e & _ & _ & U)].
    + rewrite E. do 2 f_equal. destruct pn as [l2 s2]. cbn in *. subst s2. f_equal.
      apply sorted_ext; try (eapply legal_sorted; eauto). intros x. rewrite E3. apply legal_place_made; auto.
    + exfalso. apply U. apply legal_unambiguous; auto. discriminate.
Qed.

(** ** Queries *)

Lemma pn_contains_In pn p : pn_contains pn p = true <-> In p (pn_places pn).
Proof.
  unfold pn_contains. rewrite existsb_exists. split.
  - intros (x & Hx & E). apply Nat.eqb_eq in E. subst x. auto.
  - intros H. exists p. rewrite Nat.eqb_refl. auto.
Qed.

Lemma rings_stays made i r r' j : NoDup r -> rings made i r r' -> j < length r ->
  (nth_error r' j = nth_error r j <-> In (i + j) made).
Proof.
  intros N R. revert j. induction R as [i|i b r r' I R IH|i a b r r' N1 N2 R IH]; intros j Hj; cbn in Hj.
  - lia.
  - inversion N; subst. destruct j as [|j]; cbn.
    + rewrite Nat.add_0_r. tauto.
    + rewrite IH by (auto; lia). replace (i + S j) with (i + 1 + j) by lia. reflexivity.
  - inversion N as [|? ? A1 A2]; subst. inversion A2 as [|? ? A3 A4]; subst.
    assert (b <> a) by (intros ->; apply A1; left; auto).
    destruct j as [|[|j]]; cbn.
    + rewrite Nat.add_0_r. split; [intros E; congruence|tauto].
    + split; [intros E; congruence|tauto].
    + rewrite IH by (auto; lia). replace (i + S (S j)) with (i + 2 + j) by lia. reflexivity.
Qed.

Lemma sorted_last l x : StronglySorted lt l -> In x l -> (forall y, In y l -> y <= x) -> last_place l = Some x.
Proof.
  intros Sg I M. destruct (last_place_cases l) as [[-> _]|(l' & z & -> & E)]; [destruct I|].
  rewrite E. f_equal. pose proof (M z ltac:(apply in_or_app; right; left; auto)).
  pose proof (sorted_snoc_le l' z x (sorted_lt_le _ Sg) I). lia.
Qed.

Lemma has_internal_spec pn : legal pn -> exists b, pn_has_internal_places pn = Ret b /\
  (b = true <-> exists p, In p (pn_places pn) /\ 0 < p /\ p < pn_stage pn - 1).
Proof.
  intros [Hs L]. unfold pn_has_internal_places. rewrite (proj2 (Nat.leb_le 1 _)) by lia. cbn [assert_ bind].
  eexists; split; [reflexivity|]. destruct pn as [l s]. cbn [pn_stage pn_places] in *.
  pose proof (legal_sorted _ _ _ L) as Sg. pose proof (sorted_lt_NoDup _ Sg) as N.
  assert (B : forall x, In x l -> x < s) by (intros x Hx; apply (legal_In _ _ _ _ L) in Hx; lia).
  set (hl := match l with p :: _ => p =? 0 | [] => false end).
  set (hi := match last_place l with Some p => p =? s - 1 | None => false end).
  assert (Hl : hl = true <-> In 0 l).
  { unfold hl. destruct l as [|a l]; [split; [discriminate|intros []]|]. rewrite Nat.eqb_eq. split.
    - intros ->. left; auto.
    - intros [|I]; auto. inversion Sg as [|? ? _ F]; subst. rewrite Forall_forall in F. apply F in I. lia. }
  assert (Hi : hi = true <-> In (s - 1) l).
  { unfold hi. split.
    - destruct (last_place_cases l) as [[-> ->]|(l' & z & -> & E)]; [discriminate|]. rewrite E, Nat.eqb_eq. intros ->.
      apply in_or_app; right; left; auto.
    - intros I. rewrite (sorted_last l (s - 1)); auto; [apply Nat.eqb_refl|]. intros y Hy. apply B in Hy. lia. }
  rewrite Nat.ltb_lt. split.
  - intros Lt. destruct (existsb (fun p => (0 <? p) && (p <? s - 1)) l) eqn:X.
    + apply existsb_exists in X as (p & I & X). apply andb_true_iff in X as [X1 X2].
      apply Nat.ltb_lt in X1, X2. eauto.
    + exfalso. assert (I : incl l ((if hl then [0] else []) ++ (if hi then [s - 1] else []))).
      { intros x Hx. apply in_or_app. destruct (Nat.eq_dec x 0) as [->|X0].
        - apply Hl in Hx. rewrite Hx. left; left; auto.
        - destruct (Nat.eq_dec x (s - 1)) as [->|X1].
          + apply Hi in Hx. rewrite Hx. right; left; auto.
          + exfalso. enough (existsb (fun p => (0 <? p) && (p <? s - 1)) l = true) by congruence.
            apply existsb_exists. exists x. split; auto. apply andb_true_iff. rewrite !Nat.ltb_lt. apply B in Hx. lia. }
      apply NoDup_incl_length in I; auto. rewrite app_length in I. destruct hl, hi; cbn in *; lia.
  - intros (p & Ip & P1 & P2).
    assert (I : incl ((if hl then [0] else []) ++ (if hi then [s - 1] else []) ++ [p]) l).
    { intros x Hx. rewrite !in_app_iff in Hx. destruct Hx as [Hx|[Hx|[<-|[]]]]; auto.
      - destruct hl; [|destruct Hx]. destruct Hx as [<-|[]]. tauto.
      - destruct hi; [|destruct Hx]. destruct Hx as [<-|[]]. tauto. }
    apply NoDup_incl_length in I.
    + rewrite !app_length in I. destruct hl, hi; cbn in *; lia.
    + destruct hl, hi; cbn; repeat constructor; cbn; intuition lia.
Qed.

(** ** Rows of a block of changes *)

Lemma to_rows_loop_ok s pns : Forall (fun pn => legal pn /\ pn_stage pn = s) pns -> forall rs v cur, rep s rs v -> vrow s cur ->
  exists v' rs' r', to_rows_loop v cur pns = Ret v' /\ rep s (rs ++ rs') v' /\ rung cur pns rs' r' /\
    Forall (vrow s) rs' /\ vrow s r'.
Proof.
  induction 1 as [|pn pns [L S] F IH]; intros rs v cur R V.
  - exists v, [], cur. rewrite app_nil_r. splits; auto. constructor.
  - destruct (permute_unchecked_ok pn cur L) as (r1 & E1 & R1); [rewrite S; apply V|].
    pose proof (rings_vrow _ _ _ _ _ V R1) as V1.
    destruct (ssv_push_ok s rs v r1 R V1) as (v1 & E2 & R2).
    destruct (IH _ _ _ R2 V1) as (v' & rs' & r' & E3 & R3 & R4 & R5 & R6).
    exists v', (r1 :: rs'), r'. cbn [to_rows_loop]. rewrite E1. cbn [bind]. rewrite E2. cbn [bind unwrap_res]. rewrite E3.
    rewrite <- app_assoc in R3. splits; auto. econstructor; eauto.
Qed.

Lemma rung_length r pns rs r' : rung r pns rs r' -> length rs = length pns.
Proof. induction 1; cbn; congruence. Qed.

Lemma rung_last r pns rs r' : rung r pns rs r' -> last (r :: rs) [] = r'.
Proof.
  induction 1 as [r|r pn pns r1 rs r' R H IH]; auto.
Qed.

Lemma rung_product s r pns rs r' : Forall (fun pn => legal pn /\ pn_stage pn = s) pns -> vrow s r -> rung r pns rs r' ->
  exists ts, Forall2 (fun pn t => pn_transposition pn = Ret t) pns ts /\
    forall pre, is_product pre r -> is_product (pre ++ ts) r'.
Proof.
  intros F V R. revert F V. induction R as [r|r pn pns r1 rs r' R H IH]; intros F V.
  - exists []. split; [constructor|]. intros pre. rewrite app_nil_r. auto.
  - inversion F as [|? ? [L Sn] F']; subst.
    destruct (pn_transposition_ok pn L) as (t & Et & Vt & Rt).
    assert (E1 : r1 = rmul r t).
    { eapply rings_fun; [exact R|]. eapply rings_rmul; eauto. }
    destruct IH as (ts & T1 & T2); auto.
    + rewrite E1. apply valid_rmul; auto.
    + exists (t :: ts). split; [constructor; auto|]. intros pre Hp.
      replace (pre ++ t :: ts) with ((pre ++ [t]) ++ ts) by (rewrite <- app_assoc; reflexivity).
      apply T2. econstructor; [exact Hp|]. rewrite E1. eapply composition_vrow; eauto.
Qed.

Lemma pn_block_from_vec_spec pns : pns <> [] ->
  match pn_block_from_vec pns with
  | Ok l => l = pns /\ forall pn, In pn pns -> pn_stage pn = pn_stage (hd pn pns)
  | Err PbEmptyBlock => False
  | Err (PbIncompatibleStages i e) => exists l1 pn l2 first, pns = l1 ++ pn :: l2 /\ length l1 = i /\ 0 < i /\
      hd pn pns = first /\ (forall pn', In pn' l1 -> pn_stage pn' = pn_stage first) /\
      pn_stage pn <> pn_stage first /\ e = IncompatibleStages (pn_stage first) (pn_stage pn)
  end.
Proof.
  destruct pns as [|first rest]; [congruence|]. intros _. cbn [pn_block_from_vec hd].
  assert (G : forall i done, length (first :: done) = i -> (forall pn, In pn done -> pn_stage pn = pn_stage first) ->
    match pnb_check_stages (pn_stage first) i rest with
    | Ok _ => forall pn, In pn rest -> pn_stage pn = pn_stage first
    | Err PbEmptyBlock => False
    | Err (PbIncompatibleStages j e) => exists l1 pn l2, (first :: done) ++ rest = l1 ++ pn :: l2 /\ length l1 = j /\ 0 < j /\
       (forall pn', In pn' l1 -> pn_stage pn' = pn_stage first) /\ pn_stage pn <> pn_stage first /\
       e = IncompatibleStages (pn_stage first) (pn_stage pn)
    end).
  { induction rest as [|p rest IH]; intros i done Hi Hd; cbn [pnb_check_stages].
    - intros pn [].
    - unfold test_err. destruct (Nat.eqb_spec (pn_stage first) (pn_stage p)) as [E|E].
      + specialize (IH (S i) (done ++ [p])). destruct (pnb_check_stages (pn_stage first) (S i) rest) as [u|[j e|]].
        * intros pn [<-|Hp]; auto. apply IH; auto.
          -- cbn in *. rewrite app_length; cbn; lia.
          -- intros q Hq. apply in_app_or in Hq as [|[<-|[]]]; auto.
        * destruct IH as (l1 & q & l2 & I1 & I2).
          -- cbn in *. rewrite app_length; cbn; lia.
          -- intros q Hq. apply in_app_or in Hq as [|[<-|[]]]; auto.
          -- exists l1, q, l2. split; auto. rewrite <- I1. cbn. rewrite <- app_assoc. reflexivity.
        * apply IH.
          -- cbn in *. rewrite app_length; cbn; lia.
          -- intros q Hq. apply in_app_or in Hq as [|[<-|[]]]; auto.
      + exists (first :: done), p, rest. cbn in Hi. splits; auto; [lia|]. intros q [<-|Hq]; auto. }
  specialize (G 1 [] eq_refl ltac:(intros ? [])).
  destruct (pnb_check_stages (pn_stage first) 1 rest) as [u|[j e|]].
  - split; auto. intros pn [<-|Hp]; auto.
  - destruct G as (l1 & pn & l2 & G1 & G2 & G3 & G4 & G5 & G6). exists l1, pn, l2, first. splits; auto.
  - auto.
Qed.
