(** Two leads of which one is the other read from another row on, or backwards, are classified alike. *)
From Verif Require Import Base Spec SpecBlock Class SpecClass SpecVec ListFacts RowFacts MulFacts GroupFacts SameStageVec Block SsvFacts BlockFacts
  ClassFacts ClassFacts2 ClassThms SymFacts.
Local Open Scope list_scope.

Lemma nth_error_lt {X} (l : list X) i x : nth_error l i = Some x -> i < length l.
Proof. intros H. apply nth_error_Some. congruence. Qed.

Lemma class_eq_dec (a b : class) : {a = b} + {a <> b}.
Proof. decide equality. Qed.

Section Transfer.
Context (s n : nat) (rows rows' : list (list nat)) (lo lo' : list nat) (f f' g e e' : nat -> nat).
Hypothesis Vlo : vrow s lo.
Hypothesis Vlo' : vrow s lo'.
Hypothesis Hn : 0 < n.
Hypothesis Ln : length rows = n.
Hypothesis Ln' : length rows' = n.
Hypothesis Ff : forall x, x < s -> f x < s /\ f' x < s /\ f (f' x) = x /\ f' (f x) = x.
Hypothesis Dg : dihedral n g.
Hypothesis Le : forall i, i < n -> e i < n /\ e' i < n /\ e (e' i) = i.
Hypothesis Se : forall i, i < n -> (e i = g i /\ (e i + 1) mod n = g ((i + 1) mod n)) \/
                                   (e i = g ((i + 1) mod n) /\ (e i + 1) mod n = g i).
Hypothesis Hret : forall x k, x < s -> (returns_after lo x k <-> returns_after lo' (f x) k).
Hypothesis Hpath : forall x, x < s -> hunt_bell lo x -> path_in rows' (f x) = read g (path_in rows x).
Hypothesis Hsharp : forall x, x < s -> (turns_sharply rows lo x <-> turns_sharply rows' lo' (f x)).
Hypothesis Hint : forall i r1 r2 r1' r2', i < n -> change_at rows lo (e i) r1 r2 -> change_at rows' lo' i r1' r2' ->
  (internal_place r1 r2 <-> internal_place r1' r2').

Lemma t_hunt_lt h x : vrow s h -> hunt_bell h x -> x < s.
Proof. intros [_ L] H. unfold hunt_bell in H. apply nth_error_lt in H. lia. Qed.

Lemma t_hunt x : x < s -> (hunt_bell lo x <-> hunt_bell lo' (f x)).
Proof.
  intros Hx. pose proof (proj1 (Ff x Hx)) as Fx. rewrite (hunt_order s lo Vlo x Hx), (hunt_order s lo' Vlo' (f x) Fx).
  rewrite <- (returns_after_order s lo Vlo x 1 Hx), <- (returns_after_order s lo' Vlo' (f x) 1 Fx). apply Hret; auto.
Qed.

Lemma path_len rs x : length (path_in rs x) = length rs.
Proof. unfold path_in. apply map_length. Qed.

Lemma path_ne x : path_in rows x <> [].
Proof. intros E. apply (f_equal (@length nat)) in E. rewrite path_len in E. cbn in E. lia. Qed.

Lemma t_class x h : x < s -> hunt_bell lo x -> (path_class (path_in rows' (f x)) h <-> path_class (path_in rows x) h).
Proof. intros Hx Hh. rewrite Hpath by auto. apply read_path_class; [apply path_ne|]. rewrite path_len, Ln. auto. Qed.

Lemma t_In x q : x < s -> hunt_bell lo x -> (In q (path_in rows' (f x)) <-> In q (path_in rows x)).
Proof.
  intros Hx Hh. rewrite Hpath by auto. assert (P : Permutation (read g (path_in rows x)) (path_in rows x)) by (apply read_perm; rewrite path_len, Ln; auto).
  split; apply Permutation_in; auto. apply Permutation_sym; auto.
Qed.

Lemma t_dominant x h : x < s -> (dominant rows lo x h <-> dominant rows' lo' (f x) h).
Proof.
  intros Hx. unfold dominant. split; intros (H & P & M).
  - splits; [apply t_hunt; auto|apply t_class; auto|]. intros y h' Hy Py.
    pose proof (t_hunt_lt _ _ Vlo' Hy) as Ly. destruct (Ff y Ly) as (_ & L' & E & _). rewrite <- E in Hy, Py.
    apply t_hunt in Hy; auto. apply t_class in Py; auto. eapply M; eauto.
  - apply t_hunt in H; auto. apply t_class in P; auto. splits; auto. intros y h' Hy Py.
    pose proof (t_hunt_lt _ _ Vlo Hy) as Ly. apply (M (f y)); [apply t_hunt; auto|apply t_class; auto].
Qed.

Lemma t_crosses x i : x < s -> hunt_bell lo x -> i < n -> (crosses rows' (f x) i <-> crosses rows x (e i)).
Proof.
  intros Hx Hh Hi. unfold crosses. rewrite Ln, Ln', Hpath by auto. set (p := path_in rows x).
  assert (Lp : length p = n) by (unfold p; rewrite path_len; auto).
  assert (Lr : length (read g p) = n) by (rewrite read_length; auto).
  pose proof (modlt (i + 1) n Hn) as Hi'. destruct (Le i Hi) as (Hei & _). pose proof (modlt (e i + 1) n Hn) as Hei'.
  assert (P : Permutation (read g p) p) by (apply read_perm; rewrite Lp; auto).
  assert (I : forall q, In q (read g p) <-> In q p) by (intros q; split; apply Permutation_in; auto; apply Permutation_sym; auto).
  assert (N : forall l j, length l = n -> j < n -> nth_error l j = Some (nth j l 0)) by (intros; apply nth_error_nth'; lia).
  assert (R : forall j, j < n -> nth j (read g p) 0 = nth (g j) p 0) by (intros; apply read_nth; lia).
  rewrite (N (read g p) i), (N (read g p) ((i + 1) mod n)), (N p (e i)), (N p ((e i + 1) mod n)) by auto. rewrite !R by auto.
  destruct (Se i Hi) as [[-> ->]|[-> ->]]; split; intros (a & b & m & A & B & Im & Mi & X); injection A as A; injection B as B.
  - exists a, b, m. rewrite A, B. splits; auto; [apply I; auto|]. intros q Q. apply Mi, I; auto.
  - exists a, b, m. rewrite A, B. splits; auto; [apply I; auto|]. intros q Q. apply Mi, I; auto.
  - exists b, a, m. rewrite A, B. splits; auto; [apply I; auto|]. intros q Q. apply Mi, I; auto.
  - exists b, a, m. rewrite A, B. splits; auto; [apply I; auto|]. intros q Q. apply Mi, I; auto.
Qed.

Lemma crosses_lt rs x i : length rs = n -> crosses rs x i -> i < n.
Proof. intros L (a & b & m & H & _). apply nth_error_lt in H. rewrite path_len in H. lia. Qed.

Lemma change_ex rs h i : length rs = n -> i < n -> exists r1 r2, change_at rs h i r1 r2.
Proof.
  intros L Hi. unfold change_at.
  destruct (nth_error (rs ++ [h]) i) as [r1|] eqn:E1; [|apply nth_error_None in E1; rewrite app_length in E1; cbn in E1; lia].
  destruct (nth_error (rs ++ [h]) (i + 1)) as [r2|] eqn:E2; [|apply nth_error_None in E2; rewrite app_length in E2; cbn in E2; lia].
  eauto.
Qed.

Lemma t_section_to r1 r2 : cross_section rows lo r1 r2 -> exists r1' r2', cross_section rows' lo' r1' r2' /\ (internal_place r1 r2 <-> internal_place r1' r2').
Proof.
  intros (x & i & D & C & Ch). pose proof (t_hunt_lt _ _ Vlo (proj1 D)) as Hx. pose proof (crosses_lt _ _ _ Ln C) as Hi.
  destruct (Le i Hi) as (_ & Hi' & E). destruct (change_ex rows' lo' (e' i) Ln' Hi') as (r1' & r2' & Ch').
  exists r1', r2'. split.
  - exists (f x), (e' i). splits; auto; [apply t_dominant; auto|]. apply t_crosses; auto; [apply D|]. rewrite E; auto.
  - apply (Hint (e' i)); auto. rewrite E. auto.
Qed.

Lemma t_section_from r1' r2' : cross_section rows' lo' r1' r2' -> exists r1 r2, cross_section rows lo r1 r2 /\ (internal_place r1 r2 <-> internal_place r1' r2').
Proof.
  intros (x & i & D & C & Ch). pose proof (t_hunt_lt _ _ Vlo' (proj1 D)) as Hx. pose proof (crosses_lt _ _ _ Ln' C) as Hi.
  destruct (Ff x Hx) as (_ & Hx' & E & _). rewrite <- E in D, C. apply t_dominant in D; auto.
  destruct (Le i Hi) as (Hi' & _ & _). destruct (change_ex rows lo (e i) Ln Hi') as (r1 & r2 & Ch').
  exists r1, r2. split.
  - exists (f' x), (e i). splits; auto. apply t_crosses; auto. apply D.
  - apply (Hint i); auto.
Qed.

Lemma t_all (P : Prop -> Prop) : (forall A B, (A <-> B) -> (P A <-> P B)) ->
  (all_cross_sections rows lo (fun r1 r2 => P (internal_place r1 r2)) <-> all_cross_sections rows' lo' (fun r1 r2 => P (internal_place r1 r2))).
Proof.
  intros HP. split; intros H r1 r2 C.
  - destruct (t_section_from _ _ C) as (q1 & q2 & C' & I). apply (HP _ _ I). apply H; auto.
  - destruct (t_section_to _ _ C) as (q1 & q2 & C' & I). apply (HP _ _ I). apply H; auto.
Qed.

Lemma t_method h c : method_class rows lo h c -> method_class rows' lo' h c.
Proof.
  pose proof (t_all (fun P => P) ltac:(intros; auto)) as A1. pose proof (t_all (fun P => ~ P) ltac:(intros A B []; tauto)) as A2. cbn beta in A1, A2.
  change (fun r1 r2 => internal_place r1 r2) with internal_place in A1.
  intros M. destruct M as [x Hx ND TS|Hp|r1 r2 C A|A|N1 N2| | |]; try constructor; try tauto.
  - rewrite (proj2 Vlo) in Hx. apply (mc_bob _ _ (f x)).
    + rewrite (proj2 Vlo'). apply Ff; auto.
    + rewrite <- t_dominant; auto.
    + apply Hsharp; auto.
  - intros x Hx ND. rewrite (proj2 Vlo') in Hx. destruct (Ff x Hx) as (_ & Hx' & E & _). rewrite <- E in ND |- *.
    rewrite <- Hsharp by auto. apply Hp; [rewrite (proj2 Vlo); auto|]. rewrite t_dominant by auto. auto.
  - destruct (t_section_to _ _ C) as (r1' & r2' & C' & _). eapply mc_surprise; eauto. apply A1; auto.
Qed.

Lemma t_classify {A B} (b : block A) (b' : block B) ars ars' o o' :
  block_holds b s ars lo -> block_holds b' s ars' lo' -> map fst ars = rows -> map fst ars' = rows' ->
  is_identity (hd [] rows) -> is_identity (hd [] rows') ->
  (forall i r1 r2, change_at rows lo i r1 r2 -> no_jump r1 r2) ->
  (forall i r1 r2, change_at rows' lo' i r1 r2 -> no_jump r1 r2) ->
  (forall l, collected_set l (o l)) -> (forall l, collected_set l (o' l)) ->
  exists fc, classify o b = Ret fc /\ classify o' b' = Ret fc.
Proof.
  intros Hb Hb' E E' I I' J J' Ho Ho'.
  assert (Na : ars <> []) by (intros ->; cbn in E; subst rows; cbn in Ln; lia).
  assert (Na' : ars' <> []) by (intros ->; cbn in E'; subst rows'; cbn in Ln'; lia).
  destruct (pf_C62_classification A b s ars lo o Hb Na) as (fc & Ec & Ej & Ed & Ep & El & Ex & Em); rewrite ?E; auto.
  destruct (pf_C62_classification B b' s ars' lo' o' Hb' Na') as (fc' & Ec' & Ej' & Ed' & Ep' & El' & Ex' & Em'); rewrite ?E'; auto.
  rewrite E in *. rewrite E' in *. exists fc. split; auto. rewrite Ec'. f_equal.
  assert (Hd : is_differential fc = true <-> is_differential fc' = true).
  { rewrite Ed, Ed'. split; intros (x & y & k & l & Hx & Nx & Rx & Hy & Ny & Ry & Nk).
    - exists (f x), (f y), k, l. rewrite <- !Hret, <- !t_hunt by auto. splits; auto; apply Ff; auto.
    - destruct (Ff x Hx) as (_ & Hx' & E1 & _). destruct (Ff y Hy) as (_ & Hy' & E2 & _). rewrite <- E1 in Nx, Rx. rewrite <- E2 in Ny, Ry.
      rewrite <- t_hunt in Nx, Ny by auto. rewrite <- Hret in Rx, Ry by auto. exists (f' x), (f' y), k, l. splits; auto. }
  assert (Hc : fc_class fc = fc_class fc' /\ (is_little fc = true <-> is_little fc' = true)).
  { destruct (class_eq_dec (fc_class fc) Principle) as [P|P].
    - assert (P' : fc_class fc' = Principle).
      { apply Ep'. intros x Hx. pose proof (t_hunt_lt _ _ Vlo' Hx) as Lx. destruct (Ff x Lx) as (_ & Lx' & E1 & _). rewrite <- E1 in Hx.
        apply t_hunt in Hx; auto. eapply (proj1 Ep P); eauto. }
      rewrite P, P', El, El' by auto. split; auto. tauto.
    - assert (Hh : exists x, hunt_bell lo x).
      { destruct (existsb (fun x => nth x lo (S x) =? x) (seq 0 s)) eqn:Eh.
        - apply existsb_exists in Eh as (x & Hx & Q). apply in_seq in Hx. apply Nat.eqb_eq in Q. exists x. unfold hunt_bell.
          rewrite (nth_error_nth' lo (S x)) by (rewrite (proj2 Vlo); lia). congruence.
        - exfalso. apply P, Ep. intros x Hx. pose proof (t_hunt_lt _ _ Vlo Hx) as Lx.
          assert (existsb (fun x => nth x lo (S x) =? x) (seq 0 s) = true); [|congruence]. apply existsb_exists. exists x.
          split; [apply in_seq; lia|]. apply Nat.eqb_eq. apply nth_error_nth. exact Hx. }
      destruct (Ex Hh) as (x & h & D). pose proof (t_hunt_lt _ _ Vlo (proj1 D)) as Hx.
      destruct (Em x h D) as [M1 L1]. pose proof D as D'. apply t_dominant in D'; auto. destruct (Em' _ h D') as [M2 L2].
      split; [eapply (proj2 (proj2 (proj2 pf_C62_specification_is_unambiguous))); [apply t_method; exact M1|exact M2]|].
      rewrite L1, L2. split; intros Q y Dy.
      + pose proof (t_hunt_lt _ _ Vlo' (proj1 Dy)) as Hy. destruct (Ff y Hy) as (_ & Hy' & E1 & _). rewrite <- E1 in Dy.
        apply t_dominant in Dy; auto. destruct (Q _ Dy) as (q & Hq & Nq). exists q. split; auto. rewrite <- E1, t_In by (auto; apply Dy). auto.
      + pose proof (t_hunt_lt _ _ Vlo (proj1 Dy)) as Hy. pose proof Dy as Dy'. apply t_dominant in Dy'; auto. destruct (Q _ Dy') as (q & Hq & Nq).
        exists q. split; auto. rewrite t_In in Nq by (auto; apply Dy). auto. }
  destruct Hc as [Hc Hl]. destruct fc as [j l d c], fc' as [j' l' d' c']. cbn in *. subst. f_equal.
  - destruct l, l'; intuition congruence.
  - destruct d, d'; intuition congruence.
Qed.
End Transfer.
