(** Facts about paths and changes with the places counted from the back. *)
From Verif Require Import Base Spec SpecBlock Class SpecClass SpecVec SpecPn SpecUpside ListFacts Row RowFacts MulFacts GroupFacts SameStageVec Block
  PlaceNot PnFacts PnFacts2 PnFacts3 SsvFacts BlockFacts ClassFacts ClassFacts2 ClassThms SymFacts SymFacts2.
Local Open Scope list_scope.

(** ** Sums of signs along a path *)

Definition sg (q : nat) : Z := if Nat.even q then 1%Z else (-1)%Z.
Definition zsum {X} (f : X -> Z) (l : list X) : Z := fold_right (fun x z => (f x + z)%Z) 0%Z l.

Lemma sg_S q : sg (S q) = (- sg q)%Z.
Proof. unfold sg. rewrite Nat.even_succ, <- Nat.negb_even. destruct (Nat.even q); reflexivity. Qed.

Lemma zsum_map {X Y} (g : X -> Y) f l : zsum f (map g l) = zsum (fun x => f (g x)) l.
Proof. induction l; cbn; auto. unfold zsum in *. cbn. rewrite IHl. auto. Qed.
Lemma zsum_perm {X} (f : X -> Z) l l' : Permutation l l' -> zsum f l = zsum f l'.
Proof. unfold zsum. induction 1; cbn; lia. Qed.
Lemma zsum_add {X} (f g : X -> Z) l : zsum (fun x => (f x + g x)%Z) l = (zsum f l + zsum g l)%Z.
Proof. unfold zsum. induction l; cbn; lia. Qed.
Lemma zsum_ext {X} (f g : X -> Z) l : (forall x, In x l -> f x = g x) -> zsum f l = zsum g l.
Proof. unfold zsum. induction l as [|x l IH]; cbn; intros H; auto. rewrite IH, (H x); auto. Qed.

Lemma zsum_stays (b : nat -> bool) f l :
  (Z.abs (zsum (fun i => if b i then (2 * sg (f i))%Z else 0%Z) l) <= 2 * Z.of_nat (length (filter b l)))%Z.
Proof.
  unfold zsum. induction l as [|x l IH]; cbn [fold_right filter length]; [lia|]. destruct (b x); cbn [length]; [|lia].
  unfold sg in *. destruct (Nat.even (f x)); lia.
Qed.

Lemma zsum_one q m k : zsum (fun r => if Nat.eq_dec q r then sg r else 0%Z) (seq m k) = if (m <=? q) && (q <? m + k) then sg q else 0%Z.
Proof.
  revert m. induction k as [|k IH]; intros m; cbn [seq zsum fold_right].
  - destruct (Nat.leb_spec m q), (Nat.ltb_spec q (m + 0)); cbn; lia || auto.
  - change (fold_right (fun x z => ((if Nat.eq_dec q x then sg x else 0) + z)%Z) 0%Z (seq (S m) k)) with (zsum (fun r => if Nat.eq_dec q r then sg r else 0%Z) (seq (S m) k)).
    rewrite IH. destruct (Nat.eq_dec q m) as [->|N].
    + rewrite (proj2 (Nat.leb_gt (S m) m)) by lia. rewrite Nat.leb_refl, (proj2 (Nat.ltb_lt m (m + S k))) by lia. cbn. lia.
    + destruct (Nat.leb_spec m q), (Nat.leb_spec (S m) q), (Nat.ltb_spec q (m + S k)), (Nat.ltb_spec q (S m + k)); cbn; lia.
Qed.

Lemma zsum_counts p m k : (forall q, In q p -> m <= q < m + k) ->
  zsum sg p = zsum (fun q => (Z.of_nat (count_occ Nat.eq_dec p q) * sg q)%Z) (seq m k).
Proof.
  induction p as [|x p IH]; intros H.
  - cbn. clear H. generalize (seq m k). induction l; cbn; auto.
  - cbn [zsum fold_right]. change (fold_right _ 0%Z p) with (zsum sg p). rewrite IH by (intros; apply H; right; auto).
    rewrite (zsum_ext (fun q => (Z.of_nat (count_occ Nat.eq_dec (x :: p) q) * sg q)%Z)
      (fun q => ((if Nat.eq_dec x q then sg q else 0) + Z.of_nat (count_occ Nat.eq_dec p q) * sg q)%Z)).
    + rewrite zsum_add, zsum_one. destruct (H x) as [A B]; [left; auto|]. apply Nat.leb_le in A. apply Nat.ltb_lt in B. rewrite A, B. reflexivity.
    + intros q _. cbn [count_occ]. destruct (Nat.eq_dec x q); lia.
Qed.

Lemma zsum_const v m k : (forall q, In q (seq m k) -> v q = v m) ->
  zsum (fun q => (Z.of_nat (v q) * sg q)%Z) (seq m k) = (Z.of_nat (v m) * (if Nat.even k then 0 else sg m))%Z.
Proof.
  revert m. induction k as [k IH] using lt_wf_ind. intros m H. destruct k as [|[|k]].
  - cbn. lia.
  - cbn. lia.
  - cbn [seq zsum fold_right]. specialize (IH k ltac:(lia) (S (S m))).
    change (fold_right _ 0%Z (seq (S (S m)) k)) with (zsum (fun q => (Z.of_nat (v q) * sg q)%Z) (seq (S (S m)) k)).
    assert (E1 : v (S m) = v m) by (apply H; cbn; auto). rewrite E1, !sg_S.
    change (Nat.even (S (S k))) with (Nat.even k). destruct k as [|k].
    + cbn. lia.
    + assert (E2 : v (S (S m)) = v m) by (apply H; cbn; auto).
      rewrite IH. { rewrite E2, !sg_S. destruct (Nat.even (S k)); lia. }
      intros q Q. rewrite E2. apply H. apply in_seq. apply in_seq in Q. lia.
Qed.

(** ** Paths which move by at most one place *)

Lemma flen_le {X} (f : X -> bool) l : length (filter f l) <= length l.
Proof. induction l as [|x l IH]; cbn; auto. destruct (f x); cbn; lia. Qed.

Section Steps.
Context (p : list nat).
Let n := length p.
Hypothesis Hn : 0 < n.
Hypothesis St : forall i, i < n -> nth i p 0 <= nth ((i + 1) mod n) p 0 + 1 /\ nth ((i + 1) mod n) p 0 <= nth i p 0 + 1.

Lemma all_between i j q : i < n -> j < n -> nth i p 0 <= q <= nth j p 0 -> In q p.
Proof.
  intros Hi Hj [A B].
  assert (K : forall d i, i < n -> nth i p 0 <= q -> q <= nth ((i + d) mod n) p 0 -> In q p).
  { clear i j Hi Hj A B. induction d as [|d IH]; intros i Hi A B.
    - rewrite Nat.add_0_r, Nat.mod_small in B by auto. assert (q = nth i p 0) as -> by lia. apply nth_In. auto.
    - destruct (Nat.eq_dec (nth i p 0) q) as [E|E]; [rewrite <- E; apply nth_In; auto|].
      apply (IH ((i + 1) mod n)); [apply modlt; auto| |].
      + destruct (St i Hi). lia.
      + rewrite Nat.add_mod_idemp_l by lia. replace (i + 1 + d) with (i + S d) by lia. auto. }
  apply (K (n + j - i) i); auto. replace (i + (n + j - i)) with (j + 1 * n) by lia. rewrite Nat.mod_add, Nat.mod_small by lia. auto.
Qed.

Lemma sum_of_stays : (Z.abs (zsum sg p) <= Z.of_nat (places_made p))%Z.
Proof.
  assert (E : zsum (fun i => Z.add (sg (nth i p 0)) (sg (nth ((i + 1) mod n) p 0))) (seq 0 n) = (2 * zsum sg p)%Z).
  { rewrite zsum_add. rewrite <- (zsum_map (fun i => nth i p 0) sg). unfold n at 1. rewrite nth_seq_map.
    rewrite <- (zsum_map (fun i => (i + 1) mod n) (fun i => sg (nth i p 0))).
    rewrite (zsum_perm _ (map (fun i => (i + 1) mod n) (seq 0 n)) (seq 0 n)).
    - rewrite <- (zsum_map (fun i => nth i p 0) sg). unfold n. rewrite nth_seq_map. lia.
    - destruct (Nat.eq_dec n 1) as [->|N]; [reflexivity|]. apply dihedral_perm. exists 1. split; [lia|]. left. intros; reflexivity. }
  rewrite (zsum_ext _ (fun i => if nth i p 0 =? nth ((i + 1) mod n) p 0 then Z.mul 2 (sg (nth i p 0)) else 0%Z)) in E.
  - pose proof (zsum_stays (fun i => nth i p 0 =? nth ((i + 1) mod n) p 0) (fun i => nth i p 0) (seq 0 n)) as B.
    cbn beta in B. rewrite E in B. unfold places_made. fold n. lia.
  - intros i Hi. apply in_seq in Hi. destruct (Nat.eqb_spec (nth i p 0) (nth ((i + 1) mod n) p 0)) as [Q|Q]; [rewrite <- Q; lia|].
    destruct (St i ltac:(lia)) as [S1 S2]. destruct (Nat.lt_ge_cases (nth i p 0) (nth ((i + 1) mod n) p 0)) as [L|L].
    + replace (nth ((i + 1) mod n) p 0) with (S (nth i p 0)) by lia. rewrite sg_S. lia.
    + replace (nth i p 0) with (S (nth ((i + 1) mod n) p 0)) by lia. rewrite sg_S. lia.
Qed.

(** A path which covers its places equally, makes two places and is not plain has an even number of places. *)
Lemma dodging_even m M : ~ each_place_twice p -> equally_covered p -> places_made p = 2 ->
  In m p -> In M p -> (forall q, In q p -> m <= q <= M) -> exists k, M = m + 2 * k + 1.
Proof.
  intros NT EC PM Im IM B.
  assert (IQ : forall q, m <= q <= M -> In q p).
  { intros q Q. apply (In_nth _ _ 0) in Im as (i & Hi & Ei). apply (In_nth _ _ 0) in IM as (j & Hj & Ej).
    apply (all_between i j); auto. rewrite Ei, Ej. auto. }
  pose proof (B m Im) as LM.
  pose proof (zsum_counts p m (S (M - m))) as E. rewrite (zsum_const (count_occ Nat.eq_dec p)) in E.
  2:{ intros q Q. apply in_seq in Q. apply EC; [apply IQ; lia|auto]. }
  specialize (E ltac:(intros q Q; specialize (B q Q); lia)).
  pose proof sum_of_stays as S. rewrite PM, E in S.
  destruct (Nat.even (Datatypes.S (M - m))) eqn:Ev.
  - apply Nat.even_spec in Ev as (k & Ek). exists (k - 1). lia.
  - exfalso. assert (V : count_occ Nat.eq_dec p m <= 2) by (unfold sg in S; destruct (Nat.even m); lia).
    assert (V0 : 0 < count_occ Nat.eq_dec p m) by (apply count_occ_In; auto).
    destruct (Nat.eq_dec (count_occ Nat.eq_dec p m) 2) as [V2|V2].
    + apply NT. intros q Q. rewrite (EC q m); auto.
    + assert (ND : NoDup p).
      { apply (NoDup_count_occ Nat.eq_dec). intros q. destruct (in_dec Nat.eq_dec q p) as [I|I].
        - pose proof (EC q m I Im) as X. unfold visits in X. lia.
        - apply (count_occ_not_In Nat.eq_dec) in I. lia. }
      assert (PM1 : places_made p <= 1); [|lia]. unfold places_made. fold n.
      destruct (Nat.eq_dec n 1) as [N1|N1].
      { eapply Nat.le_trans; [apply flen_le|]. rewrite seq_length. lia. }
      assert (F : filter (fun i => nth i p 0 =? nth ((i + 1) mod n) p 0) (seq 0 n) = []).
      { rewrite (filter_ext_in _ (fun _ => false)); [generalize (seq 0 n); induction l; auto|]. intros i Hi. apply in_seq in Hi. apply Nat.eqb_neq. intros Q.
        apply (proj1 (NoDup_nth p 0)) in Q; [|exact ND|unfold n in Hi; lia|apply modlt; auto].
        destruct (mod_cases (i + 1) n Hn ltac:(lia)) as [[? X]|[? X]]; rewrite X in Q; lia. }
      rewrite F. cbn. lia.
Qed.
End Steps.

(** ** Paths upside down *)

Section Flip.
Context (s : nat).
Definition flip (x : nat) : nat := s - 1 - x.
Definition below (p : list nat) : Prop := forall q, In q p -> q < s.

Lemma flip_lt x : x < s -> flip x < s.
Proof. unfold flip. lia. Qed.
Lemma flip_flip x : x < s -> flip (flip x) = x.
Proof. unfold flip. lia. Qed.
Lemma flip_inj x y : x < s -> y < s -> flip x = flip y -> x = y.
Proof. unfold flip. lia. Qed.

Lemma flip_below p : below p -> below (map flip p).
Proof. intros B q Q. apply in_map_iff in Q as (r & <- & R). apply flip_lt, B; auto. Qed.
Lemma map_flip2 p : below p -> map flip (map flip p) = p.
Proof.
  intros B. rewrite map_map. rewrite <- (map_id p) at 2. apply map_ext_in. intros q Q. apply flip_flip, B; auto.
Qed.
Lemma In_flip p q : below p -> q < s -> (In (flip q) (map flip p) <-> In q p).
Proof.
  intros B Hq. split; intros H; [|apply in_map; auto]. apply in_map_iff in H as (r & E & R). rewrite <- (flip_inj r q); auto.
Qed.
Lemma In_flip' p q : below p -> (In q (map flip p) <-> q < s /\ In (flip q) p).
Proof.
  intros B. split.
  - intros H. pose proof (flip_below p B q H) as Hq. split; auto.
    apply in_map_iff in H as (r & <- & R). rewrite flip_flip; auto.
  - intros [Hq H]. rewrite <- (flip_flip q Hq). apply in_map; auto.
Qed.
Lemma flip_visits p q : below p -> q < s -> visits (map flip p) (flip q) = visits p q.
Proof.
  intros B Hq. unfold visits. induction p as [|x p IH]; auto. cbn [map count_occ].
  assert (Hx : x < s) by (apply B; left; auto). rewrite IH by (intros r R; apply B; right; auto).
  destruct (Nat.eq_dec (flip x) (flip q)) as [E|E], (Nat.eq_dec x q) as [E'|E']; subst; auto; try tauto.
  apply flip_inj in E; auto. tauto.
Qed.

Lemma flip_stationary p : stationary p -> stationary (map flip p).
Proof. intros (q & H). exists (flip q). intros x X. apply in_map_iff in X as (r & <- & R). rewrite (H r); auto. Qed.
Lemma flip_twice p : below p -> each_place_twice p -> each_place_twice (map flip p).
Proof. intros B H q Q. apply in_map_iff in Q as (r & <- & R). rewrite flip_visits; auto. Qed.
Lemma flip_symmetric p : symmetric p -> symmetric (map flip p).
Proof. intros (a & b & -> & E). exists (map flip a), (map flip b). rewrite <- map_rev, E, !map_app. auto. Qed.
Lemma flip_covered p : below p -> equally_covered p -> equally_covered (map flip p).
Proof.
  intros B H q r Q R. apply in_map_iff in Q as (q' & <- & Q). apply in_map_iff in R as (r' & <- & R). rewrite !flip_visits; auto.
Qed.
Lemma flip_made p : below p -> places_made (map flip p) = places_made p.
Proof.
  intros B. unfold places_made. rewrite map_length. f_equal. apply filter_ext_in. intros i Hi. apply in_seq in Hi.
  assert (M : (i + 1) mod length p < length p) by (apply modlt; lia).
  rewrite !(nth_indep (map flip p) 0 (flip 0)) by (rewrite map_length; lia). rewrite !map_nth.
  pose proof (B _ (nth_In p 0 (proj2 Hi))) as B1. pose proof (B _ (nth_In p 0 M)) as B2.
  destruct (Nat.eqb_spec (nth i p 0) (nth ((i + 1) mod length p) p 0)) as [E|E].
  - rewrite E. apply Nat.eqb_refl.
  - apply Nat.eqb_neq. intros X. apply E, flip_inj; auto.
Qed.

Lemma flip_back (Q : list nat -> Prop) p : below p -> (forall p, below p -> Q p -> Q (map flip p)) -> (Q (map flip p) <-> Q p).
Proof. intros B H. split; auto. intros X. rewrite <- (map_flip2 p) by auto. apply H; auto. apply flip_below; auto. Qed.

Lemma flip_class p h : below p -> (path_class (map flip p) h <-> path_class p h).
Proof.
  intros B. apply (flip_back (fun p => path_class p h)); auto. clear p B. intros p B H.
  pose proof (flip_back stationary p B (fun p _ => flip_stationary p)) as E1.
  pose proof (flip_back each_place_twice p B flip_twice) as E2.
  pose proof (flip_back symmetric p B (fun p _ => flip_symmetric p)) as E3.
  pose proof (flip_back equally_covered p B flip_covered) as E4. pose proof (flip_made p B) as E5.
  destruct H.
  - apply pc_stationary; tauto.
  - apply SpecClass.pc_plain; tauto.
  - apply pc_treble_dodging; try tauto. lia.
  - apply pc_treble_place; try tauto. lia.
  - apply pc_few_places; try tauto. lia.
  - apply pc_alliance; tauto.
  - apply pc_asymmetric; tauto.
Qed.
End Flip.

(** ** Leads upside down *)

Lemma list_min (p : list nat) : p <> [] -> exists m, In m p /\ forall q, In q p -> m <= q.
Proof.
  induction p as [|x p IH]; intros N; [congruence|]. destruct p as [|y p].
  - exists x. split; [left; auto|]. intros q [->|[]]. auto.
  - destruct IH as (m & I & M); [discriminate|]. destruct (Nat.le_gt_cases x m) as [L|L].
    + exists x. split; [left; auto|]. intros q [->|Q]; auto. specialize (M q Q). lia.
    + exists m. split; [right; auto|]. intros q [->|Q]; auto. lia.
Qed.
Lemma list_max_ex (p : list nat) : p <> [] -> exists m, In m p /\ forall q, In q p -> q <= m.
Proof.
  induction p as [|x p IH]; intros N; [congruence|]. destruct p as [|y p].
  - exists x. split; [left; auto|]. intros q [->|[]]. auto.
  - destruct IH as (m & I & M); [discriminate|]. destruct (Nat.le_gt_cases m x) as [L|L].
    + exists x. split; [left; auto|]. intros q [->|Q]; auto. specialize (M q Q). lia.
    + exists m. split; [right; auto|]. intros q [->|Q]; auto. lia.
Qed.

Section Upside.
Context (s n : nat) (rows rows' : list (list nat)) (lo lo' : list nat).
Hypothesis Vlo : vrow s lo.
Hypothesis Vlo' : vrow s lo'.
Hypothesis Hn : 0 < n.
Hypothesis Ln : length rows = n.
Hypothesis Ln' : length rows' = n.
Hypothesis Bel : forall x, x < s -> below s (path_in rows x).
Hypothesis Step : forall x i, hunt_bell lo x -> i < n ->
  nth i (path_in rows x) 0 <= nth ((i + 1) mod n) (path_in rows x) 0 + 1 /\ nth ((i + 1) mod n) (path_in rows x) 0 <= nth i (path_in rows x) 0 + 1.
Hypothesis Hret : forall x k, x < s -> (returns_after lo x k <-> returns_after lo' (flip s x) k).
Hypothesis Hpath : forall x, x < s -> path_in rows' (flip s x) = map (flip s) (path_in rows x).
Hypothesis Hsharp : forall x, x < s -> (turns_sharply rows lo x <-> turns_sharply rows' lo' (flip s x)).
Hypothesis Hint : forall i r1 r2 r1' r2', i < n -> change_at rows lo i r1 r2 -> change_at rows' lo' i r1' r2' ->
  (internal_place r1 r2 <-> internal_place r1' r2').

Let f := flip s.
Let Ff x : x < s -> f x < s /\ f (f x) = x.
Proof. intros H. split; [apply flip_lt|apply flip_flip]; auto. Qed.

Lemma u_hunt_lt h x : vrow s h -> hunt_bell h x -> x < s.
Proof. intros [_ L] H. unfold hunt_bell in H. apply nth_error_lt in H. lia. Qed.

Lemma u_hunt x : x < s -> (hunt_bell lo x <-> hunt_bell lo' (f x)).
Proof.
  intros Hx. pose proof (proj1 (Ff x Hx)) as Fx. rewrite (hunt_order s lo Vlo x Hx), (hunt_order s lo' Vlo' (f x) Fx).
  rewrite <- (returns_after_order s lo Vlo x 1 Hx), <- (returns_after_order s lo' Vlo' (f x) 1 Fx). apply Hret; auto.
Qed.

Lemma u_class x h : x < s -> (path_class (path_in rows' (f x)) h <-> path_class (path_in rows x) h).
Proof. intros Hx. unfold f. rewrite Hpath by auto. apply flip_class. auto. Qed.

Lemma u_dominant x h : x < s -> (dominant rows lo x h <-> dominant rows' lo' (f x) h).
Proof.
  intros Hx. unfold dominant. split; intros (H & P & M).
  - splits; [apply u_hunt; auto|apply u_class; auto|]. intros y h' Hy Py.
    pose proof (u_hunt_lt _ _ Vlo' Hy) as Ly. destruct (Ff y Ly) as (L' & E). rewrite <- E in Hy, Py.
    apply u_hunt in Hy; auto. apply u_class in Py; auto. eapply M; eauto.
  - apply u_hunt in H; auto. apply u_class in P; auto. splits; auto. intros y h' Hy Py.
    pose proof (u_hunt_lt _ _ Vlo Hy) as Ly. apply (M (f y)); [apply u_hunt; auto|apply u_class; auto].
Qed.

Lemma u_crosses x i : x < s -> hunt_bell lo x -> path_class (path_in rows x) HTrebleDodging -> i < n ->
  (crosses rows' (f x) i <-> crosses rows x i).
Proof.
  intros Hx Hh Pc Hi. unfold crosses, f. rewrite Ln, Ln', Hpath by auto. pose proof (Step x) as St. pose proof (Bel x Hx) as B. set (p := path_in rows x) in *.
  assert (Lp : length p = n) by (unfold p; rewrite path_len; auto).
  assert (Np : p <> []) by (intros E; rewrite E in Lp; cbn in Lp; lia).
  pose proof (modlt (i + 1) n Hn) as Hi'.
  destruct (list_min p Np) as (m & Im & Mm). destruct (list_max_ex p Np) as (M & IM & MM).
  assert (Ev : exists k, M = m + 2 * k + 1).
  { inversion Pc. apply (dodging_even p); rewrite ?Lp; auto. }
  destruct Ev as (k & Ek). pose proof (B M IM) as BM.
  assert (N : forall j, j < n -> nth_error p j = Some (nth j p 0)) by (intros; apply nth_error_nth'; lia).
  rewrite !nth_error_map, !N by auto. cbn [option_map]. set (a := nth i p 0). set (b := nth ((i + 1) mod n) p 0).
  assert (Ia : In a p) by (apply nth_In; lia). assert (Ib : In b p) by (apply nth_In; lia).
  pose proof (Mm a Ia). pose proof (Mm b Ib). pose proof (MM a Ia). pose proof (MM b Ib).
  assert (D : forall c, m <= c <= M -> (M - c) / 2 = k - (c - m) / 2).
  { intros c Hc. pose proof (Nat.div_mod (c - m) 2 ltac:(lia)) as D. pose proof (Nat.mod_upper_bound (c - m) 2 ltac:(lia)) as U.
    symmetry. apply (Nat.div_unique (M - c) 2 _ (1 - (c - m) mod 2)); lia. }
  assert (K : forall c, m <= c <= M -> (c - m) / 2 <= k).
  { intros c Hc. apply Nat.lt_succ_r. apply Nat.div_lt_upper_bound; lia. }
  split.
  - intros (a' & b' & m' & A' & B' & Im' & Mi & X). injection A' as <-. injection B' as <-. exists a, b, m. splits; auto.
    apply In_flip' in Im' as [Hm' Im']; auto.
    assert (m' = flip s M).
    { apply Nat.le_antisymm; [apply Mi; apply in_map; auto|]. specialize (MM _ Im'). unfold flip in *. lia. }
    subst m'. intros Q. apply X. replace (flip s a - flip s M) with (M - a) by (unfold flip; lia).
    replace (flip s b - flip s M) with (M - b) by (unfold flip; lia). rewrite !D by auto. lia.
  - intros (a' & b' & m' & A' & B' & Im' & Mi & X). injection A' as <-. injection B' as <-. exists (flip s a), (flip s b), (flip s M). splits; auto.
    + apply in_map; auto.
    + intros q Q. apply In_flip' in Q as [Hq Q]; auto. specialize (MM _ Q). unfold flip in *. lia.
    + assert (m' = m) by (apply Nat.le_antisymm; auto). subst m'.
      replace (flip s a - flip s M) with (M - a) by (unfold flip; lia). replace (flip s b - flip s M) with (M - b) by (unfold flip; lia).
      rewrite !D by auto. pose proof (K a). pose proof (K b). lia.
Qed.

Lemma u_lt rs x i : length rs = n -> crosses rs x i -> i < n.
Proof. intros L (a & b & m & H & _). apply nth_error_lt in H. rewrite path_len in H. lia. Qed.

Lemma u_ex rs h i : length rs = n -> i < n -> exists r1 r2, change_at rs h i r1 r2.
Proof.
  intros L Hi. unfold change_at.
  destruct (nth_error (rs ++ [h]) i) as [r1|] eqn:E1; [|apply nth_error_None in E1; rewrite app_length in E1; cbn in E1; lia].
  destruct (nth_error (rs ++ [h]) (i + 1)) as [r2|] eqn:E2; [|apply nth_error_None in E2; rewrite app_length in E2; cbn in E2; lia].
  eauto.
Qed.

Lemma u_section_to r1 r2 : cross_section rows lo r1 r2 -> exists r1' r2', cross_section rows' lo' r1' r2' /\ (internal_place r1 r2 <-> internal_place r1' r2').
Proof.
  intros (x & i & D & C & Ch). pose proof (u_hunt_lt _ _ Vlo (proj1 D)) as Hx. assert (Hi : i < n) by exact (u_lt rows x i Ln C).
  destruct (u_ex rows' lo' i Ln' Hi) as (r1' & r2' & Ch'). exists r1', r2'. split.
  - exists (f x), i. splits; auto; [apply u_dominant; auto|]. apply u_crosses; auto; apply D.
  - apply (Hint i); auto.
Qed.

Lemma u_section_from r1' r2' : cross_section rows' lo' r1' r2' -> exists r1 r2, cross_section rows lo r1 r2 /\ (internal_place r1 r2 <-> internal_place r1' r2').
Proof.
  intros (x & i & D & C & Ch). pose proof (u_hunt_lt _ _ Vlo' (proj1 D)) as Hx. assert (Hi : i < n) by exact (u_lt rows' x i Ln' C).
  destruct (Ff x Hx) as (Hx' & E). rewrite <- E in D, C. apply u_dominant in D; auto.
  destruct (u_ex rows lo i Ln Hi) as (r1 & r2 & Ch'). exists r1, r2. split.
  - exists (f x), i. splits; auto. apply u_crosses; auto; apply D.
  - apply (Hint i); auto.
Qed.

Lemma u_all (P : Prop -> Prop) : (forall A B, (A <-> B) -> (P A <-> P B)) ->
  (all_cross_sections rows lo (fun r1 r2 => P (internal_place r1 r2)) <-> all_cross_sections rows' lo' (fun r1 r2 => P (internal_place r1 r2))).
Proof.
  intros HP. split; intros H r1 r2 C.
  - destruct (u_section_from _ _ C) as (q1 & q2 & C' & I). apply (HP _ _ I). apply H; auto.
  - destruct (u_section_to _ _ C) as (q1 & q2 & C' & I). apply (HP _ _ I). apply H; auto.
Qed.

Lemma u_method h c : method_class rows lo h c -> method_class rows' lo' h c.
Proof.
  pose proof (u_all (fun P => P) ltac:(intros; auto)) as A1. pose proof (u_all (fun P => ~ P) ltac:(intros A B []; tauto)) as A2. cbn beta in A1, A2.
  change (fun r1 r2 => internal_place r1 r2) with internal_place in A1.
  intros M. destruct M as [x Hx ND TS|Hp|r1 r2 C A|A|N1 N2| | |]; try constructor; try tauto.
  - rewrite (proj2 Vlo) in Hx. apply (mc_bob _ _ (f x)).
    + rewrite (proj2 Vlo'). apply Ff; auto.
    + rewrite <- u_dominant; auto.
    + apply Hsharp; auto.
  - intros x Hx ND. rewrite (proj2 Vlo') in Hx. destruct (Ff x Hx) as (Hx' & E). rewrite <- E in ND |- *.
    unfold f at 1. rewrite <- Hsharp by auto. apply Hp; [rewrite (proj2 Vlo); auto|]. rewrite u_dominant by auto. auto.
  - destruct (u_section_to _ _ C) as (r1' & r2' & C' & _). eapply mc_surprise; eauto. apply A1; auto.
Qed.

Lemma u_classify {A B} (b : block A) (b' : block B) ars ars' o o' :
  block_holds b s ars lo -> block_holds b' s ars' lo' -> map fst ars = rows -> map fst ars' = rows' ->
  is_identity (hd [] rows) -> is_identity (hd [] rows') ->
  (forall i r1 r2, change_at rows lo i r1 r2 -> no_jump r1 r2) ->
  (forall i r1 r2, change_at rows' lo' i r1 r2 -> no_jump r1 r2) ->
  (forall l, collected_set l (o l)) -> (forall l, collected_set l (o' l)) ->
  exists fc, classify o b = Ret fc /\ classify o' b' = Ret fc.
Proof.
  intros Hb Hb' E E' I I' J J' Ho Ho'.
  assert (Na : ars <> []) by (intros ->; cbn in E; subst rows; cbn in Ln; lia).
  assert (Na' : ars' <> []) by (intros ->; cbn in E'; subst rows'; cbn in Ln'; lia).
  destruct (pf_C62_classification A b s ars lo o Hb Na) as (fc & Ec & Ej & Ed & Ep & El & Ex & Em); rewrite ?E; auto.
  destruct (pf_C62_classification B b' s ars' lo' o' Hb' Na') as (fc' & Ec' & Ej' & Ed' & Ep' & El' & Ex' & Em'); rewrite ?E'; auto.
  rewrite E in *. rewrite E' in *. exists fc. split; auto. rewrite Ec'. f_equal.
  assert (Hd : is_differential fc = true <-> is_differential fc' = true).
  { rewrite Ed, Ed'. split; intros (x & y & k & l & Hx & Nx & Rx & Hy & Ny & Ry & Nk).
    - exists (f x), (f y), k, l. unfold f at 3 6. rewrite <- !Hret, <- !u_hunt by auto. splits; auto; apply Ff; auto.
    - destruct (Ff x Hx) as (Hx' & E1). destruct (Ff y Hy) as (Hy' & E2). rewrite <- E1 in Nx, Rx. rewrite <- E2 in Ny, Ry.
      rewrite <- u_hunt in Nx, Ny by auto. unfold f at 1 in Rx. unfold f at 1 in Ry. rewrite <- Hret in Rx, Ry by auto. exists (f x), (f y), k, l. splits; auto. }
  assert (Hc : fc_class fc = fc_class fc' /\ (is_little fc = true <-> is_little fc' = true)).
  { destruct (class_eq_dec (fc_class fc) Principle) as [P|P].
    - assert (P' : fc_class fc' = Principle).
      { apply Ep'. intros x Hx. pose proof (u_hunt_lt _ _ Vlo' Hx) as Lx. destruct (Ff x Lx) as (Lx' & E1). rewrite <- E1 in Hx.
        apply u_hunt in Hx; auto. eapply (proj1 Ep P); eauto. }
      rewrite P, P', El, El' by auto. split; auto. tauto.
    - assert (Hh : exists x, hunt_bell lo x).
      { destruct (existsb (fun x => nth x lo (S x) =? x) (seq 0 s)) eqn:Eh.
        - apply existsb_exists in Eh as (x & Hx & Q). apply in_seq in Hx. apply Nat.eqb_eq in Q. exists x. unfold hunt_bell.
          rewrite (nth_error_nth' lo (S x)) by (rewrite (proj2 Vlo); lia). congruence.
        - exfalso. apply P, Ep. intros x Hx. pose proof (u_hunt_lt _ _ Vlo Hx) as Lx.
          assert (existsb (fun x => nth x lo (S x) =? x) (seq 0 s) = true); [|congruence]. apply existsb_exists. exists x.
          split; [apply in_seq; lia|]. apply Nat.eqb_eq. apply nth_error_nth. exact Hx. }
      destruct (Ex Hh) as (x & h & D). pose proof (u_hunt_lt _ _ Vlo (proj1 D)) as Hx.
      destruct (Em x h D) as [M1 L1]. pose proof D as D'. apply u_dominant in D'; auto. destruct (Em' _ h D') as [M2 L2].
      split; [eapply (proj2 (proj2 (proj2 pf_C62_specification_is_unambiguous))); [apply u_method; exact M1|exact M2]|].
      rewrite L1, L2. split; intros Q y Dy.
      + pose proof (u_hunt_lt _ _ Vlo' (proj1 Dy)) as Hy. destruct (Ff y Hy) as (Hy' & E1). rewrite <- E1 in Dy.
        apply u_dominant in Dy; auto. destruct (Q _ Dy) as (q & Hq & Nq). exists (f q). split; [apply Ff; auto|].
        rewrite <- E1. unfold f. rewrite Hpath, In_flip by auto. auto.
      + pose proof (u_hunt_lt _ _ Vlo (proj1 Dy)) as Hy. pose proof Dy as Dy'. apply u_dominant in Dy'; auto. destruct (Q _ Dy') as (q & Hq & Nq).
        exists (f q). split; [apply Ff; auto|]. intros X. apply Nq. unfold f at 1. rewrite Hpath by auto. apply In_flip'; auto. }
  destruct Hc as [Hc Hl]. destruct fc as [j l d c], fc' as [j' l' d' c']. cbn in *. subst. f_equal.
  - destruct l, l'; intuition congruence.
  - destruct d, d'; intuition congruence.
Qed.
End Upside.
