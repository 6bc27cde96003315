(** Proofs about the model of classification: paths of hunt bells. *)
From Verif Require Import Base Spec ListFacts Bell Stage Row RowFacts MulFacts GroupFacts
  Utils SameStageVec SpecVec SsvFacts Block SpecBlock BlockFacts PlaceNot Class SpecClass ClassFacts.
Local Open Scope list_scope.

Lemma partition_ok cs : partition_cycles cs = (filter cycle_is_hunt cs, filter (fun c => negb (cycle_is_hunt c)) cs).
Proof.
  unfold partition_cycles.
  assert (G : forall l a b, fold_left (fun '(h, w) c => if cycle_is_hunt c then (h ++ [c], w) else (h, w ++ [c])) l (a, b) =
    (a ++ filter cycle_is_hunt l, b ++ filter (fun c => negb (cycle_is_hunt c)) l)).
  { induction l as [|c l IH]; intros a b; cbn [fold_left filter]; [rewrite !app_nil_r; auto|].
    destruct (cycle_is_hunt c); cbn [negb]; rewrite IH, <- !app_assoc; reflexivity. }
  rewrite G. reflexivity.
Qed.

Lemma windows2_all {A} (f : A -> nat) l :
  forallb (fun '(a, b) => f a =? f b) (windows2 l) = true <-> forall a b, In a l -> In b l -> f a = f b.
Proof.
  induction l as [|x l IH]; [cbn; split; auto; intros _ a b []|].
  destruct l as [|y l].
  - cbn. split; auto. intros _ a b [->|[]] [->|[]]. reflexivity.
  - change (windows2 (x :: y :: l)) with ((x, y) :: windows2 (y :: l)). cbn [forallb].
    rewrite andb_true_iff, IH, Nat.eqb_eq. split.
    + intros [E H] a b [<-|Ha] [<-|Hb]; auto.
      * rewrite E. apply H; auto. left; auto.
      * rewrite E. apply H; auto. left; auto.
    + intros H. split; [apply H; cbn; auto|]. intros a b Ha Hb. apply H; right; auto.
Qed.

Lemma windows2_nth {A} (d : A) l :
  windows2 l = map (fun i => (nth i l d, nth (i + 1) l d)) (seq 0 (length l - 1)).
Proof.
  induction l as [|x l IH]; auto. destruct l as [|y l]; auto.
  change (windows2 (x :: y :: l)) with ((x, y) :: windows2 (y :: l)). rewrite IH. cbn [length].
  replace (S (S (length l)) - 1) with (S (length l)) by lia. replace (S (length l) - 1) with (length l) by lia.
  cbn [seq map]. f_equal. rewrite <- seq_shift, map_map. apply map_ext. intros i. reflexivity.
Qed.

Lemma windows3_nth {A} (d : A) l :
  windows3 l = map (fun i => (nth i l d, nth (i + 1) l d, nth (i + 2) l d)) (seq 0 (length l - 2)).
Proof.
  induction l as [|x l IH]; auto. destruct l as [|y [|z l]]; auto.
  change (windows3 (x :: y :: z :: l)) with ((x, y, z) :: windows3 (y :: z :: l)). rewrite IH. cbn [length].
  replace (S (S (S (length l))) - 2) with (S (length l)) by lia. replace (S (S (length l)) - 2) with (length l) by lia.
  cbn [seq map]. f_equal. rewrite <- seq_shift, map_map. apply map_ext. intros i. reflexivity.
Qed.

Lemma nth_triple {A} (d : A) l i : i < 3 * length l -> nth i (l ++ l ++ l) d = nth (i mod length l) l d.
Proof.
  intros H. set (n := length l) in *. assert (n <> 0) by lia.
  destruct (lt_dec i n) as [H1|H1].
  - rewrite app_nth1 by auto. rewrite Nat.mod_small; auto.
  - rewrite app_nth2 by (fold n; lia). fold n. destruct (lt_dec (i - n) n) as [H2|H2].
    + rewrite app_nth1 by auto. f_equal. replace i with ((i - n) + 1 * n) at 2 by lia. rewrite Nat.mod_add, Nat.mod_small by auto. auto.
    + rewrite app_nth2 by (fold n; lia). fold n. f_equal. replace i with ((i - n - n) + 2 * n) at 2 by lia.
      rewrite Nat.mod_add, Nat.mod_small by lia. auto.
Qed.

Lemma firstn_seq n m : n <= m -> firstn n (seq 0 m) = seq 0 n.
Proof.
  intros H. apply nth_error_ext. intros i. rewrite nth_error_firstn, !nth_error_seq.
  destruct (Nat.ltb_spec i n); auto. destruct (Nat.ltb_spec i m); auto. lia.
Qed.

Lemma circular2_nth {A} (d : A) l :
  circular_windows2 l = map (fun i => (nth i l d, nth ((i + 1) mod length l) l d)) (seq 0 (length l)).
Proof.
  unfold circular_windows2. rewrite (windows2_nth d), !app_length. rewrite firstn_map.
  destruct (Nat.eq_dec (length l) 0) as [E|E]; [rewrite E; reflexivity|].
  rewrite firstn_seq by lia. apply map_ext_in. intros i Hi. apply in_seq in Hi.
  rewrite !nth_triple by lia. rewrite (Nat.mod_small i) by lia. reflexivity.
Qed.

Lemma circular3_nth {A} (d : A) l :
  circular_windows3 l =
  map (fun i => (nth i l d, nth ((i + 1) mod length l) l d, nth ((i + 2) mod length l) l d)) (seq 0 (length l)).
Proof.
  unfold circular_windows3. rewrite (windows3_nth d), !app_length. rewrite firstn_map.
  destruct (Nat.eq_dec (length l) 0) as [E|E]; [rewrite E; reflexivity|].
  rewrite firstn_seq by lia. apply map_ext_in. intros i Hi. apply in_seq in Hi.
  rewrite !nth_triple by lia. rewrite (Nat.mod_small i) by lia. reflexivity.
Qed.

Lemma count_places_ok s p : Forall (fun x => x < s) p -> count_places s p = Ret (map (visits p) (seq 0 s)).
Proof.
  intros F. unfold count_places.
  assert (G : forall q, Forall (fun x => x < s) q -> forall c, length c = s ->
    exists c', foldM (fun counts p => n <- idx counts p;; set_idx counts p (n + 1)) q c = Ret c' /\ length c' = s /\
      forall i, nth i c' 0 = nth i c 0 + visits q i).
  { induction q as [|x q IH]; intros Fq c Hc; cbn [foldM].
    - exists c. splits; auto. 
    - inversion Fq; subst. rewrite (idx_ret 0) by lia. cbn [bind]. rewrite set_idx_ret by lia. cbn [bind].
      destruct (IH H2 (upd c x (nth x c 0 + 1))) as (c' & E & L & N); [rewrite length_upd; auto|].
      exists c'. splits; auto. intros i. rewrite N, nth_upd. unfold visits. cbn [count_occ].
      destruct (Nat.eqb_spec i x) as [->|Hi]; cbn [andb].
      + rewrite (proj2 (Nat.ltb_lt _ _)) by auto. destruct (Nat.eq_dec x x); [lia|congruence].
      + destruct (Nat.eq_dec x i); [congruence|lia]. }
  destruct (G p F (repeat 0 s) (repeat_length _ _)) as (c & E & L & N). rewrite E. f_equal.
  apply (nth_ext _ _ 0 0); [rewrite map_length, seq_length; auto|]. intros i Hi. rewrite N.
  rewrite (nth_indep (map (visits p) (seq 0 s)) 0 (visits p 0)) by (rewrite map_length, seq_length; lia).
  rewrite map_nth, seq_nth by lia. replace (nth i (repeat 0 s) 0) with 0; [reflexivity|].
  symmetry. clear. revert i. induction s as [|s IH]; intros [|i]; cbn; auto.
Qed.

Lemma palindromic_ok p : p <> [] -> (is_palindromic p = true <-> symmetric p).
Proof.
  intros Ne. unfold is_palindromic, symmetric. rewrite existsb_exists. split.
  - intros (i & Hi & E). apply list_eqb_eq in E. unfold range in Hi. apply in_seq in Hi.
    rewrite skipn_app in E. rewrite firstn_app in E. rewrite !skipn_length, rev_length in E.
    replace (i - length p) with 0 in E by lia. cbn [skipn] in E.
    replace (length p - (length p - i)) with i in E by lia.
    rewrite firstn_all2 in E by (rewrite skipn_length, rev_length; lia).
    exists (skipn i (rev p)), (firstn i (rev p)). split; auto. symmetry. apply firstn_skipn.
  - intros (a & b & E1 & E2). exists (if length a =? 0 then 0 else length b).
    assert (L : length p = length a + length b) by (rewrite E1, app_length; auto).
    assert (0 < length p) by (destruct p; cbn; [congruence|lia]).
    destruct (Nat.eqb_spec (length a) 0) as [E|E].
    + destruct a; [|discriminate]. cbn in E1. rewrite app_nil_r in E2. split; [apply in_seq; lia|].
      cbn [skipn]. rewrite E2, firstn_app, E1, Nat.sub_diag, firstn_all. rewrite firstn_O, app_nil_r.
      apply list_eqb_eq. auto.
    + split; [apply in_seq; lia|]. rewrite E2. rewrite <- app_assoc, skipn_app, skipn_all, Nat.sub_diag. cbn [skipn app].
      rewrite app_assoc, <- E1. rewrite firstn_app, Nat.sub_diag, firstn_all, firstn_O, app_nil_r.
      apply list_eqb_eq. auto.
Qed.

(** ** Decidable path conditions *)

Lemma visits_pos p q : In q p <-> 0 < visits p q.
Proof. unfold visits. rewrite (count_occ_In Nat.eq_dec). lia. Qed.

Lemma filter_len_1 (f : nat -> bool) l : NoDup l ->
  (length (filter f l) = 1 <-> exists q, In q l /\ f q = true /\ forall x, In x l -> f x = true -> x = q).
Proof.
  intros N. split.
  - intros E. destruct (filter f l) as [|q [|]] eqn:Ef; try discriminate. exists q.
    assert (I : In q (filter f l)) by (rewrite Ef; left; auto). apply filter_In in I as [I1 I2]. splits; auto.
    intros x Hx Fx. assert (Ix : In x (filter f l)) by (apply filter_In; auto). rewrite Ef in Ix. destruct Ix as [|[]]; auto.
  - intros (q & Hq & Fq & U). assert (Nf : NoDup (filter f l)) by (apply NoDup_filter; auto).
    assert (I : In q (filter f l)) by (apply filter_In; auto).
    destruct (filter f l) as [|a [|b t]] eqn:Ef; auto; [destruct I|]. exfalso.
    assert (Ha : In a (filter f l)) by (rewrite Ef; left; auto).
    assert (Hb : In b (filter f l)) by (rewrite Ef; right; left; auto).
    apply filter_In in Ha as [Ha Fa], Hb as [Hb Fb]. apply (U a Ha) in Fa. apply (U b Hb) in Fb. subst.
    inversion Nf; subst. apply H1. left; auto.
Qed.

Lemma filter_map_length {A B} (f : A -> B) (p : B -> bool) l :
  length (filter p (map f l)) = length (filter (fun x => p (f x)) l).
Proof. induction l as [|x l IH]; cbn; auto. destruct (p (f x)); cbn; auto. Qed.

Section PathClass.
Context (s : nat) (p : list nat).
Hypothesis Ne : p <> [].
Hypothesis F : Forall (fun x => x < s) p.

Let counts := map (visits p) (seq 0 s).

Lemma In_counts n : In n counts <-> exists q, q < s /\ visits p q = n.
Proof.
  unfold counts. rewrite in_map_iff. split.
  - intros (q & E & H). apply in_seq in H. exists q. split; auto. lia.
  - intros (q & H & E). exists q. split; auto. apply in_seq. lia.
Qed.

Lemma visited_lt q : In q p -> q < s.
Proof. rewrite Forall_forall in F. auto. Qed.

Lemma little_ok : existsb (fun n => n =? 0) counts = true <-> exists q, q < s /\ ~ In q p.
Proof.
  rewrite existsb_exists. split.
  - intros (n & H & E). apply Nat.eqb_eq in E. subst n. apply In_counts in H as (q & Hq & E).
    exists q. split; auto. rewrite visits_pos. lia.
  - intros (q & Hq & N). exists 0. split; auto. apply In_counts. exists q. split; auto. rewrite visits_pos in N. lia.
Qed.

Lemma stationary_ok : (length (filter (fun v => 0 <? v) counts) =? 1) = true <-> stationary p.
Proof.
  rewrite Nat.eqb_eq. unfold counts. rewrite filter_map_length, filter_len_1 by apply seq_NoDup. unfold stationary. split.
  - intros (q & Hq & Vq & U). exists q. intros x Hx. apply U.
    + apply in_seq. apply visited_lt in Hx. lia.
    + apply Nat.ltb_lt. apply visits_pos; auto.
  - intros (q & U). assert (Hq : In q p).
    { destruct p as [|x t]; [congruence|]. left. apply U. left; auto. }
    exists q. splits.
    + apply in_seq. apply visited_lt in Hq. lia.
    + apply Nat.ltb_lt. apply visits_pos; auto.
    + intros x _ Vx. apply U. apply visits_pos. apply Nat.ltb_lt; auto.
Qed.

Lemma twice_ok : forallb (fun n => (n =? 0) || (n =? 2)) counts = true <-> each_place_twice p.
Proof.
  rewrite forallb_forall. unfold each_place_twice. split.
  - intros H q Hq. assert (In (visits p q) counts) by (apply In_counts; exists q; split; auto using visited_lt).
    apply H in H0. apply visits_pos in Hq. apply orb_true_iff in H0 as [E|E]; apply Nat.eqb_eq in E; lia.
  - intros H n Hn. apply In_counts in Hn as (q & _ & <-). destruct (visits p q) as [|k] eqn:E; auto.
    assert (In q p) as Hq by (apply visits_pos; lia). apply H in Hq. rewrite <- E, Hq. reflexivity.
Qed.

Lemma covered_ok :
  forallb (fun '(a, b) => a =? b) (windows2 (filter (fun v => negb (v =? 0)) counts)) = true <-> equally_covered p.
Proof.
  rewrite (windows2_all (fun x => x)). unfold equally_covered. 
  assert (I : forall n, In n (filter (fun v => negb (v =? 0)) counts) <-> exists q, In q p /\ visits p q = n).
  { intros n. rewrite filter_In, In_counts. split.
    - intros ((q & _ & E) & Nz). exists q. split; auto. apply visits_pos. subst n.
      destruct (visits p q); [discriminate|lia].
    - intros (q & Hq & E). split; [exists q; split; auto using visited_lt|]. apply visits_pos in Hq.
      destruct (Nat.eqb_spec n 0); auto. lia. }
  split.
  - intros H q r Hq Hr. apply H; apply I; eauto.
  - intros H a b Ha Hb. apply I in Ha as (q & Hq & <-), Hb as (r & Hr & <-). auto.
Qed.

Lemma places_made_ok : length (filter (fun '(a, b) => a =? b) (circular_windows2 p)) = places_made p.
Proof. rewrite (circular2_nth 0), filter_map_length. reflexivity. Qed.

Lemma classify_path pbs : exists little h, classify_hunt_cycle (Cycle pbs p) s = Ret (little, h) /\
  path_class p h /\ (little = true <-> exists q, q < s /\ ~ In q p).
Proof.
  unfold classify_hunt_cycle. cbn [full_path]. rewrite count_places_ok by auto. cbn [bind]. fold counts.
  pose proof little_ok as L. pose proof stationary_ok as S. pose proof twice_ok as T. pose proof covered_ok as C.
  pose proof places_made_ok as M. pose proof (palindromic_ok p Ne) as P.
  rewrite M. destruct (length (filter (fun v => 0 <? v) counts) =? 1).
  { eexists _, _. splits; [reflexivity| |exact L]. apply pc_stationary. apply S; auto. }
  destruct (forallb (fun n => (n =? 0) || (n =? 2)) counts).
  { eexists _, _. splits; [reflexivity| |exact L]. apply pc_plain; [|apply T; auto]. rewrite <- S. discriminate. }
  assert (NS : ~ stationary p) by (rewrite <- S; discriminate).
  assert (NT : ~ each_place_twice p) by (rewrite <- T; discriminate).
  eexists _, _. splits; [reflexivity| |exact L].
  destruct (is_palindromic p).
  - assert (symmetric p) by (apply P; auto).
    destruct (forallb _ (windows2 _)).
    + assert (equally_covered p) by (apply C; auto). destruct (Nat.compare_spec (places_made p) 2).
      * apply pc_treble_dodging; auto.
      * apply pc_few_places; auto.
      * apply pc_treble_place; auto.
    + apply pc_alliance; auto. rewrite <- C. discriminate.
  - apply pc_asymmetric; auto. rewrite <- P. discriminate.
Qed.
End PathClass.

Lemma path_class_fun p h h' : path_class p h -> path_class p h' -> h = h'.
Proof. intros H K. destruct H; inversion K; subst; try contradiction; try reflexivity; try lia. Qed.

Lemma dominance_rank h h' : hbc_cmp h h' = Nat.compare (dominance h) (dominance h').
Proof. destruct h, h'; reflexivity. Qed.

Lemma dominance_inj h h' : dominance h = dominance h' -> h = h'.
Proof. destruct h, h'; cbn; congruence || discriminate. Qed.

(** ** The dominant class *)

(** [c] is the cycle of a hunt bell whose path has class [h] *)
Definition of_class (c : cycle) (h : hunt_bell_class) : Prop := path_class (full_path c) h.
Definition misses (s : nat) (c : cycle) : Prop := exists q, q < s /\ ~ In q (full_path c).
Definition hunt_path (s : nat) (c : cycle) : Prop := full_path c <> [] /\ Forall (fun x => x < s) (full_path c).

Lemma classify_cycle s c : hunt_path s c -> exists little h, classify_hunt_cycle c s = Ret (little, h) /\
  of_class c h /\ (little = true <-> misses s c).
Proof. destruct c as [pbs p]. intros [H1 H2]. apply classify_path; auto. Qed.

Lemma best_loop_ok s cs : Forall (hunt_path s) cs -> forall little best seen, Forall (hunt_path s) seen ->
  (exists c, In c seen /\ of_class c best) -> (forall c h, In c seen -> of_class c h -> dominance best <= dominance h) ->
  forall inb, (forall c, In c inb <-> In c seen /\ of_class c best) ->
  (little = true <-> forall c, In c inb -> misses s c) ->
  exists little' best' inb', best_loop s cs little best inb = Ret (little', best', inb') /\
    (exists c, In c (seen ++ cs) /\ of_class c best') /\
    (forall c h, In c (seen ++ cs) -> of_class c h -> dominance best' <= dominance h) /\
    (forall c, In c inb' <-> In c (seen ++ cs) /\ of_class c best') /\
    (little' = true <-> forall c, In c inb' -> misses s c).
Proof.
  intros Fc. induction Fc as [|c cs Hc Fc IH]; intros little best seen Fs Ex Mn inb Hi Hl.
  - cbn [best_loop]. rewrite app_nil_r. eexists _, _, _. splits; eauto.
  - cbn [best_loop]. destruct (classify_cycle s c Hc) as (lc & h & E & O & Lc). rewrite E. cbn [bind].
    replace (seen ++ c :: cs) with ((seen ++ [c]) ++ cs) by (rewrite <- app_assoc; reflexivity).
    assert (Fs' : Forall (hunt_path s) (seen ++ [c])) by (apply Forall_app; auto).
    rewrite dominance_rank. destruct (Nat.compare_spec (dominance h) (dominance best)) as [D|D|D].
    + apply dominance_inj in D. subst best. apply IH; auto.
      * exists c. split; auto. apply in_or_app. right; left; auto.
      * intros c' h' Hin Hh. apply in_app_or in Hin as [Hin|[<-|[]]]; eauto.
        rewrite (path_class_fun _ _ _ Hh O). auto.
      * intros c'. rewrite !in_app_iff, Hi. cbn [In]. split.
        -- intros [[H1 H2]|[<-|[]]]; auto.
        -- intros [[H1|[<-|[]]] H2]; auto.
      * rewrite andb_true_iff, Hl, Lc. split.
        -- intros [H1 H2] c' Hin. apply in_app_or in Hin as [Hin|[<-|[]]]; auto.
        -- intros H. split; [intros c' Hin|]; apply H; apply in_or_app; cbn; auto.
    + apply IH; auto.
      * exists c. split; auto. apply in_or_app. right; left; auto.
      * intros c' h' Hin Hh. apply in_app_or in Hin as [Hin|[<-|[]]].
        -- specialize (Mn _ _ Hin Hh). lia.
        -- rewrite (path_class_fun _ _ _ Hh O). auto.
      * intros c'. rewrite in_app_iff. cbn [In]. split.
        -- intros [<-|[]]. auto.
        -- intros [[H1|[<-|[]]] H2]; auto. exfalso. specialize (Mn _ _ H1 H2). lia.
      * rewrite Lc. split; [intros H c' [<-|[]]; auto|]. intros H. apply H. left; auto.
    + apply IH; auto.
      * destruct Ex as (c' & H1 & H2). exists c'. split; auto. apply in_or_app; auto.
      * intros c' h' Hin Hh. apply in_app_or in Hin as [Hin|[<-|[]]]; eauto.
        rewrite (path_class_fun _ _ _ Hh O). lia.
      * intros c'. rewrite in_app_iff, Hi. split.
        -- tauto.
        -- intros [[H1|[<-|[]]] H2]; auto. exfalso. rewrite (path_class_fun _ _ _ H2 O) in D. lia.
Qed.
