(** Lemmas for C151: an extent on every stage, by exchanging one pair at each change ("plain changes"): the last bell hunts down and up through each row of the
    extent on one bell less. *)
From Coq Require Import Permutation.
From Verif Require Import Base Spec ListFacts Row RowFacts MulFacts SpecClass EvenFacts.
Local Open Scope list_scope.

Definition adj (r r' : list nat) : Prop := exists x a b y, r = x ++ a :: b :: y /\ r' = x ++ b :: a :: y.

Lemma adj_sym r r' : adj r r' -> adj r' r.
Proof. intros (x & a & b & y & -> & ->). exists x, b, a, y. auto. Qed.

Lemma adj_near r r' p c : adj r r' -> nth_error r' p = Some c -> exists q, nth_error r q = Some c /\ p <= q + 1 /\ q <= p + 1.
Proof.
  intros (x & a & b & y & -> & ->) E. destruct (Nat.lt_ge_cases p (length x)) as [L|L].
  - exists p. rewrite nth_error_app1 in * by auto. split; auto. lia.
  - rewrite nth_error_app2 in E by auto. destruct (p - length x) as [|[|k]] eqn:K; cbn in E.
    + exists (S (length x)). rewrite nth_error_app2 by lia. replace (S (length x) - length x) with 1 by lia. cbn. split; auto. lia.
    + exists (length x). rewrite nth_error_app2 by lia. rewrite Nat.sub_diag. cbn. split; auto. lia.
    + exists p. rewrite nth_error_app2 by lia. rewrite K. cbn. split; auto. lia.
Qed.

Lemma adj_no_jump r r' : NoDup r -> adj r r' -> no_jump r r'.
Proof.
  intros N A c p q Ep Eq. destruct (adj_near r r' q c A Eq) as (p' & Ep' & L). assert (p' = p); [|lia].
  apply (proj1 (NoDup_nth_error _) N); [apply nth_error_Some; congruence|congruence].
Qed.

(** Rows from the first to the last, each next to the one before. *)
Inductive way : list nat -> list (list nat) -> list nat -> Prop :=
| way_one a : way a [a] a
| way_more a b l z : adj a b -> way b l z -> way a (a :: l) z.

Lemma way_app a l z b l' y : way a l z -> adj z b -> way b l' y -> way a (l ++ l') y.
Proof. intros W A W'. induction W as [a|a c l z A' W IH]; cbn [app]; econstructor; eauto. Qed.

Lemma way_rev a l z : way a l z -> way z (rev l) a.
Proof.
  intros W. induction W as [a|a c l z A W IH]; cbn [rev app]; [constructor|]. eapply way_app; [exact IH|apply adj_sym; exact A|constructor].
Qed.

Lemma way_map (g : nat -> list nat) : forall len start, (forall k, start <= k < start + len -> adj (g k) (g (S k))) ->
  way (g start) (map g (seq start (S len))) (g (start + len)).
Proof.
  induction len as [|len IH]; intros start H.
  - rewrite Nat.add_0_r. constructor.
  - change (map g (seq start (S (S len)))) with (g start :: map g (seq (S start) (S len))). econstructor; [apply H; lia|].
    replace (start + S len) with (S start + len) by lia. apply IH. intros k Hk. apply H. lia.
Qed.

Lemma way_nth a l z : way a l z -> hd_error l = Some a /\ last l [] = z /\
  forall i x y, nth_error l i = Some x -> nth_error l (i + 1) = Some y -> adj x y.
Proof.
  intros W. induction W as [a|a c l z A W (H1 & H2 & H3)].
  - splits; auto. intros [|i] x y E1 E2; [discriminate|]. destruct i; discriminate.
  - splits; auto.
    + destruct l; [discriminate|]. auto.
    + intros [|i] x y E1 E2.
      * cbn in E1, E2. injection E1 as <-. destruct l as [|c' l]; [discriminate|]. cbn in *. injection E2 as <-. injection H1 as ->. auto.
      * apply (H3 i); auto.
Qed.

Definition ins (n k : nat) (r : list nat) : list nat := firstn k r ++ n :: skipn k r.

Lemma ins_next n k r : k < length r -> adj (ins n k r) (ins n (S k) r).
Proof.
  intros L. unfold ins. destruct (nth_error r k) as [c|] eqn:E; [|apply nth_error_None in E; lia].
  apply nth_error_split in E as (l1 & l2 & -> & <-). exists l1, n, c, l2.
  assert (F1 : firstn (length l1) (l1 ++ c :: l2) = l1) by (rewrite firstn_app, firstn_all, Nat.sub_diag, firstn_O; apply app_nil_r).
  assert (S1 : skipn (length l1) (l1 ++ c :: l2) = c :: l2) by (rewrite skipn_app, skipn_all, Nat.sub_diag; auto).
  assert (D : S (length l1) - length l1 = 1) by lia.
  assert (F2 : firstn (S (length l1)) (l1 ++ c :: l2) = l1 ++ [c]) by (rewrite firstn_app, (firstn_all2 l1), D by lia; auto).
  assert (S2 : skipn (S (length l1)) (l1 ++ c :: l2) = l2) by (rewrite skipn_app, (skipn_all2 l1), D by lia; auto).
  rewrite F1, S1, F2, S2, <- app_assoc. auto.
Qed.

Lemma ins_first n r r' : adj r r' -> adj (ins n 0 r) (ins n 0 r').
Proof. intros (x & a & b & y & -> & ->). exists (n :: x), a, b, y. auto. Qed.

Lemma ins_last n r : length r = n -> ins n n r = r ++ [n].
Proof. intros <-. unfold ins. rewrite firstn_all, skipn_all. auto. Qed.

Lemma ins_end n r r' : length r = n -> adj r r' -> adj (ins n n r) (ins n n r').
Proof.
  intros L A. assert (L' : length r' = n) by (destruct A as (x & a & b & y & -> & ->); rewrite app_length in *; cbn in *; auto).
  rewrite !ins_last by auto. destruct A as (x & a & b & y & -> & ->). exists x, a, b, (y ++ [n]). rewrite <- !app_assoc. auto.
Qed.

Fixpoint weave (n : nat) (down : bool) (l : list (list nat)) : list (list nat) :=
  match l with
  | [] => []
  | r :: t => map (fun k => ins n k r) (if down then rev (seq 0 (S n)) else seq 0 (S n)) ++ weave n (negb down) t
  end.

Definition from (n : nat) (down : bool) : nat := if down then n else 0.

Lemma way_length a l z n : way a l z -> length a = n -> forall r, In r l -> length r = n.
Proof.
  intros W. induction W as [a|a c l z A W IH]; intros L r [<-|I]; auto; [destruct I|]. apply IH; auto.
  destruct A as (x & p & q & y & -> & ->). rewrite app_length in *. cbn in *. auto.
Qed.

Lemma way_in a l z : way a l z -> In z l.
Proof. intros W. induction W; [left; auto|right; auto]. Qed.

Lemma one_block n down r : length r = n ->
  way (ins n (from n down) r) (map (fun k => ins n k r) (if down then rev (seq 0 (S n)) else seq 0 (S n))) (ins n (from n (negb down)) r).
Proof.
  intros L. assert (W : way (ins n 0 r) (map (fun k => ins n k r) (seq 0 (S n))) (ins n n r)).
  { apply (way_map (fun k => ins n k r) n 0). intros k Hk. apply ins_next. lia. }
  destruct down; cbn [from negb]; auto. rewrite map_rev. apply way_rev. auto.
Qed.

Lemma weave_way n a l z : way a l z -> length a = n -> forall down,
  way (ins n (from n down) a) (weave n down l) (ins n (from n (if Nat.even (length l) then down else negb down)) z).
Proof.
  intros W. induction W as [a|a c l z A W IH]; intros L down.
  - cbn [weave length Nat.even]. rewrite app_nil_r. apply one_block. auto.
  - assert (Lc : length c = n) by (destruct A as (x & p & q & y & -> & ->); rewrite app_length in *; cbn in *; auto).
    cbn [weave]. eapply way_app; [apply one_block; auto| |].
    + instantiate (1 := ins n (from n (negb down)) c). destruct down; cbn [negb from]; [apply ins_first; auto|apply ins_end; auto].
    + replace (if Nat.even (length (a :: l)) then down else negb down) with (if Nat.even (length l) then negb down else negb (negb down)); [apply IH; auto|].
      cbn [length]. rewrite Nat.even_succ, <- Nat.negb_even. destruct (Nat.even (length l)), down; auto.
Qed.

Lemma weave_length n : forall l down, length (weave n down l) = S n * length l.
Proof.
  induction l as [|r l IH]; intros down; [cbn; lia|]. cbn [weave]. rewrite app_length, map_length, IH.
  assert (E : length (if down then rev (seq 0 (S n)) else seq 0 (S n)) = S n) by (destruct down; rewrite ?rev_length; apply seq_length). rewrite E. cbn [length]. lia.
Qed.

Lemma in_weave n x : forall l down, In x (weave n down l) <-> exists r k, In r l /\ k <= n /\ x = ins n k r.
Proof.
  induction l as [|r l IH]; intros down; cbn [weave].
  - split; [intros []|intros (r & k & [] & _)].
  - rewrite in_app_iff, IH, in_map_iff. assert (S1 : forall k, In k (if down then rev (seq 0 (S n)) else seq 0 (S n)) <-> k <= n).
    { intros k. destruct down; rewrite <- ?in_rev, in_seq; lia. }
    split.
    + intros [(k & <- & I)|(r' & k & I & L & ->)]; [exists r, k|exists r', k]; splits; auto; [left; auto|apply S1; auto|right; auto].
    + intros (r' & k & [<-|I] & L & ->); [left; exists k; rewrite S1; auto|right; eauto].
Qed.

Lemma ins_perm n k r : Permutation (ins n k r) (n :: r).
Proof. unfold ins. rewrite <- Permutation_middle, firstn_skipn. auto. Qed.

Lemma extent_exists : forall n, 2 <= n ->
  exists l z, way (row_rounds n) l z /\ adj z (row_rounds n) /\ length l = fact n /\ (forall r, In r l <-> vrow n r).
Proof.
  assert (Seqs : forall n, Permutation (n :: seq 0 n) (seq 0 (S n))) by (intros n; rewrite seq_S; apply Permutation_cons_append).
  induction n as [|n IH]; intros Hn; [lia|]. destruct (Nat.eq_dec n 1) as [->|N1].
  - exists [[0; 1]; [1; 0]], [1; 0]. assert (A : adj [0; 1] [1; 0]) by (exists [], 0, 1, []; auto). splits; auto.
    + change (row_rounds 2) with [0; 1]. econstructor; [exact A|constructor].
    + apply adj_sym. exact A.
    + intros r. destruct (all_rows 2) as (_ & _ & H); [lia|]. rewrite <- H. cbn. tauto.
  - destruct IH as (l & z & W & Az & Ll & Il); [lia|]. assert (Lr : length (row_rounds n) = n) by apply length_rounds.
    assert (Ev : Nat.even (length l) = true).
    { rewrite Ll. destruct n as [|[|n]]; [lia|lia|]. change (fact (S (S n))) with (S (S n) * (S n * fact n)). rewrite !Nat.even_mul, (Nat.even_succ (S n)), <- Nat.negb_even.
      destruct (Nat.even (S n)); auto. }
    assert (Lz : length z = n). { apply (way_length _ _ _ n W Lr). eapply way_in; eauto. }
    exists (weave n true l), (ins n n z). pose proof (weave_way n _ _ _ W Lr true) as W2. rewrite Ev in W2. cbn [from] in W2.
    assert (R : ins n n (row_rounds n) = row_rounds (S n)). { rewrite ins_last, !rounds_seq, seq_S by auto. auto. }
    rewrite R in W2. splits; auto.
    + rewrite <- R. apply ins_end; auto.
    + rewrite weave_length, Ll. reflexivity.
    + intros x. rewrite in_weave. split.
      * intros (r & k & I & L & ->). apply Il in I as [V Lx]. apply valid_row_perm in V as [_ P]. rewrite Lx in P.
        assert (P' : Permutation (ins n k r) (seq 0 (S n))) by (rewrite ins_perm, P; apply Seqs).
        assert (L' : length (ins n k r) = S n) by (rewrite (Permutation_length P'), seq_length; auto). split; auto. apply valid_row_perm. rewrite L'. split; auto.
        intros E. rewrite E in L'. discriminate.
      * intros [V Lx]. assert (I : In n x) by (apply V; lia). apply in_split in I as (x1 & x2 & ->). exists (x1 ++ x2), (length x1).
        rewrite app_length in Lx. cbn [length] in Lx. splits; [|lia|].
        -- apply Il. assert (L' : length (x1 ++ x2) = n) by (rewrite app_length; lia). split; auto. apply valid_row_perm. rewrite L'. split.
           ++ intros E. rewrite E in L'. cbn in L'. lia.
           ++ apply valid_row_perm in V as [_ P]. rewrite app_length in P. cbn [length] in P. replace (length x1 + S (length x2)) with (S n) in P by lia.
              rewrite <- Seqs, <- Permutation_middle in P. apply Permutation_cons_inv in P. auto.
        -- unfold ins. rewrite firstn_app, firstn_all, Nat.sub_diag, firstn_O, app_nil_r, skipn_app, skipn_all, Nat.sub_diag. auto.
Qed.

Lemma adj_swap r r' : adj r r' -> exists p, row_swap r p (p + 1) = Ret r'.
Proof.
  intros (x & a & b & y & -> & ->). exists (length x). rewrite row_swap_ok by (rewrite app_length; cbn; lia).
  rewrite !app_nth2 by lia. replace (length x + 1 - length x) with 1 by lia. rewrite Nat.sub_diag. cbn [nth]. f_equal.
  induction x as [|c x IH]; [reflexivity|]. cbn [length app upd Nat.add]. f_equal. exact IH.
Qed.

Lemma adj_map g r r' : adj r r' -> adj (map g r) (map g r').
Proof. intros (x & a & b & y & -> & ->). exists (map g x), (g a), (g b), (map g y). rewrite !map_app. auto. Qed.

Lemma way_renamed g a l z : way a l z -> way (map g a) (map (map g) l) (map g z).
Proof. intros W. induction W; cbn [map]; [constructor|]. econstructor; [apply adj_map; eauto|auto]. Qed.

(** The extent from any row. *)
Lemma extent_from n a : 2 <= n -> vrow n a ->
  exists rows, length rows = fact n /\ Forall (vrow n) (a :: rows) /\ last rows [] = a /\ NoDup rows /\ (forall r, vrow n r -> In r rows) /\
    (forall i x y, nth_error (a :: rows) i = Some x -> nth_error (a :: rows) (i + 1) = Some y -> adj x y).
Proof.
  intros Hn Va. destruct (extent_exists n Hn) as (l & z & W & Az & Ll & Il).
  assert (E0 : rmul a (row_rounds n) = a) by (apply rmul_rounds_r; apply Va).
  set (g := fun x => nth x a 0). apply (way_renamed g) in W. apply (adj_map g) in Az. change (map g (row_rounds n)) with (rmul a (row_rounds n)) in *. rewrite E0 in *.
  pose proof (way_app _ _ _ _ _ _ W Az (way_one a)) as W2. destruct (way_nth _ _ _ W2) as (_ & _ & J).
  destruct l as [|r0 l]; [inversion W|]. cbn [map app] in *. assert (H0 : map g r0 = a) by (inversion W; auto). rewrite H0 in *.
  assert (Im : forall x, In x (map (map g) (r0 :: l)) <-> vrow n x).
  { intros x. rewrite in_map_iff. split.
    - intros (r & <- & I). apply Il in I. change (vrow n (rmul a r)). apply valid_rmul; auto.
    - intros V. exists (rmul (rinv a) x). split.
      + change (rmul a (rmul (rinv a) x) = x). rewrite <- (rmul_assoc_vrow n), (rmul_rinv_r n), (rmul_rounds_l_vrow n) by auto using valid_rinv. auto.
      + apply Il. apply valid_rmul; auto using valid_rinv. }
  cbn [map] in Im. rewrite H0 in Im.
  assert (I2 : forall x, In x (map (map g) l ++ [a]) <-> vrow n x).
  { intros x. rewrite <- Im, in_app_iff. cbn [In]. tauto. }
  assert (L2 : length (map (map g) l ++ [a]) = fact n) by (rewrite app_length, map_length; cbn [length] in *; lia).
  exists (map (map g) l ++ [a]). splits; auto.
  - constructor; auto. apply Forall_forall. intros x. apply I2.
  - apply last_last.
  - destruct (all_rows n) as (N & La & Ia); [lia|]. apply (NoDup_incl_NoDup N); [lia|]. intros x X. apply I2, Ia. auto.
  - intros r. apply I2.
Qed.
