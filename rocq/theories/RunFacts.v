(** Lemmas about the lists of patterns for runs. *)
From Verif Require Import Base Bell Spec Stage Row Utils SameStageVec Block PlaceNot Mask Music SpecMask ListFacts BellFacts RowFacts MulFacts GroupFacts
  SsvFacts BlockFacts ClassFacts MusicFacts MusicFacts2 SymFacts SpecRuns.
Local Open Scope list_scope.

Definition segs (s len : nat) : list (list nat) := flat_map (fun i => [seq i len; rev (seq i len)]) (seq 0 (s - len + 1)).

Lemma segs_map s len (g : list nat -> list regex_elem) :
  flat_map (fun i => [g (seq i len); g (rev (seq i len))]) (seq 0 (s - len + 1)) = map g (segs s len).
Proof. unfold segs. induction (seq 0 (s - len + 1)) as [|i l IH]; cbn; auto. rewrite IH. reflexivity. Qed.

Lemma range0 n : range 0 n = seq 0 n. Proof. unfold range. rewrite Nat.sub_0_r. reflexivity. Qed.

Lemma runs_front_segs s len : len <= s -> runs_front s len = map (fun g => map RBell g ++ [RGlob]) (segs s len).
Proof.
  intros L. unfold runs_front. destruct (Nat.ltb_spec s len); [lia|]. rewrite <- segs_map, range0. apply flat_map_ext.
  intros i. rewrite run_iterator_seq, rev_map_bells. reflexivity.
Qed.
Lemma runs_back_segs s len : len <= s -> runs_back s len = map (fun g => RGlob :: map RBell g) (segs s len).
Proof.
  intros L. unfold runs_back. destruct (Nat.ltb_spec s len); [lia|]. rewrite <- segs_map, range0. apply flat_map_ext.
  intros i. rewrite run_iterator_seq, rev_map_bells. reflexivity.
Qed.
Lemma all_runs_segs s len : len <= s -> all_runs s len = map (fun g => RGlob :: map RBell g ++ [RGlob]) (segs s len).
Proof.
  intros L. unfold all_runs. destruct (Nat.ltb_spec s len); [lia|]. rewrite <- segs_map, range0. apply flat_map_ext.
  intros i. rewrite run_iterator_seq, rev_map_bells. reflexivity.
Qed.

Lemma In_segs s len g : len <= s -> (In g (segs s len) <-> exists i, i + len <= s /\ (g = seq i len \/ g = rev (seq i len))).
Proof.
  intros L. unfold segs. rewrite in_flat_map. split.
  - intros (i & Hi & H). apply in_seq in Hi. exists i. split; [lia|]. cbn in H. intuition auto.
  - intros (i & Hi & H). exists i. split; [apply in_seq; lia|]. cbn. intuition auto.
Qed.

Lemma segs_length s len g : In g (segs s len) -> length g = len.
Proof.
  unfold segs. rewrite in_flat_map. intros (i & _ & H). cbn in H. destruct H as [<- |[<- |[]]]; rewrite ?rev_length; apply seq_length.
Qed.

Lemma segs_NoDup s len : 2 <= len -> NoDup (segs s len).
Proof.
  intros L. unfold segs. generalize (s - len + 1). intros n. generalize 0. induction n as [|n IH]; intros k; cbn [seq flat_map]; [constructor|].
  assert (D : forall g, g = seq k len \/ g = rev (seq k len) -> ~ In g (flat_map (fun i => [seq i len; rev (seq i len)]) (seq (S k) n))).
  { intros g Hg H. apply in_flat_map in H as (i & Hi & H). apply in_seq in Hi.
    assert (In k g) by (destruct Hg as [-> | ->]; [|apply -> in_rev]; apply in_seq; lia).
    cbn in H. destruct H as [<- |[<- |[]]]; [|apply in_rev in H0]; apply in_seq in H0; lia. }
  cbn [app]. constructor; [|constructor; auto].
  cbn [In]. intros [E|H]; [|apply (D (seq k len)); auto].
  apply (f_equal (fun l => nth_error l 0)) in E. destruct len as [|[|len]]; [lia|lia|].
  rewrite nth_error_rev_seq in E by lia. cbn in E. injection E. lia.
Qed.

Lemma single_list {A} (l : list A) a : NoDup l -> (forall x, In x l -> x = a) -> l = [] \/ l = [a].
Proof.
  intros N H. destruct l as [|x [|y l]]; auto.
  - right. rewrite (H x); cbn; auto.
  - exfalso. inversion N as [|? ? Nx]; subst. apply Nx. rewrite (H x), (H y); cbn; auto.
Qed.

Lemma cut_at {A} (r pre g post : list A) : r = pre ++ g ++ post -> g = firstn (length g) (skipn (length pre) r).
Proof. intros ->. rewrite skipn_app, skipn_all, Nat.sub_diag. cbn [app skipn]. rewrite firstn_app, firstn_all, Nat.sub_diag. cbn. rewrite app_nil_r. reflexivity. Qed.

Lemma matching_map (g : list nat -> list regex_elem) l r :
  length (matching (map g l) r) = length (filter (fun x => match regex_matches (g x) r with Ret true => true | _ => false end) l).
Proof. apply filter_map_len. Qed.

Lemma matched_iff es r : nf es -> NoDup r ->
  (match regex_matches es r with Ret true => true | _ => false end = true <-> described es r).
Proof.
  intros H N. destruct (regex_matches_ok es r H N) as (v & E & D). rewrite E, <- D. destruct v; split; congruence.
Qed.

Lemma run_seg r p len : valid_row r -> p + len <= length r ->
  (run_at r p len <-> exists g pre post, In g (segs (length r) len) /\ length pre = p /\ r = pre ++ g ++ post).
Proof.
  intros V L. rewrite run_segment by auto. split.
  - intros (i & pre & post & Li & Lp & [E|E]).
    + exists (seq i len), pre, post. splits; auto. apply In_segs; [lia|]. eauto.
    + exists (rev (seq i len)), pre, post. splits; auto. apply In_segs; [lia|]. eauto.
  - intros (g & pre & post & Hg & Lp & E). apply In_segs in Hg as (i & Li & Hg); [|lia]. exists i, pre, post. splits; auto.
    destruct Hg as [-> | ->]; auto.
Qed.

Lemma run_lt r p len : run_at r p len -> p + len <= length r.
Proof. intros [[H _]|[H _]]; auto. Qed.
