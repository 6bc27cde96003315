(** Proofs about iterators and the adapters around them. *)
From Verif Require Import Base Bell Stage Row Utils SameStageVec Adapters Spec SpecVec SpecAdapters ListFacts
  RowFacts MulFacts GroupFacts SsvFacts.
Local Open Scope list_scope.

Section Like.
Context {X A : Type} (al : list question) (I : iter_ops X A).

Definition steps (P : X -> list A -> Prop) (s : X) (l : list A) : Prop :=
  (In Next al -> exists s', next I s = Ret (hd_error l, s') /\ P s' (tl l)) /\
  (In NextBack al -> exists s', next_back I s = Ret (last_item l, s') /\ P s' (removelast l)) /\
  (In SizeHint al -> size_hint I s = Ret (length l, Some (length l))) /\
  (In Len al -> len I s = Ret (length l)).

Lemma like_intro (P : X -> list A -> Prop) : (forall s l, P s l -> steps P s l) ->
  forall s l, P s l -> like_list al I s l.
Proof.
  intros H s l Hp qs. revert s l Hp. induction qs as [|q t IH]; intros s l Hp Hq; [reflexivity|].
  assert (Hi : In q al) by (apply Hq; left; auto).
  assert (Ht : incl t al) by (intros x Hx; apply Hq; right; auto).
  destruct (H s l Hp) as (H1 & H2 & H3 & H4). cbn [ask list_answers].
  destruct q.
  - destruct (H1 Hi) as (s' & E & Hp'). rewrite E. cbn [bind]. rewrite (IH s' _ Hp' Ht). reflexivity.
  - destruct (H2 Hi) as (s' & E & Hp'). rewrite E. cbn [bind]. rewrite (IH s' _ Hp' Ht). reflexivity.
  - rewrite (H3 Hi). cbn [bind]. rewrite (IH s l Hp Ht). reflexivity.
  - rewrite (H4 Hi). cbn [bind]. rewrite (IH s l Hp Ht). reflexivity.
Qed.

Lemma like_elim s l : like_list al I s l -> steps (like_list al I) s l.
Proof.
  intros H.
  assert (K : forall q qs, In q al -> incl qs al -> incl (q :: qs) al).
  { intros q qs Hq Hs x [<-|Hx]; auto. }
  assert (N : incl [] al) by (intros x []).
  unfold steps. splits; intros Hi.
  - pose proof (H [Next] (K _ _ Hi N)) as E. cbn in E. destruct (next I s) as [[o s']| | |] eqn:En; try discriminate.
    cbn in E. injection E as ->. exists s'. split; auto. intros qs Hq.
    pose proof (H (Next :: qs) (K _ _ Hi Hq)) as E. cbn [ask list_answers] in E. rewrite En in E. cbn [bind] in E.
    destruct (ask I s' qs); try discriminate. cbn in E. injection E as ->. reflexivity.
  - pose proof (H [NextBack] (K _ _ Hi N)) as E. cbn in E. destruct (next_back I s) as [[o s']| | |] eqn:En; try discriminate.
    cbn in E. injection E as ->. exists s'. split; auto. intros qs Hq.
    pose proof (H (NextBack :: qs) (K _ _ Hi Hq)) as E. cbn [ask list_answers] in E. rewrite En in E. cbn [bind] in E.
    destruct (ask I s' qs); try discriminate. cbn in E. injection E as ->. reflexivity.
  - pose proof (H [SizeHint] (K _ _ Hi N)) as E. cbn in E. destruct (size_hint I s) as [[o s']| | |] eqn:En; try discriminate.
    cbn in E. injection E as -> ->. reflexivity.
  - pose proof (H [Len] (K _ _ Hi N)) as E. cbn in E. destruct (len I s) as [o| | |] eqn:En; try discriminate.
    cbn in E. injection E as ->. reflexivity.
Qed.

Lemma like_next s l : In Next al -> like_list al I s l ->
  exists s', next I s = Ret (hd_error l, s') /\ like_list al I s' (tl l).
Proof. intros Hi H. exact (proj1 (like_elim s l H) Hi). Qed.
Lemma like_next_back s l : In NextBack al -> like_list al I s l ->
  exists s', next_back I s = Ret (last_item l, s') /\ like_list al I s' (removelast l).
Proof. intros Hi H. exact (proj1 (proj2 (like_elim s l H)) Hi). Qed.
Lemma like_size_hint s l : In SizeHint al -> like_list al I s l -> size_hint I s = Ret (length l, Some (length l)).
Proof. intros Hi H. exact (proj1 (proj2 (proj2 (like_elim s l H))) Hi). Qed.
Lemma like_len s l : In Len al -> like_list al I s l -> len I s = Ret (length l).
Proof. intros Hi H. exact (proj2 (proj2 (proj2 (like_elim s l H))) Hi). Qed.
End Like.

Lemma like_fewer {X A} al al' (I : iter_ops X A) s l : incl al' al -> like_list al I s l -> like_list al' I s l.
Proof. intros Hi H qs Hq. apply H. intros x Hx. auto. Qed.

(** ** Lists *)

Lemma last_item_app {A} (l : list A) x : last_item (l ++ [x]) = Some x.
Proof. unfold last_item. rewrite rev_app_distr. reflexivity. Qed.
Lemma last_item_map {A B} (f : A -> B) l : last_item (map f l) = option_map f (last_item l).
Proof. unfold last_item. rewrite <- map_rev. destruct (rev l); reflexivity. Qed.
Lemma removelast_map {A B} (f : A -> B) l : removelast (map f l) = map f (removelast l).
Proof. destruct l as [|x l _] using rev_ind; auto. rewrite map_app. cbn [map]. rewrite !removelast_last. reflexivity. Qed.
Lemma last_item_rev {A} (l : list A) : last_item (rev l) = hd_error l.
Proof. unfold last_item. rewrite rev_involutive. destruct l; auto. Qed.
Lemma hd_rev {A} (l : list A) : hd_error (rev l) = last_item l.
Proof. unfold last_item. destruct (rev l); auto. Qed.
Lemma removelast_rev {A} (l : list A) : removelast (rev l) = rev (tl l).
Proof. destruct l; auto. cbn [rev tl]. apply removelast_last. Qed.
Lemma tl_rev {A} (l : list A) : tl (rev l) = rev (removelast l).
Proof. destruct l as [|x l _] using rev_ind; auto. rewrite rev_app_distr, removelast_last. reflexivity. Qed.
Lemma indexed_app {A} c (l : list A) x : indexed c (l ++ [x]) = indexed c l ++ [(c + length l, x)].
Proof.
  unfold indexed. rewrite app_length. cbn [length]. revert c. induction l as [|y t IH]; intros c; cbn [length Nat.add app].
  - rewrite Nat.add_0_r. reflexivity.
  - cbn [seq combine app]. rewrite IH. cbn. do 2 f_equal. f_equal. f_equal. lia.
Qed.
Lemma indexed_length {A} c (l : list A) : length (indexed c l) = length l.
Proof. unfold indexed. rewrite combine_length, seq_length. lia. Qed.
Lemma last_item_firstn_rev {A} (l : list A) k : last_item (firstn (length l - k) l) = nth_error (rev l) k.
Proof.
  destruct (Nat.le_gt_cases (length l) k) as [L|L].
  - replace (length l - k) with 0 by lia. symmetry. apply nth_error_None. rewrite rev_length. auto.
  - unfold last_item. rewrite <- (firstn_skipn (length l - k) l) at 3. rewrite rev_app_distr.
    rewrite nth_error_app2 by (rewrite rev_length, skipn_length; lia).
    rewrite rev_length, skipn_length. replace (k - (length l - (length l - k))) with 0 by lia. reflexivity.
Qed.
Lemma combine_firstn_min {A B} (l : list A) (m : list B) :
  combine l m = combine (firstn (length m) l) (firstn (length l) m).
Proof.
  revert m. induction l as [|x l IH]; intros [|y m]; auto. cbn. f_equal. apply IH.
Qed.
Lemma combine_snoc {A B} (l : list A) (m : list B) x y : length l = length m ->
  combine (l ++ [x]) (m ++ [y]) = combine l m ++ [(x, y)].
Proof.
  revert m. induction l as [|a l IH]; intros [|b m] E; try discriminate; auto. cbn. f_equal. apply IH. cbn in E. lia.
Qed.
Lemma removelast_firstn_sub {A} (l : list A) n : n <= length l -> removelast (firstn n l) = firstn (n - 1) l.
Proof.
  intros L. destruct n as [|n]; auto. cbn [Nat.sub]. rewrite Nat.sub_0_r. apply removelast_firstn. lia.
Qed.

(** ** Rows *)

Lemma rows_like s rs : 0 < s -> Forall (vrow s) rs -> like_list sized rows_iter (SsvIter (concat rs) s) rs.
Proof.
  intros Hs Hf. apply (like_intro sized rows_iter (fun it rs => it = SsvIter (concat rs) s /\ Forall (vrow s) rs)); auto.
  clear rs Hf. intros it rs (-> & Hf). unfold steps. splits.
  - intros _. exists (SsvIter (concat (skipn 1 rs)) s). splits.
    + cbn [next rows_iter]. rewrite it_next_ok by auto. destruct rs; reflexivity.
    + destruct rs; reflexivity.
    + destruct Hf; cbn; auto.
  - intros _. exists (SsvIter (concat (removelast rs)) s). splits; auto.
    + cbn [next_back rows_iter]. rewrite it_next_back_ok by auto. unfold last_opt, last_item. destruct (rev rs); reflexivity.
    + apply Forall_removelast. auto.
  - intros [K|[K|[K|[]]]]; discriminate.
  - intros _. apply it_len_ok; auto.
Qed.

(** ** Adapters *)

Section Facts.
Context {X A : Type} (I : iter_ops X A).

Lemma rev_like al s l : (In Next al <-> In NextBack al) -> like_list al I s l -> like_list al (rev_iter I) s (rev l).
Proof.
  intros Hal H. apply (like_intro al (rev_iter I) (fun s m => like_list al I s (rev m))).
  2: { rewrite rev_involutive. auto. }
  clear s l H. intros s m H. unfold steps. splits; intros Hi; cbn [next next_back size_hint len rev_iter].
  - destruct (like_next_back al I s _ (proj1 Hal Hi) H) as (s' & E & K). exists s'.
    rewrite E, last_item_rev. split; auto. rewrite <- removelast_rev. auto.
  - destruct (like_next al I s _ (proj2 Hal Hi) H) as (s' & E & K). exists s'.
    rewrite E, hd_rev. split; auto. rewrite <- tl_rev. auto.
  - rewrite (like_size_hint al I s _ Hi H), rev_length. reflexivity.
  - rewrite (like_len al I s _ Hi H), rev_length. reflexivity.
Qed.

Lemma map_like {B} (f : A -> B) al s l : like_list al I s l -> like_list al (map_iter I f) s (map f l).
Proof.
  intros H. apply (like_intro al (map_iter I f) (fun s m => exists l, m = map f l /\ like_list al I s l)); eauto.
  clear s l H. intros s m (l & -> & H). unfold steps. splits; intros Hi; cbn [next next_back size_hint len map_iter].
  - destruct (like_next al I s _ Hi H) as (s' & E & K). exists s'. rewrite E. cbn [bind].
    split; [destruct l; reflexivity|]. exists (tl l). split; auto. destruct l; reflexivity.
  - destruct (like_next_back al I s _ Hi H) as (s' & E & K). exists s'. rewrite E. cbn [bind].
    rewrite last_item_map, removelast_map. eauto.
  - rewrite (like_size_hint al I s _ Hi H), map_length. reflexivity.
  - rewrite (like_len al I s _ Hi H), map_length. reflexivity.
Qed.

Lemma enumerate_like al s l c : (In NextBack al -> In Len al) -> like_list al I s l ->
  like_list al (enumerate_iter I) (s, c) (indexed c l).
Proof.
  intros Hal H.
  apply (like_intro al (enumerate_iter I) (fun st m => exists l, m = indexed (snd st) l /\ like_list al I (fst st) l)); eauto.
  clear s l c H. intros [s c] m (l & -> & H). cbn [fst snd] in *. unfold steps.
  splits; intros Hi; cbn [next next_back size_hint len enumerate_iter enumerate_next enumerate_next_back].
  - destruct (like_next al I s _ Hi H) as (s' & E & K). rewrite E. cbn [bind]. destruct l as [|x t]; cbn in K |- *.
    + exists (s', c). split; auto. exists []. auto.
    + exists (s', c + 1). split; auto. exists t. cbn. split; auto. unfold indexed. f_equal. f_equal. lia.
  - destruct (like_next_back al I s _ Hi H) as (s' & E & K). rewrite E. cbn [bind].
    destruct l as [|x l _] using rev_ind.
    + cbn. exists (s', c). split; auto. exists []. auto.
    + rewrite last_item_app in *. rewrite removelast_last in *. rewrite (like_len al I s' _ (Hal Hi) K). cbn [bind].
      rewrite indexed_app, last_item_app, removelast_last. exists (s', c). split; auto. exists l. auto.
  - cbn [fst]. rewrite (like_size_hint al I s _ Hi H), indexed_length. reflexivity.
  - cbn [fst]. rewrite (like_len al I s _ Hi H), indexed_length. reflexivity.
Qed.

Lemma nth_like al n : In Next al -> forall s l, like_list al I s l ->
  exists s', iter_nth I n s = Ret (nth_error l n, s') /\ like_list al I s' (skipn (S n) l).
Proof.
  intros Hi. induction n as [|n IH]; intros s l H; cbn [iter_nth].
  - destruct (like_next al I s _ Hi H) as (s' & E & K). exists s'. rewrite E. destruct l; auto.
  - destruct (like_next al I s _ Hi H) as (s' & E & K). rewrite E. cbn [bind]. destruct l as [|x t]; cbn in K |- *.
    + exists s'. auto.
    + apply IH. auto.
Qed.

Lemma nth_back_like al n : In NextBack al -> forall s l, like_list al I s l ->
  exists s', iter_nth_back I n s = Ret (nth_error (rev l) n, s') /\ like_list al I s' (firstn (length l - S n) l).
Proof.
  intros Hi. induction n as [|n IH]; intros s l H; cbn [iter_nth_back].
  - destruct (like_next_back al I s _ Hi H) as (s' & E & K). exists s'. rewrite E. unfold last_item. split; auto.
    rewrite <- removelast_firstn_sub by lia. rewrite firstn_all. auto.
  - destruct (like_next_back al I s _ Hi H) as (s' & E & K). rewrite E. cbn [bind].
    destruct l as [|x l _] using rev_ind.
    + cbn in K |- *. exists s'. auto.
    + rewrite last_item_app in *. rewrite removelast_last in *. destruct (IH s' l K) as (s2 & E2 & K2). exists s2.
      rewrite rev_app_distr. cbn [rev app nth_error]. split; auto. rewrite app_length. cbn [length].
      replace (length l + 1 - S (S n)) with (length l - S n) by lia. rewrite firstn_app.
      replace (length l - S n - length l) with 0 by lia. cbn. rewrite app_nil_r. auto.
Qed.

Lemma rposition_loop_like p al : In NextBack al -> forall fuel s l, length l < fuel -> like_list al I s l ->
  exists o, rposition_loop I fuel p (length l) s = Ret o /\
    match o with
    | Some i => exists x, nth_error l i = Some x /\ p x = true /\
        forall j y, i < j -> nth_error l j = Some y -> p y = false
    | None => Forall (fun x => p x = false) l
    end.
Proof.
  intros Hi. induction fuel as [|fuel IH]; intros s l L H; [lia|]. cbn [rposition_loop].
  destruct (like_next_back al I s _ Hi H) as (s' & E & K). rewrite E. cbn [bind].
  destruct l as [|x l _] using rev_ind.
  - cbn. exists None. auto.
  - rewrite last_item_app in *. rewrite removelast_last in *. rewrite app_length in *. cbn [length] in *.
    rewrite (proj2 (Nat.leb_le 1 _)) by lia. cbn [assert_ bind]. replace (length l + 1 - 1) with (length l) by lia.
    destruct (p x) eqn:Ep.
    + exists (Some (length l)). split; auto. exists x. splits; auto.
      * rewrite nth_error_app2, Nat.sub_diag by auto. reflexivity.
      * intros j y Hj Hy. exfalso. assert (j < length (l ++ [x])) by (apply nth_error_Some; congruence).
        rewrite app_length in *. cbn in *. lia.
    + destruct (IH s' l ltac:(lia) K) as (o & Eo & Ho). exists o. split; auto. destruct o as [i|].
      * destruct Ho as (y & Hy & Py & Hn). exists y. splits; auto.
        -- rewrite nth_error_app1; auto. apply nth_error_Some. congruence.
        -- intros j z Hj Hz. destruct (Nat.lt_ge_cases j (length l)).
           ++ rewrite nth_error_app1 in Hz by auto. eauto.
           ++ rewrite nth_error_app2 in Hz by auto. destruct (j - length l) as [|q]; cbn in Hz; [congruence|].
              destruct q; discriminate.
      * apply Forall_app. auto.
Qed.

Lemma take_like_forward al s l n : (forall q, In q al -> q = Next) -> like_list al I s l ->
  like_list al (take_iter I) (s, n) (firstn n l).
Proof.
  intros Hal H.
  apply (like_intro al (take_iter I) (fun st m => exists l, m = firstn (snd st) l /\ like_list al I (fst st) l)); eauto.
  clear s l n H. intros [s n] m (l & -> & H). cbn [fst snd] in *. unfold steps.
  splits; intros Hi; try (apply Hal in Hi; discriminate).
  cbn [next take_iter take_next]. destruct n as [|n].
  - exists (s, 0). cbn. split; auto. exists l; auto.
  - destruct (like_next al I s _ Hi H) as (s' & E & K). rewrite E. cbn [bind]. exists (s', n).
    destruct l; cbn in K |- *; split; auto; eauto. exists []. rewrite firstn_nil. auto.
Qed.

Lemma take_like s l n : like_list sized I s l -> like_list both_ends (take_iter I) (s, n) (firstn n l).
Proof.
  intros H.
  apply (like_intro both_ends (take_iter I) (fun st m => exists l, m = firstn (snd st) l /\ like_list sized I (fst st) l)); eauto.
  clear s l n H. intros [s n] m (l & -> & H). cbn [fst snd] in *.
  assert (I1 : In Next sized) by (cbn; auto). assert (I2 : In NextBack sized) by (cbn; auto).
  assert (I3 : In Len sized) by (cbn; auto). unfold steps.
  splits; intros Hi; try (exfalso; cbn in Hi; intuition discriminate); cbn [next next_back take_iter take_next take_next_back];
    (destruct n as [|n]; [exists (s, 0); cbn; split; auto; exists l; auto|]).
  - destruct (like_next sized I s _ I1 H) as (s' & E & K). rewrite E. cbn [bind]. exists (s', n).
    destruct l; cbn in K |- *; split; auto; eauto. exists []. rewrite firstn_nil. auto.
  - rewrite (like_len sized I s _ I3 H). cbn [bind].
    destruct (nth_back_like sized (length l - S n) I2 s l H) as (s' & E & K). rewrite E. cbn [bind].
    exists (s', n). split.
    + do 2 f_equal. rewrite <- last_item_firstn_rev. f_equal.
      destruct (Nat.le_gt_cases (S n) (length l)).
      * replace (length l - (length l - S n)) with (S n) by lia. reflexivity.
      * rewrite !firstn_all2 by lia. reflexivity.
    + cbn [fst snd]. eexists. split; [|exact K]. rewrite firstn_firstn.
      destruct (Nat.le_gt_cases (S n) (length l)).
      * rewrite removelast_firstn_sub by lia. f_equal. lia.
      * rewrite (firstn_all2 l) by lia. rewrite <- (firstn_all l) at 1. rewrite removelast_firstn_sub by lia. f_equal. lia.
Qed.

Lemma skip_next_like al s l n : In Next al -> like_list al I s l ->
  exists st, skip_next I (s, n) = Ret (hd_error (skipn n l), st) /\ exists l', tl (skipn n l) = skipn (snd st) l' /\
    like_list al I (fst st) l'.
Proof.
  intros Hi H. cbn [skip_next]. destruct n as [|n].
  - destruct (like_next al I s _ Hi H) as (s' & E & K). rewrite E. cbn [bind skipn]. exists (s', 0). split; auto.
    exists (tl l). auto.
  - destruct (nth_like al (S n) Hi s l H) as (s' & E & K). rewrite E. cbn [bind]. exists (s', 0). split.
    + do 2 f_equal. clear. revert n. induction l as [|x l IH]; intros n; auto.
      destruct n as [|n]; [destruct l; reflexivity|]. cbn [skipn nth_error]. apply (IH n).
    + eexists. split; [|exact K]. cbn [snd skipn]. clear. revert n. induction l as [|x l IH]; intros n; auto.
      destruct n as [|n]; [reflexivity|]. cbn [skipn]. rewrite (IH n). destruct l; reflexivity.
Qed.

Lemma skip_like_forward al s l n : (forall q, In q al -> q = Next) -> like_list al I s l ->
  like_list al (skip_iter I) (s, n) (skipn n l).
Proof.
  intros Hal H.
  apply (like_intro al (skip_iter I) (fun st m => exists l, m = skipn (snd st) l /\ like_list al I (fst st) l)); eauto.
  clear s l n H. intros [s n] m (l & -> & H). cbn [fst snd] in *. unfold steps.
  splits; intros Hi; try (apply Hal in Hi; discriminate).
  cbn [next skip_iter]. apply skip_next_like; auto.
Qed.

Lemma skip_like_exact s l n : like_list exact_size I s l -> like_list exact_size (skip_iter I) (s, n) (skipn n l).
Proof.
  intros H.
  apply (like_intro exact_size (skip_iter I) (fun st m => exists l, m = skipn (snd st) l /\ like_list exact_size I (fst st) l)); eauto.
  clear s l n H. intros [s n] m (l & -> & H). cbn [fst snd] in *.
  assert (I2 : In NextBack exact_size) by (cbn; auto). assert (I3 : In SizeHint exact_size) by (cbn; auto).
  assert (Z : skip_size_hint I (s, n) = Ret (length (skipn n l), Some (length (skipn n l)))).
  { cbn [skip_size_hint]. rewrite (like_size_hint exact_size I s _ I3 H). cbn [bind option_map]. rewrite skipn_length. reflexivity. }
  assert (D : default_len (skip_size_hint I) (s, n) = Ret (length (skipn n l))).
  { unfold default_len. rewrite Z. cbn [bind]. rewrite Nat.eqb_refl. reflexivity. }
  unfold steps. splits; intros Hi; cbn [next next_back size_hint len skip_iter]; auto.
  - apply skip_next_like; auto.
  - unfold skip_next_back. rewrite D. cbn [bind fst snd]. destruct (Nat.ltb_spec 0 (length (skipn n l))) as [L|L].
    + destruct (like_next_back exact_size I s _ I2 H) as (s' & E & K). rewrite E. cbn [bind]. exists (s', n).
      rewrite skipn_length in L. destruct l as [|x l _] using rev_ind; [cbn in L; lia|].
      rewrite app_length in L. cbn in L. rewrite skipn_app. replace (n - length l) with 0 by lia. cbn [skipn].
      rewrite !last_item_app, ?removelast_last in *. split; auto. exists l. auto.
    + exists (s, n). destruct (skipn n l) eqn:E; [|cbn in L; lia]. split; auto. exists l. auto.
Qed.
End Facts.

Section ZipFacts.
Context {X A Y B : Type} (I : iter_ops X A) (J : iter_ops Y B).

Lemma drop_back_like {U V} (K : iter_ops U V) al n : In NextBack al -> forall s l, like_list al K s l ->
  exists s', drop_back K n s = Ret s' /\ like_list al K s' (firstn (length l - n) l).
Proof.
  intros Hi. induction n as [|n IH]; intros s l H; cbn [drop_back].
  - exists s. rewrite Nat.sub_0_r, firstn_all. auto.
  - destruct (like_next_back al K s _ Hi H) as (s' & E & K'). rewrite E. cbn [bind].
    destruct (IH s' _ K') as (s2 & E2 & K2). exists s2. split; auto.
    destruct l as [|x l _] using rev_ind; [exact K2|]. rewrite removelast_last in K2. rewrite app_length. cbn [length].
    replace (length l + 1 - S n) with (length l - n) by lia. rewrite firstn_app.
    replace (length l - n - length l) with 0 by lia. cbn. rewrite app_nil_r. auto.
Qed.

Lemma zip_next_like al s t l m : In Next al -> like_list al I s l -> like_list al J t m ->
  exists st, zip_next I J (s, t) = Ret (hd_error (combine l m), st) /\
    exists l' m', tl (combine l m) = combine l' m' /\ like_list al I (fst st) l' /\ like_list al J (snd st) m'.
Proof.
  intros Hi H H'. cbn [zip_next]. destruct (like_next al I s _ Hi H) as (s' & E & K). rewrite E. cbn [bind].
  destruct l as [|x l]; cbn [hd_error].
  - exists (s', t). split; auto. exists [], m. auto.
  - destruct (like_next al J t _ Hi H') as (t' & E' & K'). rewrite E'. cbn [bind]. destruct m as [|y m]; cbn [hd_error].
    + exists (s', t'). split; auto. cbn in K, K'. exists l, []. cbn. destruct l; auto.
    + exists (s', t'). split; auto. exists l, m. auto.
Qed.

Lemma zip_like_forward al s t l m : (forall q, In q al -> q = Next) -> like_list al I s l -> like_list al J t m ->
  like_list al (zip_iter I J) (s, t) (combine l m).
Proof.
  intros Hal H H'.
  apply (like_intro al (zip_iter I J) (fun st c => exists l m, c = combine l m /\ like_list al I (fst st) l /\
    like_list al J (snd st) m)); [|exists l, m; auto].
  clear s t l m H H'. intros [s t] c (l & m & -> & H & H'). cbn [fst snd] in *. unfold steps.
  splits; intros Hi; try (apply Hal in Hi; discriminate). cbn [next zip_iter]. apply zip_next_like; auto.
Qed.

Lemma zip_like s t l m : like_list sized I s l -> like_list sized J t m ->
  like_list both_ends (zip_iter I J) (s, t) (combine l m).
Proof.
  intros H H'.
  apply (like_intro both_ends (zip_iter I J) (fun st c => exists l m, c = combine l m /\ like_list sized I (fst st) l /\
    like_list sized J (snd st) m)); [|exists l, m; auto].
  clear s t l m H H'. intros [s t] c (l & m & -> & H & H'). cbn [fst snd] in *.
  assert (I1 : In Next sized) by (cbn; auto). assert (I2 : In NextBack sized) by (cbn; auto).
  assert (I3 : In Len sized) by (cbn; auto). unfold steps.
  splits; intros Hi; try (exfalso; cbn in Hi; intuition discriminate); cbn [next next_back zip_iter].
  - apply zip_next_like; auto.
  - cbn [zip_next_back]. rewrite (like_len sized I s _ I3 H), (like_len sized J t _ I3 H'). cbn [bind].
    destruct (drop_back_like I sized (length l - length m) I2 s l H) as (s1 & E1 & K1).
    destruct (drop_back_like J sized (length m - length l) I2 t m H') as (t1 & E1' & K1').
    rewrite E1, E1'. cbn [bind].
    assert (Q : firstn (length l - (length l - length m)) l = firstn (length m) l).
    { destruct (Nat.le_gt_cases (length m) (length l)); [f_equal; lia|rewrite !firstn_all2 by lia; auto]. }
    assert (Q' : firstn (length m - (length m - length l)) m = firstn (length l) m).
    { destruct (Nat.le_gt_cases (length l) (length m)); [f_equal; lia|rewrite !firstn_all2 by lia; auto]. }
    rewrite Q in K1. rewrite Q' in K1'. rewrite combine_firstn_min.
    assert (L : length (firstn (length m) l) = length (firstn (length l) m)) by (rewrite !firstn_length; lia).
    revert K1 K1' L. generalize (firstn (length m) l) (firstn (length l) m). clear. intros l m K K' L.
    assert (I2 : In NextBack sized) by (cbn; auto).
    destruct (like_next_back sized I s1 _ I2 K) as (s2 & E & K2). destruct (like_next_back sized J t1 _ I2 K') as (t2 & E' & K2').
    rewrite E, E'. cbn [bind]. exists (s2, t2).
    destruct l as [|x l _] using rev_ind; destruct m as [|y m _] using rev_ind;
      try (rewrite ?app_length in L; cbn in L; lia).
    + cbn. split; auto. exists [], []. auto.
    + rewrite !last_item_app, !removelast_last in *. rewrite !app_length in L. cbn in L. rewrite combine_snoc by lia.
      rewrite last_item_app, removelast_last. split; auto. exists l, m. auto.
Qed.

End ZipFacts.
