(** Facts for texts which differ only in characters without a meaning. *)
From Verif Require Import Base Bell Stage Spec ListFacts BellFacts Row Utils SameStageVec Block PlaceNot SpecPn PnFacts SpecAlike.
Local Open Scope list_scope.

Definition zero_err (e : pn_block_error) : pn_block_error :=
  match e with PlusNotAtBlockStart _ => PlusNotAtBlockStart 0 | PnError _ _ e => PnError 0 0 e | EmptyBlock => EmptyBlock end.

Definition zero {A} (x : exec (result A pn_block_error)) : exec (result A pn_block_error) :=
  match x with Ret (Err e) => Ret (Err (zero_err e)) | o => o end.

(** The loop on meanings alone *)
Fixpoint mloop (s : stage) (ms : list char_meaning) (places : list nat) (buf : list place_not)
  : exec (result (list place_not) pn_block_error) :=
  match ms with
  | [] => Ret (Ok buf)
  | m :: t =>
      match m with
      | CmBell b => mloop s t (places ++ [b]) buf
      | CmAsym => Ret (Err (PlusNotAtBlockStart 0))
      | CmUnknown => mloop s t places buf
      | CmCross | CmDelimiter =>
          flushed <- (match places with
                      | [] => Ret (Ok buf)
                      | _ :: _ =>
                          r <- from_sorted_slice (sort_unstable places) s;;
                          match r with
                          | Err e => Ret (Err (PnError 0 0 e))
                          | Ok new_pn => Ret (Ok (buf ++ [new_pn]))
                          end
                      end);;
          match flushed with
          | Err e => Ret (Err e)
          | Ok buf' =>
              if is_cm_cross m then
                match pn_cross s with
                | None => Ret (Err (PnError 0 0 (OddStageCross s)))
                | Some cross => mloop s t [] (buf' ++ [cross])
                end
              else mloop s t [] buf'
          end
      end
  end.

Lemma mloop_ok off s toks : forall places start buf,
  zero (asym_loop off s toks places start buf) = mloop s (map snd toks) places buf.
Proof.
  induction toks as [|(i, m) toks IH]; intros places start buf; [reflexivity|].
  cbn [asym_loop map snd mloop]. destruct m; auto.
  - destruct places as [|p ps]; cbn [bind]; [cbn [is_cm_cross]; auto|].
    destruct (from_sorted_slice _ s) as [[pn|e]| | |]; cbn [bind zero zero_err]; auto. cbn [is_cm_cross]. auto.
  - destruct places as [|p ps]; cbn [bind]; [cbn [is_cm_cross]; destruct (pn_cross s); cbn [zero zero_err]; auto|].
    destruct (from_sorted_slice _ s) as [[pn|e]| | |]; cbn [bind zero zero_err]; auto.
    cbn [is_cm_cross]. destruct (pn_cross s); cbn [zero zero_err]; auto.
Qed.

Fixpoint mskip (ms : list char_meaning) : list char_meaning :=
  match ms with CmDelimiter :: t | CmUnknown :: t => mskip t | _ => ms end.

Lemma mskip_ok toks : map snd (skip_meaningless toks) = mskip (map snd toks).
Proof. induction toks as [|(i, m) toks IH]; auto. cbn [skip_meaningless map snd mskip]. destruct m; auto. Qed.

Definition mpart (s : stage) (ms : list char_meaning) : exec (result (bool * list place_not) pn_block_error) :=
  let ts := mskip ms in
  let '(asym, ts') := match ts with CmAsym :: r => (true, r) | _ => (false, ts) end in
  r <- mloop s ts' [] [];;
  match r with Err e => Ret (Err e) | Ok buf => Ret (Ok (asym, buf)) end.

Lemma map_snd_indices i p : map snd (char_indices_from i p) = p.
Proof. revert i. induction p as [|c p IH]; intros i; cbn [char_indices_from map snd]; f_equal; auto. Qed.

Lemma map_snd_toks p off : map snd (tok_indices p off) = map char_meaning_of p ++ [CmDelimiter].
Proof.
  unfold tok_indices. rewrite map_app, map_map. cbn [map snd]. f_equal.
  rewrite <- (map_snd_indices 0 p) at 2. rewrite map_map. apply map_ext. intros (i, c). reflexivity.
Qed.

Lemma mpart_ok p off s : zero (parse_asym_block p off s []) = mpart s (map char_meaning_of p ++ [CmDelimiter]).
Proof.
  unfold parse_asym_block, mpart. cbn [assert_ bind]. rewrite <- (map_snd_toks p off), <- mskip_ok.
  destruct (skip_meaningless (tok_indices p off)) as [|(i, m) toks].
  - reflexivity.
  - assert (X : forall (b : bool) toks, zero (r <- asym_loop off s toks [] 0 [];;
         match r with Ok buf' => Ret (Ok (b, buf')) | Err e => Ret (Err e) end) =
       (r <- mloop s (map snd toks) [] [];; match r with Ok buf => Ret (Ok (b, buf)) | Err e => Ret (Err e) end)).
    { clear. intros b toks. rewrite <- (mloop_ok off s toks [] 0 []).
      destruct (asym_loop off s toks [] 0 []) as [[l|e]| | |]; reflexivity. }
    destruct m; cbn [map snd tl]; apply X.
Qed.

(** ** In context *)

Lemma mloop_ctx s x m1 m2 : (forall places buf, mloop s m1 places buf = mloop s m2 places buf) ->
  forall places buf, mloop s (x ++ m1) places buf = mloop s (x ++ m2) places buf.
Proof.
  intros H. induction x as [|k x IH]; intros places buf; cbn [app]; auto. cbn [mloop]. destruct k; auto.
  - destruct (match places with [] => _ | _ => _ end) as [[b|e]| | |]; cbn [bind]; auto.
    cbn [is_cm_cross]. auto.
  - destruct (match places with [] => _ | _ => _ end) as [[b|e]| | |]; cbn [bind]; auto.
    cbn [is_cm_cross]. destruct (pn_cross s); auto.
Qed.

Lemma mskip_app x : (forall m, mskip (x ++ m) = mskip m) \/
  exists k x', (forall m, mskip (x ++ m) = k :: x' ++ m) /\ k <> CmDelimiter /\ k <> CmUnknown.
Proof.
  induction x as [|k x IH]; [left; auto|]. destruct k; cbn [app mskip]; auto; right; eexists; eexists;
    (split; [intros; reflexivity|split; discriminate]).
Qed.

Lemma mpart_ctx s x m1 m2 : (forall places buf, mloop s m1 places buf = mloop s m2 places buf) -> mpart s m1 = mpart s m2 ->
  mpart s (x ++ m1) = mpart s (x ++ m2).
Proof.
  intros L P. destruct (mskip_app x) as [E|(k & x' & E & N1 & N2)]; unfold mpart in *; rewrite !E; auto.
  destruct k; try (cbn [app]; rewrite (mloop_ctx s (_ :: x') m1 m2 L); reflexivity).
  all: try (rewrite (mloop_ctx s x' m1 m2 L); reflexivity).
  all: rewrite !app_comm_cons, (mloop_ctx s (_ :: x') m1 m2 L); reflexivity.
Qed.

Lemma mpart_unknown s x y : mpart s (x ++ CmUnknown :: y) = mpart s (x ++ y).
Proof. apply mpart_ctx; reflexivity. Qed.

Lemma mpart_before s x y k : k = CmDelimiter \/ k = CmCross -> mpart s (x ++ CmDelimiter :: k :: y) = mpart s (x ++ k :: y).
Proof.
  intros H. apply mpart_ctx; [|destruct H as [-> | ->]; reflexivity]. intros places buf. cbn [mloop is_cm_cross].
  destruct H as [-> | ->]; (destruct (match places with [] => _ | _ => _ end) as [[b|e]| | |]; reflexivity).
Qed.

Lemma mpart_first s y : mpart s (CmDelimiter :: y) = mpart s y.
Proof. reflexivity. Qed.

Lemma mpart_after s x y k : k = CmDelimiter \/ k = CmCross \/ k = CmAsym -> mpart s (x ++ k :: CmDelimiter :: y) = mpart s (x ++ k :: y).
Proof.
  intros H. assert (L : forall places buf, mloop s (k :: CmDelimiter :: y) places buf = mloop s (k :: y) places buf).
  { intros places buf. destruct H as [-> |[-> | ->]]; cbn [mloop is_cm_cross]; auto;
      (destruct (match places with [] => _ | _ => _ end) as [[b|e]| | |]; cbn [bind]; auto). }
  apply mpart_ctx; auto. unfold mpart. destruct H as [-> |[-> | ->]]; cbn [mskip]; auto.
Qed.

(** ** Parts *)

Fixpoint mparts (single : bool) (s : stage) (pieces : list str) (pns : list place_not)
  : exec (result (list place_not) pn_block_error) :=
  match pieces with
  | [] => Ret (Ok pns)
  | p :: t =>
      r <- mpart s (map char_meaning_of p ++ [CmDelimiter]);;
      match r with
      | Err e => Ret (Err e)
      | Ok (asym, buf) =>
          if single || asym then mparts single s t (pns ++ buf) else mparts single s t (pns ++ buf ++ skipn 1 (rev buf))
      end
  end.

Lemma mparts_ok single s pieces : forall pns, zero (pnb_parse_loop single s pieces pns []) = mparts single s (map snd pieces) pns.
Proof.
  induction pieces as [|(off, p) pieces IH]; intros pns; [reflexivity|]. cbn [pnb_parse_loop map snd mparts].
  rewrite <- (mpart_ok p off s). destruct (parse_asym_block p off s []) as [[[asym buf]|e]| | |]; cbn [zero bind]; auto.
  destruct (single || asym); auto.
Qed.

Definition pieces_from (cur t : str) : list str := map snd (split_comma_from 0 cur t).

Lemma pieces_off off cur t : map snd (split_comma_from off cur t) = pieces_from cur t.
Proof.
  unfold pieces_from. generalize 0 at 1. revert off cur. induction t as [|c t IH]; intros off cur off'; cbn [split_comma_from]; auto.
  destruct (c =? 44)%N; auto. cbn [map snd]. f_equal. apply IH.
Qed.

Lemma pieces_cons cur c t : pieces_from cur (c :: t) = if (c =? 44)%N then cur :: pieces_from [] t else pieces_from (cur ++ [c]) t.
Proof. unfold pieces_from at 1. cbn [split_comma_from]. destruct (c =? 44)%N; [cbn [map snd]; rewrite pieces_off|]; reflexivity. Qed.

Lemma pieces_mid m : ~ In comma m -> forall cur b, pieces_from cur (m ++ b) = pieces_from (cur ++ m) b.
Proof.
  induction m as [|c m IH]; intros H cur b; cbn [app]; [rewrite app_nil_r; auto|]. rewrite pieces_cons.
  destruct (N.eqb_spec c 44) as [->|N]; [exfalso; apply H; left; auto|]. rewrite IH, <- app_assoc; auto. intros X. apply H. right; auto.
Qed.

Lemma pieces_rest b : exists fb pb, forall cur, pieces_from cur b = (cur ++ fb) :: pb.
Proof.
  induction b as [|c b (fb & pb & IH)].
  - exists [], []. intros cur. unfold pieces_from. cbn. rewrite app_nil_r. reflexivity.
  - destruct (N.eqb_spec c 44) as [->|N].
    + exists [], (pieces_from [] b). intros cur. rewrite pieces_cons, app_nil_r. reflexivity.
    + exists (c :: fb), pb. intros cur. rewrite pieces_cons, (proj2 (N.eqb_neq _ _) N), IH, <- app_assoc. reflexivity.
Qed.

Lemma pieces_begin a : forall cur, exists pa la, forall b, pieces_from cur (a ++ b) = pa ++ pieces_from la b.
Proof.
  induction a as [|c a IH]; intros cur; [exists [], cur; auto|].
  destruct (N.eqb_spec c 44) as [->|N].
  - destruct (IH []) as (pa & la & E). exists (cur :: pa), la. intros b. cbn [app]. rewrite pieces_cons, E. reflexivity.
  - destruct (IH (cur ++ [c])) as (pa & la & E). exists pa, la. intros b. cbn [app].
    rewrite pieces_cons, (proj2 (N.eqb_neq _ _) N), E. reflexivity.
Qed.

Lemma mparts_ctx single s pa p p' pb : mpart s (map char_meaning_of p ++ [CmDelimiter]) = mpart s (map char_meaning_of p' ++ [CmDelimiter]) ->
  forall pns, mparts single s (pa ++ p :: pb) pns = mparts single s (pa ++ p' :: pb) pns.
Proof.
  intros E. induction pa as [|q pa IH]; intros pns; cbn [app mparts].
  - rewrite E. reflexivity.
  - destruct (mpart s (map char_meaning_of q ++ _)) as [[[asym buf]|e]| | |]; cbn [bind]; auto. destruct (single || asym); apply IH.
Qed.

(** The result of parsing, without positions *)
Definition mblock (t : str) (s : stage) : exec (result (list place_not) pn_block_error) :=
  r <- mparts (negb (existsb (fun c => (c =? 44)%N) t)) s (pieces_from [] t) [];;
  match r with Err e => Ret (Err e) | Ok [] => Ret (Err EmptyBlock) | Ok pns => Ret (Ok pns) end.

Lemma mblock_ok t s : zero (pn_block_parse t s) = mblock t s.
Proof.
  unfold pn_block_parse, mblock. unfold split_comma. fold (pieces_from [] t). unfold pieces_from. rewrite <- mparts_ok.
  destruct (pnb_parse_loop _ s _ [] []) as [[[|pn l]|e]| | |]; reflexivity.
Qed.

Lemma no_comma_exists m m' a b : ~ In comma m -> ~ In comma m' ->
  existsb (fun c => (c =? 44)%N) (a ++ m ++ b) = existsb (fun c => (c =? 44)%N) (a ++ m' ++ b).
Proof.
  intros H H'. rewrite !existsb_app. f_equal. f_equal.
  assert (X : forall m, ~ In comma m -> existsb (fun c => (c =? 44)%N) m = false).
  { intros n Hn. apply not_true_is_false. intros E. apply existsb_exists in E as (c & Hc & E). apply N.eqb_eq in E. subst c. auto. }
  rewrite !X; auto.
Qed.

Lemma mblock_mid s a m m' b : ~ In comma m -> ~ In comma m' ->
  (forall pa la fb pb, (forall b0, pieces_from [] (a ++ b0) = pa ++ pieces_from la b0) ->
     (forall cur, pieces_from cur b = (cur ++ fb) :: pb) ->
     mpart s (map char_meaning_of (la ++ m ++ fb) ++ [CmDelimiter]) = mpart s (map char_meaning_of (la ++ m' ++ fb) ++ [CmDelimiter])) ->
  mblock (a ++ m ++ b) s = mblock (a ++ m' ++ b) s.
Proof.
  intros Hm Hm' H. unfold mblock. rewrite (no_comma_exists m m' a b Hm Hm').
  destruct (pieces_begin a []) as (pa & la & Ea). destruct (pieces_rest b) as (fb & pb & Eb).
  rewrite !Ea, !(pieces_mid _ Hm), !(pieces_mid _ Hm'), !Eb. rewrite <- !app_assoc.
  rewrite (mparts_ctx _ s pa (la ++ m ++ fb) (la ++ m' ++ fb) pb (H pa la fb pb Ea Eb)). reflexivity.
Qed.

Lemma meaning_ignored c : is_ignored_char c -> char_meaning_of c = CmUnknown.
Proof.
  intros (B & C & D & P). unfold char_meaning_of. destruct (bell_from_name c) as [b|] eqn:E; [exfalso; apply B; unfold is_bell_char; congruence|].
  destruct (N.eqb_spec c 43) as [->|_]; [exfalso; apply P; reflexivity|].
  destruct (N.eqb_spec c 32) as [->|_]; [exfalso; apply D; left; reflexivity|].
  destruct (N.eqb_spec c 46) as [->|_]; [exfalso; apply D; right; reflexivity|].
  destruct (N.eqb_spec c 120) as [->|_]; [exfalso; apply C; left; reflexivity|].
  destruct (N.eqb_spec c 88) as [->|_]; [exfalso; apply C; right; left; reflexivity|].
  destruct (N.eqb_spec c 45) as [->|_]; [exfalso; apply C; right; right; reflexivity|]. reflexivity.
Qed.

Lemma meaning_cross c : is_cross_char c -> char_meaning_of c = CmCross /\ c <> comma.
Proof. intros [E|[E|E]]; injection E as ->; split; (reflexivity || discriminate). Qed.
Lemma meaning_delimiter c : is_delimiter_char c -> char_meaning_of c = CmDelimiter /\ c <> comma.
Proof. intros [E|E]; injection E as ->; split; (reflexivity || discriminate). Qed.
Lemma meaning_plus c : is_plus_char c -> char_meaning_of c = CmAsym /\ c <> comma.
Proof. intros E; injection E as ->; split; (reflexivity || discriminate). Qed.

Lemma rest_of b fb pb : (forall cur, pieces_from cur b = (cur ++ fb) :: pb) ->
  (b = [] -> fb = []) /\ (forall c b', b = c :: b' -> (c = comma -> fb = []) /\ (c <> comma -> exists fb', fb = c :: fb')).
Proof.
  intros H. split.
  - intros ->. specialize (H []). cbn in H. injection H as <- _. reflexivity.
  - intros c b' ->. split.
    + intros ->. specialize (H []). rewrite pieces_cons in H. cbn in H. injection H as <- _. reflexivity.
    + intros N. specialize (H []). rewrite pieces_cons, (proj2 (N.eqb_neq c 44) N) in H.
      destruct (pieces_rest b') as (fb' & pb' & E). rewrite E in H. injection H as <- _. exists fb'. reflexivity.
Qed.

Lemma begin_of a pa la : (forall b0, pieces_from [] (a ++ b0) = pa ++ pieces_from la b0) ->
  (a = [] -> la = []) /\ (forall a' c, a = a' ++ [c] -> (c = comma -> la = []) /\ (c <> comma -> exists la', la = la' ++ [c])).
Proof.
  intros H. assert (U : forall pa' la', pieces_from [] (a ++ []) = pa' ++ [la'] -> la = la').
  { intros pa' la' E. rewrite H in E. apply (app_inj_tail pa pa' la la') in E. tauto. }
  split.
  - intros ->. apply (U [] []). reflexivity.
  - intros a' c ->. destruct (pieces_begin a' []) as (pa' & la' & E). rewrite <- app_assoc in U. rewrite E in U. cbn [app] in U.
    rewrite pieces_cons in U. split.
    + intros ->. apply (U (pa' ++ [la']) []). rewrite <- app_assoc. reflexivity.
    + intros N. rewrite (proj2 (N.eqb_neq c 44) N) in U. exists la'. apply (U pa' (la' ++ [c])). reflexivity.
Qed.

Lemma one_char (c : N) : c <> comma -> ~ In comma [c].
Proof. intros H [E|[]]. congruence. Qed.

Lemma alike_mblock t t' s : alike t t' -> mblock t s = mblock t' s.
Proof.
  induction 1 as [t|t t' _ IH|t t' t'' _ IH1 _ IH2|a c b I N|a c c' b C C'|a c c' b D D'|a d b D H|a d b D H]; auto; try congruence.
  - change (a ++ c :: b) with (a ++ [c] ++ b). change (a ++ b) with (a ++ [] ++ b). apply mblock_mid; auto using one_char.
    intros pa la fb pb _ _. cbn [app]. rewrite !map_app. cbn [map]. rewrite (meaning_ignored c I), <- !app_assoc. apply mpart_unknown.
  - apply meaning_cross in C as [C N], C' as [C' N'].
    change (a ++ c :: b) with (a ++ [c] ++ b). change (a ++ c' :: b) with (a ++ [c'] ++ b). apply mblock_mid; auto using one_char.
    intros pa la fb pb _ _. rewrite !map_app. cbn [map]. rewrite C, C'. reflexivity.
  - apply meaning_delimiter in D as [D N], D' as [D' N'].
    change (a ++ c :: b) with (a ++ [c] ++ b). change (a ++ c' :: b) with (a ++ [c'] ++ b). apply mblock_mid; auto using one_char.
    intros pa la fb pb _ _. rewrite !map_app. cbn [map]. rewrite D, D'. reflexivity.
  - apply meaning_delimiter in D as [D N].
    change (a ++ d :: b) with (a ++ [d] ++ b). change (a ++ b) with (a ++ [] ++ b). apply mblock_mid; auto using one_char.
    intros pa la fb pb _ Eb. apply rest_of in Eb as [Eb1 Eb2]. cbn [app]. rewrite !map_app. cbn [map]. rewrite D, <- !app_assoc. cbn [app].
    assert (X : exists k y, (k = CmDelimiter \/ k = CmCross) /\ map char_meaning_of fb ++ [CmDelimiter] = k :: y).
    { destruct H as [->|(c & b' & -> & K)]; [rewrite Eb1 by auto; eexists; eexists; split; [|reflexivity]; auto|].
      destruct (Eb2 c b' eq_refl) as [F1 F2]. destruct K as [K|[K| ->]].
      - apply meaning_cross in K as [K M]. destruct (F2 M) as (fb' & ->). cbn [map app]. rewrite K. eauto.
      - apply meaning_delimiter in K as [K M]. destruct (F2 M) as (fb' & ->). cbn [map app]. rewrite K. eauto.
      - rewrite F1 by auto. eexists; eexists; split; [|reflexivity]; auto. }
    destruct X as (k & y & K & E). rewrite E. apply mpart_before. auto.
  - apply meaning_delimiter in D as [D N].
    change (a ++ d :: b) with (a ++ [d] ++ b). change (a ++ b) with (a ++ [] ++ b). apply mblock_mid; auto using one_char.
    intros pa la fb pb Ea _. apply begin_of in Ea as [Ea1 Ea2]. cbn [app]. rewrite !map_app. cbn [map]. rewrite D, <- !app_assoc. cbn [app].
    assert (X : la = [] \/ exists la' c, la = la' ++ [c] /\ (char_meaning_of c = CmDelimiter \/ char_meaning_of c = CmCross \/ char_meaning_of c = CmAsym)).
    { destruct H as [->|(a' & c & -> & K)]; [left; auto|]. destruct (Ea2 a' c eq_refl) as [F1 F2]. destruct K as [K|[K|[K| ->]]]; auto; right.
      - apply meaning_cross in K as [K M]. destruct (F2 M) as (la' & ->). exists la', c. auto.
      - apply meaning_delimiter in K as [K M]. destruct (F2 M) as (la' & ->). exists la', c. auto.
      - apply meaning_plus in K as [K M]. destruct (F2 M) as (la' & ->). exists la', c. auto. }
    destruct X as [->|(la' & c & -> & K)]; [reflexivity|]. rewrite map_app, <- !app_assoc. cbn [map app]. apply mpart_after. auto.
Qed.

Lemma zero_same r r' : zero (Ret r) = zero (Ret r') -> same_but_for_position r r'.
Proof.
  destruct r as [l|[i|i j e|]], r' as [l'|[i'|i' j' e'|]]; cbn; intros E; try exact I; congruence.
Qed.

(** ** Lines *)

Lemma lines_from_end b : forall cur, b <> [] \/ cur <> [] -> exists first rest, first = first /\ lines_from cur b = first :: rest.
Proof.
  induction b as [|c b IH]; intros cur H; cbn [lines_from].
  - destruct H as [H|H]; [congruence|]. destruct cur; [congruence|eauto].
  - destruct (c =? 10)%N; [eauto|]. apply IH. right. destruct cur; discriminate.
Qed.

Definition rows_of_lines (ls : list str) : list (list bell) := map (filter_map bell_from_name) ls.

Lemma filter_map_app {A B} (f : A -> option B) l l' : filter_map f (l ++ l') = filter_map f l ++ filter_map f l'.
Proof. induction l as [|x l IH]; cbn [filter_map app]; auto. destruct (f x); cbn [app]; congruence. Qed.

Lemma strip_cr_bells l : filter_map bell_from_name (strip_cr l) = filter_map bell_from_name l.
Proof.
  unfold strip_cr. destruct (rev l) as [|c t] eqn:E; auto. destruct (N.eqb_spec c 13) as [->|_]; auto.
  assert (l = rev t ++ [13%N]) as -> by (rewrite <- (rev_involutive l), E; reflexivity).
  rewrite filter_map_app. cbn. rewrite app_nil_r. reflexivity.
Qed.

(** The bells on each line, with those of [cur] before the first line *)
Lemma lines_bells b : forall cur cur', (b = [] -> (cur = [] <-> cur' = [])) -> filter_map bell_from_name cur = filter_map bell_from_name cur' ->
  rows_of_lines (lines_from cur b) = rows_of_lines (lines_from cur' b).
Proof.
  induction b as [|c b IH]; intros cur cur' N E; cbn [lines_from].
  - specialize (N eq_refl). destruct cur as [|x cur], cur' as [|x' cur']; auto; try (exfalso; destruct N; intuition discriminate).
    unfold rows_of_lines. cbn [map]. rewrite !strip_cr_bells, E. reflexivity.
  - destruct (c =? 10)%N.
    + unfold rows_of_lines. cbn [map]. rewrite !strip_cr_bells, E. reflexivity.
    + apply IH.
      * intros _. split; intros X; (destruct cur; discriminate) || (destruct cur'; discriminate).
      * rewrite !filter_map_app, E. reflexivity.
Qed.

Lemma lines_insert a : forall cur c b, c <> 10%N -> bell_from_name c = None ->
  b <> [] \/ (a = [] /\ cur <> []) \/ (exists a' d, a = a' ++ [d] /\ d <> 10%N) ->
  rows_of_lines (lines_from cur (a ++ c :: b)) = rows_of_lines (lines_from cur (a ++ b)).
Proof.
  induction a as [|x a IH]; intros cur c b N B H; cbn [app].
  - cbn [lines_from]. rewrite (proj2 (N.eqb_neq _ _) N). apply lines_bells.
    + intros ->. destruct H as [H|[[_ H]|(a' & d & H & _)]]; [congruence| |destruct a'; discriminate].
      split; intros X; [destruct cur; discriminate|congruence].
    + rewrite filter_map_app. cbn [filter_map]. rewrite B, app_nil_r. reflexivity.
  - cbn [lines_from]. destruct (N.eqb_spec x 10) as [->|Nx].
    + unfold rows_of_lines. cbn [map]. f_equal. apply IH; auto. destruct H as [H|[[H _]|(a' & d & H & Nd)]]; auto; [discriminate|].
      right. right. destruct a' as [|y a']; cbn in H; [injection H as <- _; congruence|]. injection H as _ ->. eauto.
    + apply IH; auto. destruct H as [H|[[H _]|(a' & d & H & Nd)]]; auto; [discriminate|].
      right. destruct a' as [|y a']; cbn in H; injection H as E1 E2; subst.
      * left. split; auto. destruct cur; discriminate.
      * right. eauto.
Qed.

Lemma parse_loop_rows ls : forall ls' v n, rows_of_lines ls = rows_of_lines ls' -> ssv_parse_loop v n ls = ssv_parse_loop v n ls'.
Proof.
  induction ls as [|l ls IH]; intros [|l' ls'] v n E; try discriminate; auto. cbn in E. injection E as E Es.
  cbn [ssv_parse_loop]. unfold row_parse. rewrite E. destruct (from_bell_iter _) as [r|e]; auto.
  destruct (ssv_push v r) as [[v' [u|[x y]]]| | |]; cbn [bind]; auto.
Qed.

Lemma ssv_parse_rows t t' : rows_of_lines (lines t) = rows_of_lines (lines t') -> ssv_parse t = ssv_parse t'.
Proof.
  unfold ssv_parse. destruct (lines t) as [|l ls], (lines t') as [|l' ls']; intros E; try discriminate; auto.
  cbn in E. injection E as E Es. unfold row_parse. rewrite E. destruct (from_bell_iter _) as [r|e]; auto.
  destruct (ssv_from_row_buf r) as [v| | |]; cbn [bind]; auto. apply parse_loop_rows. auto.
Qed.

Lemma not_bell_char c : ~ is_bell_name_char c -> bell_from_name c = None.
Proof. intros H. destruct (bell_from_name c) as [b|] eqn:E; auto. exfalso. apply H, from_name_defined. eauto. Qed.
