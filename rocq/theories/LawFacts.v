(** Facts used for the laws which relate several functions of the API. *)
From Verif Require Import Base Bell Stage Parity Row Utils SameStageVec Block PlaceNot Spec SpecVec SpecBlock SpecPn ListFacts
  BellFacts RowFacts MulFacts ParityFacts GroupFacts GroupFacts2 SsvFacts BlockFacts PnFacts PnFacts2 PnFacts3 FormatFacts SpecLaws.
Local Open Scope list_scope.

(** ** Rows and changes *)

Lemma rung_fun r pns rs rs' x x' : rung r pns rs x -> rung r pns rs' x' -> rs = rs' /\ x = x'.
Proof.
  intros H. revert rs' x'. induction H as [r|r pn pns r1 rs r' R H IH]; intros rs' x' H'.
  - inversion H'; auto.
  - inversion H' as [|? ? ? r2 ? ? R' H'']; subst. pose proof (rings_fun _ _ _ _ _ R R') as <-.
    apply IH in H'' as [<- <-]. auto.
Qed.

Lemma rung_nth r pns rs x i a b : rung r pns rs x -> nth_error (r :: rs) i = Some a -> nth_error (r :: rs) (i + 1) = Some b ->
  exists pn, nth_error pns i = Some pn /\ rings (pn_places pn) 0 a b.
Proof.
  intros H. revert i. induction H as [r|r pn pns r1 rs r' R H IH]; intros [|i] A B; cbn in *; try discriminate.
  - destruct i; discriminate.
  - injection A as <-. injection B as <-. eauto.
  - apply (IH i A). cbn. exact B.
Qed.

Lemma rung_intro pns : forall r rs, length rs = length pns ->
  (forall i a b, nth_error (r :: rs) i = Some a -> nth_error (r :: rs) (i + 1) = Some b ->
     exists pn, nth_error pns i = Some pn /\ rings (pn_places pn) 0 a b) ->
  rung r pns rs (last rs r).
Proof.
  induction pns as [|pn pns IH]; intros r rs L H; destruct rs as [|r1 rs]; try discriminate.
  - constructor.
  - destruct (H 0 r r1 eq_refl eq_refl) as (q & Q & R). injection Q as <-. econstructor; [exact R|].
    replace (last (r1 :: rs) r) with (last rs r1).
    + apply IH; [cbn in L; lia|]. intros i a b A B. apply (H (S i)); auto.
    + destruct rs as [|z rs]; auto. cbn [last]. clear. revert z. induction rs; intros z; auto. cbn [last]. apply IHrs.
Qed.

Lemma rung_map f r pns rs x : rung r pns rs x -> rung (map f r) pns (map (map f) rs) (map f x).
Proof. induction 1; cbn; econstructor; eauto. apply rings_map; auto. Qed.

Lemma rung_app r pns rs x pns' rs' y : rung r pns rs x -> rung x pns' rs' y -> rung r (pns ++ pns') (rs ++ rs') y.
Proof. induction 1; cbn; auto. intros. econstructor; eauto. Qed.

Lemma rung_vrow s r pns rs x : vrow s r -> rung r pns rs x -> Forall (vrow s) rs /\ vrow s x.
Proof.
  intros V H. revert V. induction H as [r|r pn pns r1 rs r' R H IH]; intros V; auto.
  pose proof (rings_vrow _ _ _ _ _ V R). destruct IH; auto.
Qed.

Lemma rung_rev r pns rs x : rung r pns rs x -> rung x (rev pns) (tl (rev (r :: rs))) r.
Proof.
  induction 1 as [r|r pn pns r1 rs r' R H IH]; [constructor|].
  pose proof (rung_length _ _ _ _ H) as L.
  assert (E : tl (rev (r :: r1 :: rs)) = tl (rev (r1 :: rs)) ++ [r]).
  { cbn [rev]. destruct (rev rs); cbn; auto. }
  rewrite E. cbn [rev]. eapply rung_app; [exact IH|]. econstructor; [|constructor]. apply rings_sym. exact R.
Qed.

Lemma to_rows_ok pns start s : pns <> [] -> Forall (fun pn => legal pn /\ pn_stage pn = s) pns -> vrow s start ->
  exists v rs x, pn_block_to_rows pns start = Ret (Ok v) /\ rep s (start :: rs) v /\ rung start pns rs x.
Proof.
  intros N F V. unfold pn_block_to_rows. rewrite valid_row_stage by apply V. cbn [bind].
  assert (Es : pn_block_stage pns = Ret s).
  { destruct pns as [|pn pns]; [congruence|]. inversion F as [|? ? [_ E] _]; unfold pn_block_stage. cbn. congruence. }
  rewrite Es. cbn [bind]. unfold test_err. rewrite (proj2 V), Nat.eqb_refl.
  destruct (rep_from_row start (proj1 V)) as (v0 & E0 & R0). rewrite E0. cbn [bind]. rewrite (proj2 V) in R0.
  destruct (to_rows_loop_ok s pns F [start] v0 start R0 V) as (v & rs & r' & E1 & R1 & R2 & R3 & R4).
  rewrite E1. cbn [bind]. exists v, rs, r'. auto.
Qed.

Lemma row_product_map a r : row_product a r = map (fun x => nth x a 0) r.
Proof. reflexivity. Qed.

Lemma removelast_middle {A} (l m : list A) x : removelast ((l ++ [x]) ++ m) = l ++ removelast (x :: m).
Proof.
  rewrite <- app_assoc. cbn [app]. rewrite removelast_app by discriminate. reflexivity.
Qed.

Lemma removelast_map {A B} (f : A -> B) l : removelast (map f l) = map f (removelast l).
Proof. induction l as [|a [|b l] IH]; auto. cbn [map removelast] in *. rewrite IH. reflexivity. Qed.

(** ** Texts of changes *)

Lemma bell_char_not_comma : ~ is_bell_char comma.
Proof. intros H. apply H. vm_compute. reflexivity. Qed.

Lemma names_are_words l : Forall (fun b => b < 33) l -> l <> [] -> is_word (concat (map bell_name l)).
Proof.
  intros F N.
  assert (G : Forall is_bell_char (concat (map bell_name l)) /\ (l <> [] -> concat (map bell_name l) <> [])).
  { clear N. induction F as [|b l Hb F [IH1 IH2]]; [split; [constructor|congruence]|]. cbn [map concat].
    assert (Eb : exists c, bell_name b = [c] /\ bell_from_name c = Some b).
    { clear - Hb. do 33 (destruct b as [|b]; [eexists; split; vm_compute; reflexivity|]). lia. }
    destruct Eb as (c & -> & Ec). split; [constructor; auto; intros K; congruence|discriminate]. }
  destruct G as [G1 G2]. specialize (G2 N). split.
  - destruct (concat (map bell_name l)) as [|c w]; [congruence|]. exists c, w. split; auto. inversion G1; auto.
  - eapply Forall_impl; [|exact G1]. auto.
Qed.

Lemma written_out_body s pns t : s <= 33 -> Forall (fun pn => legal pn /\ pn_stage pn = s) pns -> written_out pns t -> body_changes s t pns.
Proof.
  intros H33 F W. revert F. induction W as [|c pns t D W IH|s' pns t W IH|pn pns t E W IH]; intros F.
  - constructor.
  - apply bc_skip; auto.
  - inversion F as [|? ? [[_ L] S] F']; clear F; subst. cbn [pn_stage pn_places] in *. change (pn_display (PlaceNot [] s') ++ t) with (45%N :: t).
    apply bc_cross; auto; [right; right; reflexivity|]. apply legal_next in L as [L _]. rewrite Nat.sub_0_r in L. apply even_mod in L. exact L.
  - inversion F as [|? ? [L S] F']; clear F; subst. destruct pn as [[|a l] st]; cbn [pn_stage] in *.
    + change (pn_display (PlaceNot [] st) ++ t) with (45%N :: t). destruct L as [_ L]. cbn [pn_stage pn_places] in *.
      apply bc_cross; auto; [right; right; reflexivity|]. apply legal_next in L as [L _]. rewrite Nat.sub_0_r in L. apply even_mod in L. exact L.
    + apply bc_word; auto.
      * unfold pn_display. cbn [pn_is_cross pn_places]. apply names_are_words; [|discriminate]. destruct L as [_ L]. cbn [pn_stage pn_places] in L.
        apply legal_ge in L as [_ L]. eapply Forall_impl; [|exact L]. cbn; intros; lia.
      * apply (pn_display_parse (PlaceNot (a :: l) st)); auto.
Qed.

Lemma body_no_comma s t l : body_changes s t l -> plain_text t -> block_changes s t l.
Proof.
  intros B [C P]. exists [t]. split; [discriminate|]. split; [auto|]. split; [reflexivity|].
  rewrite <- (app_nil_r l). change (l ++ []) with (unfold_part true false l ++ []). econstructor; [constructor; exact B|constructor].
Qed.

Lemma plain_block s t l : 0 < s -> plain_text t -> block_changes s t l <-> body_changes s t l.
Proof.
  intros Hs [C P]. split.
  - intros (parts & N & F & E & Pc). assert (parts = [t]).
    { apply (join_unique parts [t]); auto; discriminate. }
    subst parts. inversion Pc as [|? asym l0 ? l1 P1 P2]; subst. inversion P2; subst. rewrite app_nil_r.
    change (unfold_part true asym l0) with l0. inversion P1 as [? ? B|skip c t' ? Bs Pp B]; subst; auto.
    exfalso. apply (P c); auto. apply in_or_app. right; left; auto.
  - intros B. apply body_no_comma; auto. split; auto.
Qed.

Lemma body_app s a la c b lb : body_changes s a la -> is_delimiter_char c -> body_changes s b lb -> body_changes s (a ++ c :: b) (la ++ lb).
Proof.
  intros A D B. induction A as [|x t l H Z A IH|x t l H A IH|w t l pn W E P A IH].
  - apply bc_skip; auto.
  - cbn [app]. apply bc_cross; auto.
  - cbn [app]. apply bc_skip; auto.
  - rewrite <- app_assoc. cbn [app]. apply bc_word; auto. destruct t; cbn; auto.
Qed.

Lemma block_parse_ok t s l : 0 < s -> l <> [] -> block_changes s t l -> pn_block_parse t s = Ret (Ok l).
Proof.
  intros Hs N H. destruct (block_parse_cases t s Hs) as [(l' & H' & E)|(X & _)]; [|exfalso; eapply X; eauto].
  rewrite (block_changes_fun _ _ _ _ H' H) in E. destruct l; [congruence|]. exact E.
Qed.

Lemma block_parse_inv t s l : 0 < s -> pn_block_parse t s = Ret (Ok l) -> l <> [] /\ block_changes s t l.
Proof.
  intros Hs H. destruct (block_parse_cases t s Hs) as [(l' & H' & E)|(_ & b & p & a & _ & K)].
  - rewrite E in H. destruct l'; [discriminate|]. injection H as <-. split; [discriminate|auto].
  - rewrite H in K. destruct K as [(x & c & y & E & _)|[(x & w & y & e & E & _)|(x & c & y & e & E & _)]]; discriminate.
Qed.

(** A palindrome leads to a row which is its own inverse. *)
Lemma palindrome_involution s pns rs x : 0 < s -> Forall (fun pn => legal pn /\ pn_stage pn = s) pns -> rev pns = pns ->
  rung (row_rounds s) pns rs x -> rmul x x = row_rounds s.
Proof.
  intros Hs F P R. destruct (rung_vrow s _ _ _ _ (valid_rounds s Hs) R) as [_ Vx].
  pose proof (rung_rev _ _ _ _ R) as R1. rewrite P in R1. pose proof (rung_map (fun i => nth i x 0) _ _ _ _ R) as R2.
  fold (rmul x (row_rounds s)) in R2. rewrite rmul_rounds_r in R2 by apply Vx.
  destruct (rung_fun _ _ _ _ _ _ R1 R2) as [_ E]. symmetry. exact E.
Qed.

Lemma mirror_palindrome {A} (l : list A) : rev (l ++ tl (rev l)) = l ++ tl (rev l).
Proof.
  destruct (rev l) as [|x m] eqn:E; cbn [tl].
  - apply (f_equal (@rev A)) in E. rewrite rev_involutive in E. cbn in E. subst l. reflexivity.
  - assert (L : l = rev m ++ [x]) by (apply (f_equal (@rev A)) in E; rewrite rev_involutive in E; exact E).
    rewrite L. rewrite rev_app_distr, rev_app_distr, rev_involutive. cbn [rev app]. rewrite <- app_assoc. reflexivity.
Qed.

Lemma comma_not_in_names l : ~ In comma (concat (map bell_name l)).
Proof. intros K. change (In comma (row_display l)) in K. apply row_display_chars in K as [K _]. apply K. reflexivity. Qed.

(** ** Blocks *)
Section Blocks.
Context {A : Type}.
Implicit Types b : block A.

Definition shift_rows (f t : row) (ars : list (row * A)) : list (row * A) := map (fun ra => (moved f t (fst ra), snd ra)) ars.

Lemma moved_moved s f t f' r : vrow s f -> vrow s t -> vrow s f' -> vrow s r ->
  forall x, vrow s x -> moved f t (moved f' x r) = moved f' (moved f t x) r.
Proof.
  intros Hf Ht Hf' Hr x Hx. pose proof (valid_rinv s f Hf) as If. pose proof (valid_rinv s f' Hf') as If'.
  assert (M : vrow s (moved f' x r)) by (apply vrow_moved; auto). assert (M' : vrow s (moved f t x)) by (apply vrow_moved; auto).
  rewrite (moved_rmul s f t (moved f' x r)), (moved_rmul s f' (moved f t x) r), (moved_rmul s f' x r), (moved_rmul s f t x) by auto.
  assert (P : vrow s (rmul t (rinv f))) by (apply valid_rmul; auto). assert (P' : vrow s (rmul x (rinv f'))) by (apply valid_rmul; auto).
  rewrite <- (rmul_assoc_vrow s _ (rmul x (rinv f')) r) by auto. rewrite <- (rmul_assoc_vrow s _ x (rinv f')) by auto. reflexivity.
Qed.

Lemma vrow_fst s ars ra : Forall (vrow s) (map fst ars) -> In (ra : row * A) ars -> vrow s (fst ra).
Proof. intros F H. rewrite Forall_forall in F. apply F. apply in_map. exact H. Qed.

Lemma first_of_shift s (ars : list (row * A)) lo (ars' : list (row * A)) lo' : Forall (vrow s) (map fst ars) -> vrow s lo -> Forall (vrow s) (map fst ars') -> vrow s lo' ->
  nth 0 (all_rows_of (ars ++ shift_rows (nth 0 (all_rows_of ars' lo') []) lo ars') (moved (nth 0 (all_rows_of ars' lo') []) lo lo')) [] =
  nth 0 (all_rows_of ars lo) [].
Proof.
  intros F V F' V'. destruct ars as [|[r a] ars]; [|reflexivity]. cbn [app]. destruct ars' as [|[r' a'] ars']; cbn.
  - apply (moved_first s); auto.
  - apply (moved_first s); auto. inversion F'; auto.
Qed.

Lemma extend_assoc s a1 l1 b1 a2 l2 b2 a3 l3 b3 : brep s a1 l1 b1 -> brep s a2 l2 b2 -> brep s a3 l3 b3 ->
  exists b12 b23 b, block_extend b1 b2 = Ret (b12, Ok tt) /\ block_extend b2 b3 = Ret (b23, Ok tt) /\
    block_extend b12 b3 = Ret (b, Ok tt) /\ block_extend b1 b23 = Ret (b, Ok tt).
Proof.
  intros H1 H2 H3. destruct (brep_extend _ _ _ _ _ _ _ H1 H2) as (b12 & E12 & R12).
  destruct (brep_extend _ _ _ _ _ _ _ H2 H3) as (b23 & E23 & R23).
  destruct (brep_extend _ _ _ _ _ _ _ R12 H3) as (b & E & R). destruct (brep_extend _ _ _ _ _ _ _ H1 R23) as (b' & E' & R').
  exists b12, b23, b. split; [exact E12|]. split; [exact E23|]. split; [exact E|]. rewrite E'. do 2 f_equal.
  pose proof (brep_vrows _ _ _ _ H1) as [F1 V1]. pose proof (brep_vrows _ _ _ _ H2) as [F2 V2]. pose proof (brep_vrows _ _ _ _ H3) as [F3 V3].
  fold (shift_rows (nth 0 (all_rows_of a3 l3) []) l2 a3) in R'.
  rewrite (first_of_shift s) in R' by auto.
  assert (Vf : forall a l, Forall (vrow s) (map fst a) -> vrow s l -> vrow s (nth 0 (all_rows_of (A := A) a l) [])).
  { intros a l Fa Va. destruct a as [|[r x] a]; cbn; auto. inversion Fa; auto. }
  eapply brep_eq; [exact R'|]. rewrite (moved_moved s) by auto.
  match goal with |- brep _ ?l _ _ => match type of R with brep _ ?l' _ _ => replace l with l'; [exact R|] end end.
  rewrite map_app, <- app_assoc. do 2 f_equal. unfold shift_rows. rewrite map_map. apply map_ext_in. intros ra Hra. cbn [fst snd]. f_equal.
  symmetry. apply (moved_moved s); auto. eapply vrow_fst; eauto.
Qed.

Lemma extend_empty s ars lo b e : brep s ars lo b -> block_empty s = Ret e -> block_extend b e = Ret (b, Ok tt).
Proof.
  intros H E. pose proof (proj1 (brep_vrows _ _ _ _ H)) as F. pose proof (proj2 (brep_vrows _ _ _ _ H)) as V.
  assert (Hs : 0 < s) by (rewrite <- (proj2 V); apply valid_row_pos, V).
  destruct (block_empty_ok (A := A) s Hs) as (e' & E' & He). rewrite E in E'. injection E' as <-.
  destruct (brep_extend _ _ _ _ _ _ _ H He) as (b' & Ex & R). rewrite Ex. do 2 f_equal. cbn in R. rewrite app_nil_r in R.
  rewrite (moved_first s) in R by (auto; apply valid_rounds; auto). eapply brep_eq; eauto.
Qed.

Lemma empty_extend s ars lo b e : brep s ars lo b -> block_empty s = Ret e ->
  exists b' t, block_extend e b = Ret (b', Ok tt) /\ row_inv (nth 0 (all_rows_of ars lo) []) = Ret t /\ block_pre_multiply b t = Ret (b', Ok tt).
Proof.
  intros H E. pose proof (proj1 (brep_vrows _ _ _ _ H)) as F. pose proof (proj2 (brep_vrows _ _ _ _ H)) as V.
  assert (Hs : 0 < s) by (rewrite <- (proj2 V); apply valid_row_pos, V).
  destruct (block_empty_ok (A := A) s Hs) as (e' & E' & He). rewrite E in E'. injection E' as <-.
  destruct (brep_extend _ _ _ _ _ _ _ He H) as (b' & Ex & R). set (f := nth 0 (all_rows_of ars lo) []) in *.
  assert (Vf : vrow s f). { unfold f. destruct ars as [|[r x] ars]; cbn; auto. inversion F; auto. }
  destruct (brep_pre_multiply s ars lo b (rinv f) H (valid_rinv s f Vf)) as (b2 & E2 & R2).
  exists b', (rinv f). split; auto. split; [apply row_inv_ok, Vf|]. rewrite E2. do 2 f_equal.
  assert (M : forall r, vrow s r -> moved f (row_rounds s) r = row_product (rinv f) r).
  { intros r Hr. rewrite (moved_rmul s) by (auto; apply valid_rounds; auto). rewrite (rmul_rounds_l_vrow s) by (apply valid_rinv; auto). reflexivity. }
  rewrite M in R by auto. eapply brep_eq; [exact R2|]. cbn [app] in R.
  match goal with |- brep _ ?l _ _ => match type of R with brep _ ?l' _ _ => replace l with l'; [exact R|] end end.
  apply map_ext_in. intros ra Hra. rewrite M; auto. eapply vrow_fst; eauto.
Qed.

Lemma extend_pre_multiply s a1 l1 b1 a2 l2 b2 t : brep s a1 l1 b1 -> brep s a2 l2 b2 -> vrow s t ->
  exists b12 tb1 tb2 b, block_extend b1 b2 = Ret (b12, Ok tt) /\ block_pre_multiply b1 t = Ret (tb1, Ok tt) /\
    block_pre_multiply b2 t = Ret (tb2, Ok tt) /\
    block_pre_multiply b12 t = Ret (b, Ok tt) /\ block_extend tb1 b2 = Ret (b, Ok tt) /\ block_extend b1 tb2 = Ret (b12, Ok tt).
Proof.
  intros H1 H2 Ht. destruct (brep_extend _ _ _ _ _ _ _ H1 H2) as (b12 & E12 & R12).
  destruct (brep_pre_multiply _ _ _ _ t H1 Ht) as (tb1 & E1 & R1). destruct (brep_pre_multiply _ _ _ _ t H2 Ht) as (tb2 & E2 & R2).
  destruct (brep_pre_multiply _ _ _ _ t R12 Ht) as (b & E & R).
  destruct (brep_extend _ _ _ _ _ _ _ R1 H2) as (b' & E' & R'). destruct (brep_extend _ _ _ _ _ _ _ H1 R2) as (b'' & E'' & R'').
  exists b12, tb1, tb2, b. split; [exact E12|]. split; [exact E1|]. split; [exact E2|]. split; [exact E|].
  pose proof (brep_vrows _ _ _ _ H1) as [F1 V1]. pose proof (brep_vrows _ _ _ _ H2) as [F2 V2].
  assert (Vf : vrow s (nth 0 (all_rows_of a2 l2) [])) by (destruct a2 as [|[r x] a]; cbn; auto; inversion F2; auto).
  set (f := nth 0 (all_rows_of a2 l2) []) in *.
  assert (P : forall r, vrow s r -> row_product t (moved f l1 r) = moved f (row_product t l1) r).
  { intros r Hr. rewrite !row_product_rmul. rewrite !(moved_rmul s) by (auto; repeat apply valid_rmul; auto).
    rewrite <- !(rmul_assoc_vrow s) by (auto; repeat apply valid_rmul; auto; apply valid_rinv; auto). reflexivity. }
  assert (Q : forall r, vrow s r -> moved (row_product t f) l1 (row_product t r) = moved f l1 r).
  { intros r Hr. rewrite !row_product_rmul. rewrite !(moved_rmul s) by (auto; repeat apply valid_rmul; auto).
    rewrite (rinv_rmul s) by auto. pose proof (valid_rinv s f Vf). pose proof (valid_rinv s t Ht).
    rewrite !(rmul_assoc_vrow s) by (auto; repeat apply valid_rmul; auto). do 2 f_equal.
    rewrite <- (rmul_assoc_vrow s) by auto. rewrite (rmul_rinv_l s) by auto. apply (rmul_rounds_l_vrow s); auto. }
  split.
  - rewrite E'. do 2 f_equal. eapply brep_eq; [exact R'|]. rewrite P in R by auto.
    match goal with |- brep _ ?l _ _ => match type of R with brep _ ?l' _ _ => replace l with l'; [exact R|] end end.
    rewrite map_app. f_equal. rewrite map_map. apply map_ext_in. intros ra Hra. cbn [fst snd]. rewrite P; auto. eapply vrow_fst; eauto.
  - rewrite E''. do 2 f_equal. eapply brep_eq; [exact R''|].
    replace (nth 0 (all_rows_of (map (fun ra : row * A => (row_product t (fst ra), snd ra)) a2) (row_product t l2)) []) with (row_product t f)
      by (unfold f; destruct a2 as [|[r x] a]; reflexivity).
    rewrite Q by auto.
    match goal with |- brep _ ?l _ _ => match type of R12 with brep _ ?l' _ _ => replace l with l'; [exact R12|] end end.
    f_equal. rewrite map_map. apply map_ext_in. intros ra Hra. cbn [fst snd]. rewrite Q; auto. eapply vrow_fst; eauto.
Qed.
End Blocks.
