(** Facts about blocks rung from changes: splitting them and putting them together. *)
From Verif Require Import Base Bell Stage Parity Row Utils SameStageVec Block PlaceNot Spec SpecVec SpecBlock SpecPn ListFacts
  BellFacts RowFacts MulFacts GroupFacts SsvFacts BlockFacts PnFacts PnFacts2 PnFacts3 LawFacts PnThms SpecTouch.
Local Open Scope list_scope.

Lemma skipn_skipn {X} (l : list X) : forall a b, skipn a (skipn b l) = skipn (b + a) l.
Proof.
  induction l as [|x l IH]; intros a b; [rewrite !skipn_nil; reflexivity|]. destruct b; cbn [skipn plus]; auto.
Qed.

Section Rung.
Context {A : Type} (d : A).

(** [b] is the block of the rows rung by [pns] from [start], the last of which is [x]. *)
Definition rblk (s : nat) (start : row) (pns : list place_not) (x : row) (b : block A) : Prop :=
  exists rs, vrow s start /\ rung start pns rs x /\ brep s (map (fun r => (r, d)) (removelast (start :: rs))) x b.

Lemma removelast_len {X} (l : list X) : length (removelast l) = length l - 1.
Proof. induction l as [|a [|b l] IH]; auto. cbn [removelast length] in *. rewrite IH. lia. Qed.

Lemma rung_len r pns rs x : rung r pns rs x -> length rs = length pns.
Proof. induction 1; cbn; auto. Qed.

Lemma rblk_len s start pns x b : rblk s start pns x b -> block_len b = length pns.
Proof.
  intros (rs & V & R & B). erewrite brep_len by eauto. rewrite map_length, removelast_len. cbn. rewrite (rung_len _ _ _ _ R). lia.
Qed.

Lemma rblk_fun s start pns x b x' b' : rblk s start pns x b -> rblk s start pns x' b' -> x = x' /\ b = b'.
Proof.
  intros (rs & V & R & B) (rs' & V' & R' & B'). destruct (rung_fun _ _ _ _ _ _ R R') as [<- <-]. split; auto. eapply brep_eq; eauto.
Qed.

Lemma rblk_vrow s start pns x b : rblk s start pns x b -> vrow s x.
Proof. intros (rs & V & R & B). apply brep_vrows in B. tauto. Qed.

Lemma rblk_left s start pns x b : rblk s start pns x b -> block_leftover_row b = Ret x.
Proof. intros (rs & V & R & B). apply brep_holds in B. apply B. Qed.

Lemma rblk_build s start pns : pns <> [] -> Forall (fun pn => legal pn /\ pn_stage pn = s) pns -> vrow s start ->
  exists x b, pn_block_to_block d pns start = Ret (Ok b) /\ rblk s start pns x b.
Proof.
  intros N F [V L]. destruct (pf_C45_to_block A d pns start s N F V L) as (b & rs & x & E & R & H & _).
  exists x, b. split; auto. exists rs. splits; auto; [split; auto|]. apply holds_brep; auto.
Qed.

Lemma rblk_rounds s pns : 0 < s -> pns <> [] -> Forall (fun pn => legal pn /\ pn_stage pn = s) pns ->
  exists x b, pn_block_to_block_from_rounds d pns = Ret b /\ rblk s (row_rounds s) pns x b.
Proof.
  intros Hs N F. destruct (valid_rounds s Hs) as [V L].
  destruct (pf_C45_to_block A d pns (row_rounds s) s N F V L) as (b & rs & x & E & R & H & Er).
  exists x, b. split; [apply Er, rounds_seq|]. exists rs. splits; auto; [split; auto|]. apply holds_brep; auto.
Qed.

Lemma rblk_empty s e : 0 < s -> block_empty s = Ret e -> rblk s (row_rounds s) [] (row_rounds s) e.
Proof.
  intros Hs E. exists []. pose proof (valid_rounds s Hs) as V. splits; auto; [constructor|].
  cbn. destruct (block_empty_ok (A := A) s Hs) as (e' & E' & He). rewrite E in E'. injection E' as <-. exact He.
Qed.

Lemma rung_app_inv r pns1 pns2 : forall rs x, rung r (pns1 ++ pns2) rs x ->
  exists rs1 m rs2, rs = rs1 ++ rs2 /\ rung r pns1 rs1 m /\ rung m pns2 rs2 x.
Proof.
  revert r. induction pns1 as [|pn pns1 IH]; intros r rs x H.
  - exists [], r, rs. splits; auto. constructor.
  - cbn in H. inversion H as [|? ? ? r1 rs' ? R H']; subst. apply IH in H' as (rs1 & m & rs2 & -> & R1 & R2).
    exists (r1 :: rs1), m, rs2. splits; auto. constructor; auto.
Qed.

Lemma rblk_split s start pns1 pns2 x b : rblk s start (pns1 ++ pns2) x b ->
  exists m b1 b2, block_split b (length pns1) = Ret (Some (b1, b2)) /\ rblk s start pns1 m b1 /\ rblk s m pns2 x b2.
Proof.
  intros (rs & V & R & B). pose proof (rung_len _ _ _ _ R) as Lr. rewrite app_length in Lr.
  destruct (rung_app_inv _ _ _ _ _ R) as (rs1 & m & rs2 & -> & R1 & R2).
  pose proof (rung_len _ _ _ _ R1) as L1. pose proof (rung_len _ _ _ _ R2) as L2.
  assert (Es : start :: rs1 ++ rs2 = (removelast (start :: rs1) ++ [m]) ++ rs2).
  { rewrite <- (rung_last _ _ _ _ R1). rewrite <- app_removelast_last by discriminate. reflexivity. }
  assert (L1' : length (removelast (start :: rs1)) = length pns1) by (rewrite removelast_len; cbn; lia).
  rewrite Es, removelast_middle in B.
  destruct (brep_split _ _ _ _ (length pns1) B) as (b1 & b2 & E & B1 & B2).
  { rewrite map_length, app_length, L1'. lia. }
  exists m, b1, b2. split; auto.
  assert (Hm : nth (length pns1) (all_rows_of (map (fun r => (r, d)) (removelast (start :: rs1) ++ removelast (m :: rs2))) x) [] = m).
  { unfold all_rows_of. rewrite map_map, map_id. rewrite <- app_assoc, app_nth2 by lia. rewrite L1', Nat.sub_diag.
    destruct rs2 as [|r2 rs2]; cbn; auto. inversion R2; subst; auto. }
  rewrite Hm in B1. rewrite map_app, firstn_app, map_length, L1', Nat.sub_diag, firstn_O, app_nil_r in B1.
  rewrite firstn_all2 in B1 by (rewrite map_length; lia).
  rewrite map_app, skipn_app, map_length, L1', Nat.sub_diag, skipn_O in B2.
  rewrite skipn_all2 in B2 by (rewrite map_length; lia). cbn [app] in B2.
  split; [exists rs1; auto|]. exists rs2. splits; auto. apply brep_vrows in B1. tauto.
Qed.

Lemma rung_moved s f t pns rs x : vrow s f -> vrow s t -> rung f pns rs x ->
  rung t pns (map (moved f t) rs) (moved f t x).
Proof.
  intros Vf Vt R. set (g := rmul t (rinv f)). pose proof (valid_rinv s f Vf) as Vi.
  assert (M : forall r, vrow s r -> moved f t r = row_product g r) by (intros r Hr; apply (moved_rmul s); auto).
  assert (Vx := rung_vrow s _ _ _ _ Vf R). destruct Vx as [Frs Vx].
  rewrite M by auto. replace (map (moved f t) rs) with (map (row_product g) rs).
  2:{ apply map_ext_in. intros r Hr. symmetry. apply M. rewrite Forall_forall in Frs. auto. }
  apply (rung_map (fun i => nth i g 0)) in R. change (map (fun i => nth i g 0) f) with (rmul g f) in R.
  unfold g in R at 1. rewrite (rmul_assoc_vrow s) in R by auto.
  assert (rmul (rinv f) f = row_rounds s) as Hi by (apply rmul_rinv_l; auto).
  rewrite Hi, rmul_rounds_r in R by apply Vt. exact R.
Qed.

Lemma rblk_extend s start pns1 m b1 f pns2 x b2 : rblk s start pns1 m b1 -> rblk s f pns2 x b2 ->
  exists b, block_extend b1 b2 = Ret (b, Ok tt) /\ rblk s start (pns1 ++ pns2) (moved f m x) b.
Proof.
  intros (rs1 & V1 & R1 & B1) (rs2 & V2 & R2 & B2). destruct (brep_extend _ _ _ _ _ _ _ B1 B2) as (b & E & B).
  exists b. split; auto. pose proof (brep_vrows _ _ _ _ B1) as [_ Vm].
  exists (rs1 ++ map (moved f m) rs2). splits; auto.
  - apply rung_app with m; auto. apply (rung_moved s); auto.
  - assert (Hf : nth 0 (all_rows_of (map (fun r => (r, d)) (removelast (f :: rs2))) x) [] = f).
    { unfold all_rows_of. rewrite map_map, map_id. destruct rs2 as [|r2 rs2]; cbn; auto. inversion R2; subst; auto. }
    rewrite Hf in B. match goal with |- brep _ ?l _ _ => match type of B with brep _ ?l' _ _ => replace l with l'; [exact B|] end end.
    assert (Es : start :: rs1 ++ map (moved f m) rs2 = (removelast (start :: rs1) ++ [m]) ++ map (moved f m) rs2).
    { rewrite <- (rung_last _ _ _ _ R1). rewrite <- app_removelast_last by discriminate. reflexivity. }
    rewrite Es, removelast_middle, map_app. f_equal. rewrite map_map. cbn [fst snd].
    replace (m :: map (moved f m) rs2) with (map (moved f m) (f :: rs2)).
    + rewrite removelast_map, map_map. reflexivity.
    + cbn [map]. f_equal. rewrite (moved_rmul s) by auto. rewrite (rmul_assoc_vrow s) by (auto; apply valid_rinv; auto).
      rewrite (rmul_rinv_l s) by auto. apply rmul_rounds_r. apply Vm.
Qed.

Lemma moved_rounds s m x : 0 < s -> vrow s m -> vrow s x -> moved (row_rounds s) m x = rmul m x.
Proof.
  intros Hs Vm Vx. apply (moved_unique s); auto; [apply valid_rounds; auto|].
  pose proof (composition_vrow s m (row_rounds s) Vm (valid_rounds s Hs)) as C. rewrite rmul_rounds_r in C by apply Vm. exact C.
Qed.

End Rung.

Lemma rblk_map {A B} (d : A) (f : A -> B) s start pns x b : rblk d s start pns x b -> rblk (f d) s start pns x (block_map_annots b f).
Proof.
  intros (rs & V & R & [Br Ba]). exists rs. splits; auto. unfold block_map_annots. split; cbn [blk_rows blk_annots].
  - rewrite map_map. rewrite map_map in Br. exact Br.
  - rewrite Ba, !map_map. reflexivity.
Qed.

(** Blocks put together in turn. *)
Lemma put_together_rblk {A} (d : A) s : 0 < s -> forall (pnss : list (list place_not)) start pns m b,
  rblk d s start pns m b ->
  Forall (fun p => p <> [] /\ Forall (fun pn => legal pn /\ pn_stage pn = s) p) pnss ->
  exists leads heads t x, Forall2 (fun p l => pn_block_to_block_from_rounds d p = Ret l) pnss leads /\
    Forall2 (fun l h => block_leftover_row l = Ret h) leads heads /\ put_together b leads t /\
    rblk d s start (pns ++ concat pnss) x t /\ is_product (m :: heads) x.
Proof.
  intros Hs. induction pnss as [|p pnss IH]; intros start pns m b H F.
  - exists [], [], b, m. splits; auto; try constructor. cbn. rewrite app_nil_r. auto.
  - inversion F as [|? ? [Np Fp] F']; subst. destruct (rblk_rounds d s p Hs Np Fp) as (h & l & El & Hl).
    destruct (rblk_extend d s _ _ _ _ _ _ _ _ H Hl) as (b' & Ex & H').
    pose proof (rblk_vrow _ _ _ _ _ _ H) as Vm. pose proof (rblk_vrow _ _ _ _ _ _ Hl) as Vh.
    rewrite moved_rounds in H' by auto. destruct (IH _ _ _ _ H' F') as (leads & heads & t & x & F1 & F2 & P & Ht & Pr).
    exists (l :: leads), (h :: heads), t, x. splits; auto.
    + constructor; auto. eapply rblk_left; eauto.
    + econstructor; eauto.
    + cbn. rewrite app_assoc. auto.
    + clear - Pr Vm Vh. remember (rmul m h :: heads) as q eqn:Eq. revert heads Eq.
      induction Pr as [y|xs p0 y q Pr IH C]; intros heads Eq.
      * destruct heads; [|discriminate]. injection Eq as ->. change [m; h] with ([m] ++ [h]).
        econstructor; [constructor|]. apply (composition_vrow s); auto.
      * destruct (list_eq_dec (list_eq_dec Nat.eq_dec) heads []) as [->|N].
        { destruct xs as [|z xs]; [inversion Pr; destruct xs; discriminate|]. cbn in Eq. injection Eq as _ K. destruct xs; discriminate. }
        destruct (exists_last N) as (heads' & y' & ->). rewrite app_comm_cons in Eq. apply app_inj_tail in Eq as [-> <-].
        change (m :: h :: heads' ++ [y]) with ((m :: h :: heads') ++ [y]). econstructor; eauto.
Qed.
