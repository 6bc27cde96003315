(** Property theorems C100: touches, the leads of methods and calls put together. *)

(* Generated from tools/props/Touch.src: the proofs behind PropsTouch.v. *)
From Verif Require Import Base Bell Stage Parity Row Utils SameStageVec Block PlaceNot Class Method Call Spec SpecVec SpecBlock SpecPn ListFacts
  BellFacts RowFacts MulFacts GroupFacts GroupFacts2 SsvFacts BlockFacts PnFacts PnFacts2 PnFacts3 LawFacts LawFacts2 SpecTouch TouchFacts.
From Verif Require Import PnThms BlockThms MethodThms Laws2Thms.
Local Open Scope list_scope.

Lemma pf_C100_leads_put_together :
  forall A (d : A) s pnss e, 0 < s -> block_empty s = Ret e ->
    Forall (fun pns => pns <> [] /\ Forall (fun pn => legal pn /\ pn_stage pn = s) pns) pnss ->
    exists leads heads t lo, Forall2 (fun pns l => pn_block_to_block_from_rounds d pns = Ret l) pnss leads /\
      Forall2 (fun l h => block_leftover_row l = Ret h) leads heads /\ put_together e leads t /\
      block_len t = list_sum (map (@length place_not) pnss) /\
      block_leftover_row t = Ret lo /\ is_product (seq 0 s :: heads) lo /\
      (pnss <> [] -> pn_block_to_block_from_rounds d (concat pnss) = Ret t).
Proof.
  intros A d s pnss e Hs E F. pose proof (rblk_empty d s e Hs E) as H.
  destruct (put_together_rblk d s Hs pnss _ _ _ _ H F) as (leads & heads & t & x & F1 & F2 & P & Ht & Pr).
  exists leads, heads, t, x. rewrite <- rounds_seq. splits; auto.
  - rewrite (rblk_len _ _ _ _ _ _ Ht). cbn. clear. induction pnss as [|p pnss IH]; auto. cbn. rewrite app_length, IH. auto.
  - eapply rblk_left; eauto.
  - intros N. destruct (rblk_rounds d s (concat pnss) Hs) as (x' & t' & E' & Ht').
    + destruct pnss as [|p pnss]; [congruence|]. inversion F as [|? ? [Np _] _]; subst. destruct p; [congruence|]. discriminate.
    + apply Forall_concat. eapply Forall_impl; [|exact F]. cbn. tauto.
    + cbn in Ht. destruct (rblk_fun _ _ _ _ _ _ _ _ Ht Ht') as [<- <-]. exact E'.
Qed.

Lemma pf_C100_calls_replace_changes :
  forall A (d : A) s pns pns' i, 0 < s -> pns' <> [] -> i + length pns' <= length pns ->
    Forall (fun pn => legal pn /\ pn_stage pn = s) pns -> Forall (fun pn => legal pn /\ pn_stage pn = s) pns' ->
    exists lead bob single, pn_block_to_block_from_rounds d pns = Ret lead /\ le_bob pns' = Ret bob /\ le_single pns' = Ret single /\
    forall c, c = bob \/ c = single ->
    exists before rest covered after called b, block_split lead i = Ret (Some (before, rest)) /\
      block_split rest (cover_len c) = Ret (Some (covered, after)) /\
      block_extend before (block_map_annots (call_block c) (fun _ => d)) = Ret (called, Ok tt) /\
      block_extend called after = Ret (b, Ok tt) /\ block_len b = block_len lead /\
      pn_block_to_block_from_rounds d (firstn i pns ++ pns' ++ skipn (i + length pns') pns) = Ret b.
Proof.
  intros A d s pns pns' i Hs N Hi F F'.
  assert (Np : pns <> []) by (destruct pns; [destruct pns'; [congruence|cbn in Hi; lia]|discriminate]).
  destruct (rblk_rounds d s pns Hs Np F) as (lo & lead & El & Hl).
  destruct (rblk_rounds tt s pns' Hs N F') as (t & cb & Ec & Hc).
  exists lead. do 2 eexists. split; [exact El|]. unfold le_bob, le_single. rewrite Ec. cbn [bind].
  split; [reflexivity|]. split; [reflexivity|]. intros c C.
  assert (Cc : cover_len c = length pns' /\ call_block c = cb) by (destruct C as [-> | ->]; auto).
  destruct Cc as [-> ->]. clear C.
  assert (Lf : length (firstn i pns) = i) by (rewrite firstn_length; lia).
  set (p1 := firstn i pns). set (p2 := firstn (length pns') (skipn i pns)). set (p3 := skipn (i + length pns') pns).
  assert (Ep : pns = p1 ++ p2 ++ p3).
  { unfold p1, p2, p3. rewrite <- (firstn_skipn i pns) at 1. f_equal. rewrite <- (firstn_skipn (length pns') (skipn i pns)) at 1. f_equal.
    apply skipn_skipn. }
  assert (L2 : length p2 = length pns') by (unfold p2; rewrite firstn_length, skipn_length; lia).
  rewrite Ep in Hl. destruct (rblk_split d s _ _ _ _ _ Hl) as (m & before & rest & E1 & H1 & Hr).
  destruct (rblk_split d s _ _ _ _ _ Hr) as (m' & covered & after & E2 & H2 & H3).
  apply (rblk_map tt (fun _ => d)) in Hc.
  destruct (rblk_extend d s _ _ _ _ _ _ _ _ H1 Hc) as (called & E3 & H4).
  destruct (rblk_extend d s _ _ _ _ _ _ _ _ H4 H3) as (b & E4 & H5).
  exists before, rest, covered, after, called, b. rewrite <- app_assoc in H5. unfold p1 in E1 at 1. rewrite Lf in E1. rewrite L2 in E2. splits; auto.
  - rewrite (rblk_len _ _ _ _ _ _ H5), (rblk_len _ _ _ _ _ _ Hl), !app_length, L2. reflexivity.
  - assert (F5 : Forall (fun pn => legal pn /\ pn_stage pn = s) (p1 ++ pns' ++ p3)).
    { rewrite Ep in F. apply Forall_app in F as [G1 G2]. apply Forall_app in G2 as [G2 G3]. repeat (apply Forall_app; split; auto). }
    destruct (rblk_rounds d s (p1 ++ pns' ++ p3) Hs) as (x' & b' & E' & H'); auto.
    { destruct p1; [destruct pns'; [congruence|discriminate]|discriminate]. }
    destruct (rblk_fun _ _ _ _ _ _ _ _ H5 H') as [_ <-]. exact E'.
Qed.

Lemma pf_C100_lead_head_of_a_called_lead :
  forall s pns pns' b lead b', 0 < s -> pns' <> [] -> pns <> [] ->
    Forall (fun pn => legal pn /\ pn_stage pn = s) (b ++ pns) -> Forall (fun pn => legal pn /\ pn_stage pn = s) pns' ->
    pn_block_to_block_from_rounds tt (b ++ pns) = Ret lead -> pn_block_to_block_from_rounds tt (b ++ pns') = Ret b' ->
    exists c plain plain_head covers undone h t h', le_bob pns' = Ret c /\ pn_block_to_block_from_rounds tt pns = Ret plain /\
      block_leftover_row plain = Ret covers /\ row_inv covers = Ret undone /\
      block_leftover_row lead = Ret plain_head /\ row_mul plain_head undone = Ret h /\
      block_get_row lead (length b) = Some h /\ block_get_row b' (length b) = Some h /\
      call_transposition c = Ret t /\ row_mul h t = Ret h' /\ block_leftover_row b' = Ret h'.
Proof.
  intros s pns pns' b lead b' Hs N Np F F' El Eb. pose proof F as F0. apply Forall_app in F0 as [Fb Fp].
  destruct (rblk_rounds tt s (b ++ pns) Hs) as (x & l & E1 & H1); auto. { destruct b; [auto|discriminate]. }
  rewrite El in E1. injection E1 as <-.
  destruct (rblk_rounds tt s (b ++ pns') Hs) as (x' & l' & E1' & H1'). { destruct b; [auto|discriminate]. } { apply Forall_app; auto. }
  rewrite Eb in E1'. injection E1' as <-.
  destruct (rblk_rounds tt s pns Hs Np Fp) as (u & pl & E2 & H2). destruct (rblk_rounds tt s pns' Hs N F') as (t & cb & E3 & H3).
  destruct (rblk_split tt s _ _ _ _ _ H1) as (m & b1 & b2 & _ & H4 & H5). destruct (rblk_split tt s _ _ _ _ _ H1') as (m' & b1' & b2' & _ & H4' & H5').
  destruct (rblk_fun _ _ _ _ _ _ _ _ H4 H4') as [<- <-].
  pose proof (rblk_vrow _ _ _ _ _ _ H2) as Vu. pose proof (rblk_vrow _ _ _ _ _ _ H3) as Vt. pose proof (rblk_vrow _ _ _ _ _ _ H4) as Vm.
  assert (X : forall p y bb z bb', rblk tt s (row_rounds s) p y bb -> rblk tt s m p z bb' -> z = rmul m y).
  { intros p y bb z bb' H (rs' & Vr' & R' & B'). pose proof (rblk_vrow _ _ _ _ _ _ H) as Vy. destruct H as (rs & Vr & R & B).
    pose proof (rung_moved s _ m _ _ _ Vr Vm R) as K. destruct (rung_fun _ _ _ _ _ _ R' K) as [_ ->]. apply moved_rounds; auto. }
  pose proof (X _ _ _ _ _ H2 H5) as Ex. pose proof (X _ _ _ _ _ H3 H5') as Ex'.
  assert (G : forall p y bb, rblk tt s (row_rounds s) (b ++ p) y bb -> p <> [] -> block_get_row bb (length b) = Some m).
  { intros p y bb (rs & Vr & R & B) _. erewrite brep_get_row by eauto.
    destruct (rung_app_inv _ _ _ _ _ R) as (rs1 & m1 & rs2 & -> & R1 & R2). destruct H4 as (rs4 & _ & R4 & _).
    destruct (rung_fun _ _ _ _ _ _ R4 R1) as [<- <-]. pose proof (rung_len _ _ _ _ R1) as L1.
    assert (Es : row_rounds s :: rs4 ++ rs2 = (removelast (row_rounds s :: rs4) ++ [m]) ++ rs2).
    { rewrite <- (rung_last _ _ _ _ R1). rewrite <- app_removelast_last by discriminate. reflexivity. }
    rewrite Es, removelast_middle. unfold all_rows_of. rewrite map_map, map_id, <- app_assoc.
    assert (L1' : length (removelast (row_rounds s :: rs4)) = length b) by (rewrite removelast_len; cbn [length]; lia).
    rewrite nth_error_app2 by lia. rewrite L1', Nat.sub_diag. destruct rs2 as [|r2 rs2]; cbn; auto. inversion R2; subst; auto. }
  unfold le_bob. rewrite E3. cbn [bind]. pose proof (valid_rinv s u Vu) as Vi.
  do 8 eexists. split; [reflexivity|]. split; [exact E2|]. split; [eapply rblk_left; exact H2|].
  split; [apply row_inv_ok; apply Vu|]. split; [eapply rblk_left; exact H1|].
  split. { rewrite Ex. rewrite (row_mul_ok s) by (auto; apply valid_rmul; auto). rewrite (rmul_assoc_vrow s) by auto.
           rewrite (rmul_rinv_r s) by auto. rewrite rmul_rounds_r by apply Vm. reflexivity. }
  split; [eapply G; eauto|]. split; [eapply G; eauto|]. split; [eapply rblk_left; exact H3|].
  split; [apply (row_mul_ok s); auto|]. rewrite (rblk_left _ _ _ _ _ _ H1'), Ex'. reflexivity.
Qed.

Lemma pf_C100_repeated_parts_come_round :
  forall A (b : block A) s ars lo fuel l sched, block_holds b s ars lo -> ars <> [] ->
    is_identity (hd [] (map fst ars)) -> closure fuel lo = Ret l ->
    exists ri outs ri', repeat_iter_new (seq 0 s) b = Ret (Ok ri) /\ repeat_run ri sched = Ret (outs, ri') /\
      forall k, k * length ars < length sched ->
        exists item a, nth_error outs (k * length ars) = Some (Some (item, 0, a)) /\
          (item = seq 0 s <-> Nat.divide (length l) k).
Proof.
  intros A b s ars lo fuel l sched H N I C. pose proof H as (Hs & _ & _ & Vl & Ll & _).
  destruct (valid_rounds s Hs) as [Vr Lr]. rewrite rounds_seq in Vr, Lr.
  destruct (pf_C34_repeat_iter_items A b s ars lo (seq 0 s) sched H N Vr Lr) as (ri & outs & ri' & E1 & E2 & Lo & P).
  exists ri, outs, ri'. splits; auto. intros k K. destruct (P _ K) as (r & a & p & head & item & Er & Pw & C1 & C2 & En).
  assert (Nl : length ars <> 0) by (destruct ars; [congruence|discriminate]).
  rewrite Nat.mod_mul in * by auto. rewrite Nat.div_mul in * by auto. exists item, a. split; auto.
  pose proof (holds_brep _ _ _ _ H) as B. destruct (brep_vrows _ _ _ _ B) as [Fv _].
  assert (Ir : r = row_rounds s).
  { destruct ars as [|[r0 a0] ars]; [congruence|]. cbn in Er, I. injection Er as -> ->. cbn in Fv.
    inversion Fv as [|? ? Vr0 _]; subst. apply identity_rounds in I. rewrite I. f_equal. apply Vr0. }
  assert (Vlo : vrow s lo) by (split; auto). apply power_fun in Pw. subst p. pose proof (vrow_rpow s lo k Vlo) as Vp.
  assert (Vh : vrow s head). { apply composition_fun in C1. subst head. apply (valid_rmul s); auto. split; auto. }
  apply composition_fun in C1. apply composition_fun in C2. subst r head item.
  change (row_product (row_product (seq 0 s) (rpow lo k)) (row_rounds s)) with (rmul (rmul (seq 0 s) (rpow lo k)) (row_rounds s)).
  rewrite rmul_rounds_r by apply Vh.
  rewrite <- rounds_seq, (rmul_rounds_l_vrow s) by exact Vp.
  destruct (pf_C83_orders lo fuel l Vl C) as [O _].
  specialize (O _ _ (pow_u_ok s lo k Vlo)). rewrite <- O. rewrite identity_rounds. rewrite (proj2 Vp). tauto.
Qed.
