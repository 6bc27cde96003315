(** Property theorems C155: how many leads a touch without repeated rows can have. *)
(*IMPORTS*)
From Coq Require Import Factorial.
From Verif Require Import Base Spec ListFacts Bell Stage Parity Row RowFacts MulFacts ParityFacts GroupFacts
  Utils SameStageVec SpecVec SsvFacts Block SpecBlock BlockFacts PlaceNot SpecPn PnFacts PnFacts2 PnFacts3 LawFacts LawFacts2
  SymFacts3 ShapeFacts SpecHunt HuntFacts BobFacts Mask SpecMask MaskFacts MaskFacts2 RoundFacts2.
From Verif Require Import ExtentThms.
Local Open Scope list_scope.
(*BODY*)

(** C155: put together leads of one length, of as many kinds as you like, in any order.  If rounds and the lead head of each lead match a mask, so does every lead
    head of the touch; and if no row is repeated, there are at most as many leads as orders of the bells which the mask leaves open. *)
Theorem C155_leads_which_keep_to_a_mask :
  forall A (d : A) n len leads m b ars lo, 0 < n -> 0 < len -> leads <> [] ->
    Forall (fun lead => length lead = len) leads -> Forall (Forall (fun pn => legal pn /\ pn_stage pn = n)) leads ->
    mask_matches m (row_rounds n) = Ret true ->
    Forall (fun lead => exists lb h, pn_block_to_block_from_rounds tt lead = Ret lb /\ block_leftover_row lb = Ret h /\ mask_matches m h = Ret true) leads ->
    pn_block_to_block_from_rounds d (concat leads) = Ret b -> block_holds b n ars lo ->
    (forall k, k < length leads -> exists r, nth_error (map fst ars) (k * len) = Some r /\ mask_matches m r = Ret true) /\
    mask_matches m lo = Ret true /\
    (NoDup (map fst ars) -> length leads <= fact (length (mask_unspecified_places m))).
Proof.
  intros A d n L leads m b ars lo Hn HL Ne F Fl Mr Fh E H.
  assert (Nm : m <> []) by (intros ->; discriminate Mr).
  assert (MM : forall r, valid_row r -> (mask_matches m r = Ret true <-> fits m r)).
  { intros r V. destruct (mask_matches_ok m r Nm V) as (v & -> & X). split; [intros Q; injection Q as ->; apply X; auto|intros Q; apply X in Q; congruence]. }
  pose proof (valid_rounds n Hn) as Vr. apply MM in Mr as [Lm Hm]; [|apply Vr]. rewrite (proj2 Vr) in Lm.
  assert (Home : forall p x, specifies m p x -> x = p /\ p < n).
  { intros p x S'. pose proof (Hm p x S') as X. assert (p < n) by (rewrite <- (proj2 Vr); apply nth_error_Some; congruence).
    rewrite rounds_seq, (nth_error_nth' _ 0), seq_nth in X by (rewrite ?seq_length; auto). injection X as <-. auto. }
  assert (Nc : concat leads <> []) by (intros Q; pose proof (concat_len L leads F) as X; rewrite Q in X; destruct leads; [congruence|cbn [length] in X; nia]).
  assert (Fc : Forall (fun pn => legal pn /\ pn_stage pn = n) (concat leads)) by (apply Forall_concat; auto).
  destruct (lead_crs n (concat leads) Hn Nc Fc d) as (b0 & ars0 & E0 & H0 & M0 & _). rewrite E in E0. injection E0 as <-. rewrite (concat_len L leads F) in *.
  assert (ars0 = ars) as -> by (destruct H as (_ & _ & _ & _ & _ & X & _), H0 as (_ & _ & _ & _ & _ & Y & _); congruence).
  assert (El : lo = crs n (trof n (concat leads)) (length leads * L)) by (destruct H as (_ & _ & _ & _ & _ & _ & X), H0 as (_ & _ & _ & _ & _ & _ & Y); congruence).
  set (row := crs n (trof n (concat leads))) in *.
  assert (Vt : forall t, vrow n (row t)) by (intros; apply crs_v; auto; intros; apply trof_v; auto).
  assert (Heads : forall k, k <= length leads -> fits m (row (k * L))).
  { induction k as [|k IH]; intros Hk; [split; [unfold row; cbn [Nat.mul crs]; rewrite (proj2 Vr); auto|exact Hm]|].
    destruct (nth_error leads k) as [l|] eqn:Ek; [|apply nth_error_None in Ek; lia]. unfold row. rewrite (touch_heads n L leads Hn HL F Fl k l Ek). fold row.
    rewrite Forall_forall in F, Fl, Fh. assert (I : In l leads) by (eapply nth_error_In; eauto). destruct (Fh l I) as (lb & h & E1 & E2 & E3).
    assert (Nl : l <> []) by (intros ->; specialize (F [] I); cbn in F; lia).
    destruct (lead_crs n l Hn Nl (Fl l I) tt) as (lb0 & lars & E1' & H1 & _). rewrite E1 in E1'. injection E1' as <-. rewrite (F l I) in H1.
    assert (h = crs n (trof n l) L) as -> by (destruct H1 as (_ & _ & _ & _ & _ & _ & X); congruence).
    assert (Vh : vrow n (crs n (trof n l) L)) by (apply crs_v; auto; intros; apply trof_v; auto).
    apply MM in E3 as [Q1 Q2]; [|apply Vh]. destruct (IH ltac:(lia)) as [Q3 Q4]. split; [rewrite (proj2 (valid_rmul n _ _ (Vt _) Vh)); auto|].
    intros p x S'. destruct (Home p x S') as [-> Hp]. pose proof (Q2 p p S') as X. pose proof (Q4 p p S') as Y.
    unfold rmul. rewrite nth_error_map, X. cbn [option_map]. f_equal. apply nth_error_nth. auto. }
  assert (At : forall k, k < length leads -> nth_error (map fst ars) (k * L) = Some (row (k * L))).
  { intros k Hk. rewrite M0. unfold crows. assert (k * L < length leads * L) by nia.
    rewrite nth_error_map, (nth_error_nth' _ 0), seq_nth by (rewrite ?seq_length; auto). auto. }
  split; [|split].
  - intros k Hk. exists (row (k * L)). split; auto. apply MM; [apply Vt|]. apply Heads. lia.
  - rewrite El. apply MM; [apply Vt|]. apply Heads. lia.
  - intros Nd. destruct (pf_C104_rows_which_a_mask_matches m Nm) as [X _]. destruct X as (l & Ll & Nl & Il).
    + intros p q x S1 S2. destruct (Home _ _ S1), (Home _ _ S2). congruence.
    + intros p x S1. destruct (Home _ _ S1) as [-> Q]. lia.
    + rewrite <- Ll. rewrite <- (seq_length (length leads) 0), <- (map_length (fun k => row (k * L))). apply NoDup_incl_length.
      * apply NoDup_map_inj; [|apply seq_NoDup]. intros i j Ii Ij Q. apply in_seq in Ii, Ij. assert (i * L = j * L); [|nia].
        apply (proj1 (NoDup_nth_error _) Nd); [apply nth_error_Some; rewrite At by lia; discriminate|]. rewrite !At by lia. f_equal. auto.
      * intros r Ir. apply in_map_iff in Ir as (k & <- & Ik). apply in_seq in Ik. apply Il. split; [apply Vt|]. apply MM; [apply Vt|]. apply Heads. lia.
Qed.

(** Plain and singled leads of Plain Bob Minimus keep to the mask 1xxx.  Three plain leads ring 24 different rows; the mask allows at most six leads. *)
Example C155_example :
  exists plain single pb sb p c b rows, pn_block_parse (s2l "-14-14,12") 4 = Ret (Ok plain) /\ pn_parse (s2l "1234") 4 = Ret (Ok single) /\
    pn_block_to_block_from_rounds tt plain = Ret pb /\ block_leftover_row pb = Ret p /\ mask_matches (mask_parse (s2l "1xxx")) p = Ret true /\
    pn_block_to_block_from_rounds tt (removelast plain ++ [single]) = Ret sb /\ block_leftover_row sb = Ret c /\
    mask_matches (mask_parse (s2l "1xxx")) c = Ret true /\ mask_matches (mask_parse (s2l "1xxx")) [0; 1; 2; 3] = Ret true /\
    pn_block_to_block_from_rounds tt (concat [plain; plain; plain]) = Ret b /\
    block_rows b = Ret rows /\ block_len b = 24 /\ length (nodup (list_eq_dec Nat.eq_dec) (firstn 24 rows)) = 24 /\
    fact (length (mask_unspecified_places (mask_parse (s2l "1xxx")))) = 6.
Proof. do 8 eexists. splits; vm_compute; reflexivity. Qed.
