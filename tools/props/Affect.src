(** Property theorems C139: the bells which calls affect. *)
(*IMPORTS*)
From Verif Require Import Base Bell Stage Row Utils SameStageVec Block PlaceNot Class Method Call Spec SpecVec SpecBlock SpecClass SpecPn SpecAffect SpecHunt ListFacts
  BellFacts RowFacts MulFacts GroupFacts SsvFacts BlockFacts PnFacts PnFacts2 PnFacts3 LawFacts ClassFacts BellPathFacts BobFacts AffectFacts.
From Verif Require Import PnThms BlockThms TouchThms.
Local Open Scope list_scope.
(*BODY*)

(** C139: two blocks of equally many changes take a bell along the same path exactly when, wherever the bell is, the two changes
    rung there take it to the same place. *)
Theorem C139_same_paths :
  forall A (d : A) s pns pns' b b' x fp fp', pns <> [] -> length pns = length pns' ->
    Forall (fun pn => legal pn /\ pn_stage pn = s) pns -> Forall (fun pn => legal pn /\ pn_stage pn = s) pns' ->
    pn_block_to_block_from_rounds d pns = Ret b -> pn_block_to_block_from_rounds d pns' = Ret b' ->
    block_full_path_of b x = Ret (Some fp) -> block_full_path_of b' x = Ret (Some fp') ->
    (fp' = fp <-> forall i p pn pn', nth_error fp i = Some p -> nth_error pns i = Some pn -> nth_error pns' i = Some pn' -> same_move pn pn' p).
Proof.
  intros A d s pns pns' b b' x fp fp' N Ln F F' E E' P P'.
  assert (Hs : 0 < s). { destruct pns as [|pn pns]; [congruence|]. inversion F as [|? ? [[H _] <-] _]. auto. }
  pose proof (valid_rounds s Hs) as V. rewrite rounds_seq in V.
  assert (X : x < s).
  { destruct (Nat.lt_ge_cases x s) as [H|H]; auto. destruct (pf_C45_to_block A d pns (seq 0 s) s N F (proj1 V) (proj2 V)) as (b0 & rs & lo & _ & _ & H0 & Eb).
    rewrite (Eb eq_refl) in E. injection E as ->. destruct (proj2 (pf_C26_block_paths A b s _ lo x H0) H) as [_ Q]. congruence. }
  assert (N' : pns' <> []). { intros ->. destruct pns; [congruence|discriminate]. }
  destruct (full_path_of d s pns b x X N F E) as (rs & lo & R & Q). rewrite P in Q. injection Q as ->.
  destruct (full_path_of d s pns' b' x X N' F' E') as (rs' & lo' & R' & Q'). rewrite P' in Q'. injection Q' as ->.
  rewrite <- (rung_paths s x X pns pns' (seq 0 s) (seq 0 s) rs rs' lo lo') by auto. unfold path_in. cbn [map]. split; [intros H; injection H; auto|].
  intros H. rewrite H. reflexivity.
Qed.

(** C139: if a call takes the place of the last changes of a lead, then a bell ends the lead where it ends the plain lead exactly when
    the call and the changes covered take it from where it is to the same place. *)
Theorem C139_affected_bells :
  forall s pns pns' b lead called c c' h t t' p x, 0 < s -> pns <> [] -> pns' <> [] ->
    Forall (fun pn => legal pn /\ pn_stage pn = s) (b ++ pns) -> Forall (fun pn => legal pn /\ pn_stage pn = s) pns' ->
    pn_block_to_block_from_rounds tt (b ++ pns) = Ret lead -> pn_block_to_block_from_rounds tt (b ++ pns') = Ret called ->
    le_bob pns = Ret c -> call_transposition c = Ret t -> le_bob pns' = Ret c' -> call_transposition c' = Ret t' ->
    block_get_row lead (length b) = Some h -> nth_error h p = Some x ->
    exists head head', block_leftover_row lead = Ret head /\ block_leftover_row called = Ret head' /\
      ((exists q, nth_error head q = Some x /\ nth_error head' q = Some x) <-> exists q, nth_error t q = Some p /\ nth_error t' q = Some p).
Proof.
  intros s pns pns' b lead called c c' h t t' p x Hs N N' F F' El Ec Ep Et Ep' Et' G X. pose proof F as F0. apply Forall_app in F0 as [Fb Fp].
  destruct (pf_C100_lead_head_of_a_called_lead s pns pns b lead lead Hs N N F Fp El El) as
    (c1 & pl & ph & cv & un & h1 & t1 & h1' & A1 & A2 & A3 & A4 & A5 & A6 & A7 & A8 & A9 & A10 & A11).
  destruct (pf_C100_lead_head_of_a_called_lead s pns pns' b lead called Hs N' N F F' El Ec) as
    (c2 & pl2 & ph2 & cv2 & un2 & h2 & t2 & h2' & B1 & B2 & B3 & B4 & B5 & B6 & B7 & B8 & B9 & B10 & B11).
  rewrite Ep in A1. injection A1 as <-. rewrite Et in A9. injection A9 as <-. rewrite Ep' in B1. injection B1 as <-. rewrite Et' in B9. injection B9 as <-.
  rewrite G in A7, B7. injection A7 as <-. injection B7 as <-. exists h1', h2'. split; auto. split; auto.
  assert (Vh : vrow s h).
  { pose proof (valid_rounds s Hs) as V. rewrite rounds_seq in V. assert (Nb : b ++ pns <> []) by (destruct b; [auto|discriminate]).
    destruct (pf_C45_to_block unit tt (b ++ pns) (seq 0 s) s Nb F (proj1 V) (proj2 V)) as (b0 & rs & lo & _ & R & H0 & Eb).
    rewrite (Eb eq_refl) in El. injection El as ->. pose proof (holds_brep _ _ _ _ H0) as Hb.
    erewrite brep_get_row in G by eauto. apply nth_error_In in G. unfold all_rows_of in G. apply in_app_or in G as [G|[<-|[]]].
    - destruct (rung_vrow s _ _ _ _ V R) as [Vr _]. rewrite map_map in G. cbn [fst] in G. rewrite map_id in G.
      assert (Al : Forall (vrow s) (seq 0 s :: rs)) by (constructor; auto). rewrite Forall_forall in Al. apply Al.
      rewrite (app_removelast_last [] (l := seq 0 s :: rs)) by discriminate. apply in_or_app. auto.
    - apply (rung_vrow s _ _ _ _ V R). }
  assert (Vt : forall k kc kt, Forall (fun pn => legal pn /\ pn_stage pn = s) k -> k <> [] -> le_bob k = Ret kc -> call_transposition kc = Ret kt -> vrow s kt).
  { intros k kc kt Fk Nk Ek Ekt. pose proof (valid_rounds s Hs) as V. rewrite rounds_seq in V.
    destruct (pf_C45_to_block unit tt k (seq 0 s) s Nk Fk (proj1 V) (proj2 V)) as (b0 & rs & lo & _ & R & H0 & Eb).
    unfold le_bob in Ek. rewrite (Eb eq_refl) in Ek. cbn [bind] in Ek. injection Ek as <-. unfold call_transposition in Ekt. cbn [call_block] in Ekt.
    pose proof (holds_brep _ _ _ _ H0) as Hb. rewrite (brep_leftover _ _ _ _ Hb) in Ekt. injection Ekt as <-. apply (rung_vrow s _ _ _ _ V R). }
  pose proof (Vt pns c t Fp N Ep Et) as V1. pose proof (Vt pns' c' t' F' N' Ep' Et') as V2.
  rewrite (row_mul_ok s) in A10 by auto. injection A10 as <-. rewrite (row_mul_ok s) in B10 by auto. injection B10 as <-.
  assert (K : forall k q, vrow s k -> (nth_error (rmul h k) q = Some x <-> nth_error k q = Some p)).
  { intros k q Vk. rewrite nth_error_rmul. destruct (nth_error k q) as [y|] eqn:Ek; cbn [option_map]; [|split; discriminate].
    assert (Y : y < length h). { rewrite (proj2 Vh), <- (proj2 Vk). apply Vk. eapply nth_error_In; eauto. }
    pose proof (nth_error_nth' h 0 Y) as Ny. split; intros Q; injection Q as Q.
    - f_equal. rewrite Q in Ny. rewrite <- (place_in_unique h x y (proj1 Vh) Ny). apply place_in_unique; auto. apply Vh.
    - subst y. rewrite X in Ny. injection Ny as <-. auto. }
  split; intros (q & Q1 & Q2); exists q; (split; [apply (K _ _ V1)|apply (K _ _ V2)]; auto).
Qed.

(** C139: on any number of bells from four on, a bob (14 instead of 12) affects the bells in the second, third and fourth places, and a
    single (1234 instead of 12) those in the third and the fourth. *)
Theorem C139_bobs_and_singles :
  forall n, 4 <= n -> exists plain bob single, pn_parse (s2l "12") n = Ret (Ok plain) /\ pn_parse (s2l "14") n = Ret (Ok bob) /\
    pn_parse (s2l "1234") n = Ret (Ok single) /\
    forall p, p < n -> (same_move plain bob p <-> p = 0 \/ 4 <= p) /\ (same_move plain single p <-> p < 2 \/ 4 <= p).
Proof.
  intros n H. destruct (parse_three n H) as (plain & bob & single & tail & E1 & E2 & E3 & F & T1 & T2 & T3).
  inversion F as [|? ? [L1 S1] _]; subst. destruct (pn_transposition_ok plain L1) as (t & Et & V & _). rewrite T1 in Et. injection Et as <-.
  exists plain, bob, single. splits; auto. intros p P. split; [eapply same_bob|eapply same_single]; eauto.
Qed.

(** C139: so in a touch of leads which end with 12, with bobs 14 and singles 1234, a bell rings what it rings in as many plain leads
    exactly when at every bob it is in front or above the fourth place, and at every single in the first two places or above the fourth. *)
Theorem C139_bells_which_no_call_affects :
  forall A (d : A) n plain bob single body calls b b' x fp fp',
    pn_parse (s2l "12") n = Ret (Ok plain) -> pn_parse (s2l "14") n = Ret (Ok bob) -> pn_parse (s2l "1234") n = Ret (Ok single) ->
    4 <= n -> Forall (fun pn => legal pn /\ pn_stage pn = n) body -> calls <> [] -> Forall (fun c => In c [plain; bob; single]) calls ->
    pn_block_to_block_from_rounds d (concat (repeat (body ++ [plain]) (length calls))) = Ret b ->
    pn_block_to_block_from_rounds d (concat (map (fun c => body ++ [c]) calls)) = Ret b' ->
    block_full_path_of b x = Ret (Some fp) -> block_full_path_of b' x = Ret (Some fp') ->
    (fp' = fp <-> forall j c p, nth_error calls j = Some c -> nth_error fp (j * (length body + 1) + length body) = Some p ->
       (c = bob -> p = 0 \/ 4 <= p) /\ (c = single -> p < 2 \/ 4 <= p)).
Proof.
  intros A d n plain bob single body calls b b' x fp fp' E1 E2 E3 H Fb Nc Fc Eb Eb' P P'.
  destruct (parse_three n H) as (p0 & b0 & s0 & tail & G1 & G2 & G3 & F & T1 & T2 & T3).
  rewrite E1 in G1. injection G1 as <-. rewrite E2 in G2. injection G2 as <-. rewrite E3 in G3. injection G3 as <-.
  assert (L1 : legal plain /\ pn_stage plain = n) by (inversion F; auto).
  assert (Er : repeat (body ++ [plain]) (length calls) = map (fun c => body ++ [c]) (repeat plain (length calls))).
  { clear. induction calls as [|c calls IH]; auto. cbn [length repeat map]. rewrite IH. auto. }
  rewrite Er in Eb. set (pns := concat (map (fun c => body ++ [c]) (repeat plain (length calls)))) in *.
  set (pns' := concat (map (fun c => body ++ [c]) calls)) in *.
  assert (Ll : length pns = length calls * (length body + 1)) by (unfold pns; rewrite leads_len, repeat_length; auto).
  assert (Ll' : length pns' = length calls * (length body + 1)) by (apply leads_len).
  assert (Pc : 0 < length calls) by (destruct calls; [congruence|cbn; lia]).
  assert (Fl : forall l, Forall (fun pn => legal pn /\ pn_stage pn = n) l -> Forall (fun pn => legal pn /\ pn_stage pn = n) (concat (map (fun c => body ++ [c]) l))).
  { intros l Fl. apply Forall_concat. apply Forall_forall. intros z Z. apply in_map_iff in Z as (c & <- & C). apply Forall_app. split; auto.
    rewrite Forall_forall in Fl. constructor; auto. }
  assert (Fp : Forall (fun pn => legal pn /\ pn_stage pn = n) pns). { apply Fl. apply Forall_forall. intros z Z. apply repeat_spec in Z. subst z. auto. }
  assert (Fp' : Forall (fun pn => legal pn /\ pn_stage pn = n) pns').
  { apply Fl. eapply Forall_impl; [|exact Fc]. intros c C. rewrite Forall_forall in F. auto. }
  assert (Np : pns <> []). { intros Z. rewrite Z in Ll. cbn in Ll. nia. }
  rewrite (pf_C139_same_paths A d n pns pns' b b' x fp fp' Np ltac:(lia) Fp Fp' Eb Eb' P P').
  destruct (pn_transposition_ok plain (proj1 L1)) as (t & Et & V & _). rewrite T1, (proj2 L1) in *. injection Et as <-.
  assert (Pl : forall i p, nth_error fp i = Some p -> p < n).
  { intros i p I. assert (X : x < n).
    { destruct (Nat.lt_ge_cases x n) as [Hx|Hx]; auto. exfalso. assert (Hs : 0 < n) by lia. pose proof (valid_rounds n Hs) as Vr. rewrite rounds_seq in Vr.
      destruct (pf_C45_to_block A d pns (seq 0 n) n Np Fp (proj1 Vr) (proj2 Vr)) as (b0 & rs & lo & _ & _ & H0 & Eb0).
      rewrite (Eb0 eq_refl) in Eb. injection Eb as ->. destruct (proj2 (pf_C26_block_paths A b n _ lo x H0) Hx) as [_ Q]. congruence. }
    destruct (full_path_of d n pns b x X Np Fp Eb) as (rs & lo & R & Q). rewrite P in Q. injection Q as ->.
    assert (Hs : 0 < n) by lia. pose proof (valid_rounds n Hs) as Vr. rewrite rounds_seq in Vr. destruct (rung_vrow n _ _ _ _ Vr R) as [Vrs _].
    apply nth_error_In in I. change (In p (map (fun r => place_in r x) (seq 0 n :: rs))) in I. apply in_map_iff in I as (r & <- & I).
    assert (Vx : vrow n r). { destruct I as [<-|I]; auto. rewrite Forall_forall in Vrs. auto. } rewrite <- (proj2 Vx). apply place_in_lt; [apply Vx|rewrite (proj2 Vx); auto]. }
  split.
  - intros K j c p J Q. assert (Jl : j < length calls) by (apply nth_error_Some; congruence). pose proof (Pl _ _ Q) as Pn.
    assert (M : same_move plain c p).
    { apply (K (j * (length body + 1) + length body)); auto.
      - unfold pns. rewrite leads_call. apply nth_error_repeat. auto.
      - unfold pns'. rewrite leads_call. auto. }
    split; intros ->; [eapply same_bob in M|eapply same_single in M]; eauto.
  - intros K i p pn pn' Q I I'. pose proof (Pl _ _ Q) as Pn. destruct (leads_index (length body) i) as (j & k & -> & [Kb| ->]).
    + assert (Jl : j < length calls).
      { assert (j * (length body + 1) + k < length pns) by (apply nth_error_Some; congruence). rewrite Ll in *. nia. }
      unfold pns in I. rewrite leads_body in I by (rewrite ?repeat_length; auto). unfold pns' in I'. rewrite leads_body in I' by auto.
      rewrite I in I'. injection I' as <-. apply (same_move_refl n); auto; apply nth_error_In in I; rewrite Forall_forall in Fb; apply Fb; auto.
    + unfold pns in I. rewrite leads_call in I. unfold pns' in I'. rewrite leads_call in I'.
      apply nth_error_In in I as I2. apply repeat_spec in I2. subst pn.
      rewrite Forall_forall in Fc. pose proof (Fc pn' (nth_error_In _ _ I')) as C. destruct (K j pn' p I' Q) as [K1 K2].
      destruct C as [<-|[<-|[<-|[]]]]; [apply (same_move_refl n); auto; apply L1|eapply same_bob; eauto|eapply same_single; eauto].
Qed.

(** Three leads of Plain Bob Minor, the first with a bob and the second with a single: the 4 is in 5ths and 6ths place at the calls and keeps to
    its plain course; the 3 is in 2nds place at the bob and does not. *)
Example C139_example :
  exists plain bob single b b', pn_parse (s2l "12") 6 = Ret (Ok plain) /\ pn_parse (s2l "14") 6 = Ret (Ok bob) /\ pn_parse (s2l "1234") 6 = Ret (Ok single) /\
    plain_bob 6 = removelast (plain_bob 6) ++ [plain] /\
    pn_block_to_block_from_rounds tt (concat (repeat (plain_bob 6) 3)) = Ret b /\
    pn_block_to_block_from_rounds tt (concat (map (fun c => removelast (plain_bob 6) ++ [c]) [bob; single; plain])) = Ret b' /\
    (exists fp, block_full_path_of b 3 = Ret (Some fp) /\ block_full_path_of b' 3 = Ret (Some fp) /\
       nth_error fp 11 = Some 4 /\ nth_error fp 23 = Some 5) /\
    (exists fp fp', block_full_path_of b 2 = Ret (Some fp) /\ block_full_path_of b' 2 = Ret (Some fp') /\ nth_error fp 11 = Some 1 /\
       nth_error fp 12 = Some 1 /\ nth_error fp' 12 = Some 2).
Proof.
  do 5 eexists. split; [vm_compute; reflexivity|]. split; [vm_compute; reflexivity|]. split; [vm_compute; reflexivity|].
  split; [vm_compute; reflexivity|]. split; [vm_compute; reflexivity|]. split; [vm_compute; reflexivity|].
  split; [eexists|do 2 eexists]; splits; vm_compute; reflexivity.
Qed.
