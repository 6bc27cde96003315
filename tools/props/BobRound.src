(** Property theorems C147: an extent of Plain Bob on an even number of bells has a single. *)
(*IMPORTS*)
From Coq Require Import Factorial.
From Verif Require Import Base Spec ListFacts Bell Stage Parity Row RowFacts MulFacts ParityFacts GroupFacts
  Utils SameStageVec SpecVec SsvFacts Block SpecBlock BlockFacts PlaceNot SpecPn PnFacts PnFacts2 PnFacts3 LawFacts LawFacts2
  SymFacts3 ShapeFacts SpecHunt HuntFacts BobFacts CalledBobFacts EvenFacts EvenBobFacts ConjFacts RoundFacts SpecRound RoundFacts2 RoundFacts3.
Local Open Scope list_scope.
(*BODY*)

(** C147: take a touch of Plain Bob on an even number of bells, six or more, in which each lead ends with a plain lead end, a bob or a single.
    If it comes round, and has each row of the stage exactly once, then some lead ends with a single. *)
Theorem C147_extents_need_singles :
  forall A (d : A) n plain bob single calls b ars, Nat.Even n -> 6 <= n ->
    pn_parse (s2l "12") n = Ret (Ok plain) -> pn_parse (s2l "14") n = Ret (Ok bob) -> pn_parse (s2l "1234") n = Ret (Ok single) ->
    calls <> [] -> Forall (fun c => In c [plain; bob; single]) calls ->
    pn_block_to_block_from_rounds d (concat (map (fun c => removelast (plain_bob n) ++ [c]) calls)) = Ret b ->
    block_holds b n ars (seq 0 n) -> NoDup (map fst ars) -> length ars = fact n -> In single calls.
Proof.
  intros A d n plain bob single calls b ars Ev Hn6 E1 E2 E3 N F E H Nd L. assert (H4 : 4 <= n) by lia. assert (H2 : 2 <= n) by lia. assert (Hn : 0 < n) by lia.
  destruct (call_places n H4 Ev) as (plain' & bob' & single' & E1' & E2' & E3' & Fl & L1 & L2 & _).
  rewrite E1 in E1'. injection E1' as <-. rewrite E2 in E2'. injection E2' as <-. rewrite E3 in E3'. injection E3' as <-.
  destruct (calls_transpositions n H4) as (plain' & bob' & single' & E1' & E2' & E3' & _ & Tb & _).
  rewrite E1 in E1'. injection E1' as <-. rewrite E2 in E2'. injection E2' as <-. clear E3'. change (pn_transposition bob = Ret (bob_change n)) in Tb.
  pose proof (plain_transposition n plain H4 E1) as Tp. rewrite Forall_forall in Fl.
  destruct (Fl plain ltac:(cbn; auto)) as (Pl & Ps & _). destruct (Fl bob ltac:(cbn; auto)) as (Bl & Bs & _).
  destruct (in_dec pn_eq_dec single calls) as [I|I]; auto. exfalso.
  set (isb := fun c => if pn_eq_dec c bob then true else false). set (bs := map isb calls).
  assert (Et : concat (map (called_lead n) calls) = touch_of (called_lead n plain) (called_lead n bob) bs).
  { unfold touch_of, bs. rewrite map_map. f_equal. apply map_ext_in. intros c Hc. unfold isb. rewrite Forall_forall in F. destruct (pn_eq_dec c bob) as [->|Nb]; auto.
    destruct (F c Hc) as [<-|[<-|[<-|[]]]]; auto; contradiction. }
  change (pn_block_to_block_from_rounds d (concat (map (called_lead n) calls)) = Ret b) in E. rewrite Et in E.
  assert (Fp : Forall (fun pn => legal pn /\ pn_stage pn = n) (called_lead n plain)) by (apply called_legal; auto).
  assert (Fc : Forall (fun pn => legal pn /\ pn_stage pn = n) (called_lead n bob)) by (apply called_legal; auto).
  assert (Lp : length (called_lead n plain) = 2 * n) by (apply called_len; auto).
  assert (Lc : length (called_lead n bob) = length (called_lead n plain)) by (rewrite Lp; apply called_len; auto).
  assert (Np : called_lead n plain <> []) by (intros Q; rewrite Q in Lp; cbn in Lp; lia).
  assert (Nc : bs <> []) by (unfold bs; destruct calls; [congruence|discriminate]).
  destruct (lead_crs n (touch_of (called_lead n plain) (called_lead n bob) bs) Hn (touch_nonempty n _ _ _ Hn Np Fp Lc Nc) (touch_legal n _ _ _ Fp Fc) d) as (b0 & ars0 & E0 & H0 & M0 & _).
  rewrite E in E0. injection E0 as <-. rewrite (touch_length _ _ bs Lc) in *.
  assert (ars0 = ars) as -> by (destruct H as (_ & _ & _ & _ & _ & X & _), H0 as (_ & _ & _ & _ & _ & Y & _); congruence).
  assert (La : length ars = length bs * (2 * n)) by (rewrite <- (map_length fst), M0; unfold crows; rewrite map_length, seq_length, Lp; auto).
  set (R := trow n (called_lead n plain) (called_lead n bob) bs).
  assert (Inj : forall i j, i < length bs -> j < length bs -> R (i * (2 * n)) = R (j * (2 * n)) -> i = j).
  { intros i j Hi Hj Q. assert (At : forall i, i < length bs -> nth_error (map fst ars) (i * (2 * n)) = Some (R (i * (2 * n)))).
    { intros a Ha. rewrite M0. unfold crows. assert (a * (2 * n) < length bs * length (called_lead n plain)) by (rewrite Lp; apply Nat.mul_lt_mono_pos_r; lia).
      rewrite nth_error_map, (nth_error_nth' _ 0), seq_nth by (rewrite ?seq_length; auto). auto. }
    assert (X : i * (2 * n) = j * (2 * n)); [|apply Nat.mul_cancel_r in X; lia].
    apply (proj1 (NoDup_nth_error _) Nd); [apply nth_error_Some; rewrite At by auto; discriminate|]. rewrite !At by auto. f_equal. auto. }
  set (T := map (end_from n) (seq 0 n)) in *. set (Q := lead_end_row n). assert (VQ : vrow n Q) by (apply hrow_v; lia).
  assert (Ep : head_of n (called_lead n plain) (called_lead n plain) = rmul Q T) by (unfold head_of; rewrite Lp; apply called_head; auto).
  assert (Eb : head_of n (called_lead n plain) (called_lead n bob) = rmul Q (bob_change n)) by (unfold head_of; rewrite Lp; apply called_head; auto).
  assert (Vt : vrow n T) by (destruct (pn_transposition_ok plain Pl) as (t & Z & V & _); rewrite Tp in Z; injection Z as <-; rewrite Ps in V; auto).
  assert (Vb : vrow n (bob_change n)) by (destruct (pn_transposition_ok bob Bl) as (t & Z & V & _); rewrite Tb in Z; injection Z as <-; rewrite Bs in V; auto).
  assert (Eh : rmul Q T = bob_head n) by (symmetry; apply bob_head_rmul; auto).
  assert (Tt : rmul T T = row_rounds n).
  { apply (nth_ext _ _ 0 0); [unfold rmul; rewrite map_length, rounds_seq, seq_length; apply Vt|]. intros p Hp. unfold rmul in Hp. rewrite map_length, (proj2 Vt) in Hp. rewrite nth_rmul by (rewrite (proj2 Vt); auto).
    unfold T. rewrite (end_nth n p) by auto. rewrite end_nth by (apply end_from_lt; auto). rewrite rounds_seq, seq_nth by auto.
    unfold end_from. destruct (Nat.ltb_spec p 2) as [Z|Z]; [bools|]. destruct (Nat.ltb_spec (first_from n p) 2) as [W|W]; [|apply first_from_twice; auto].
    exfalso. clear - Z W. unfold first_from in W. destruct (parts_of p) as [[_ [m K]]|[_ [m K]]]; rewrite K in W; rewrite ?even2, ?even21 in W; [|lia]. destruct (2 * m + 1 <? n); lia. }
  assert (V3 : vrow n (three n)) by (apply valid_rmul; auto).
  assert (Rd : R (length bs * length (called_lead n plain)) = row_rounds n).
  { destruct H as (_ & _ & _ & _ & _ & _ & X), H0 as (_ & _ & _ & _ & _ & _ & Y). rewrite X in Y. injection Y as Y. rewrite rounds_seq. symmetry. exact Y. }
  assert (Fn : fact n = n * ((n - 1) * fact (n - 2))).
  { replace n with (S (S (n - 2))) at 1 by lia. change (fact (S (S (n - 2)))) with (S (S (n - 2)) * (S (n - 2) * fact (n - 2))). f_equal; [lia|]. f_equal. lia. }
  assert (Fm : fact (n - 1) = (n - 1) * fact (n - 2)).
  { replace (n - 1) with (S (n - 2)) by lia. reflexivity. }
  destruct (bob_ends n H2) as (D0 & D1 & D2).
  assert (Pw : forall j, crs n (trof n (plain_bob n)) (j * (2 * n)) = rpow (bob_head n) j).
  { intros j. apply (crs_pow n (2 * n)); auto; [lia|intros; apply trof_v; auto using bob_legal, bob_nonempty|].
    intros t. pose proof (trof_period n (plain_bob n) Hn (bob_nonempty n) (bob_legal n H2) t) as Z. rewrite bob_length in Z by lia. exact Z. }
  assert (Sq : sgn Q = Nat.odd ((n - 2) / 2)) by (apply lead_end_sgn; auto).
  destruct (full_circuit n (called_lead n plain) (called_lead n bob) bs (n - 1) 3) as (c & (m & Oc) & Ek); rewrite ?Ep, ?Eb, ?Eh, ?Lp; auto; try lia.
  - apply bob_head_0; auto.
  - apply (bob_low n 0); auto; lia.
  - rewrite <- Eh, (sgn_rmul n), Sq, (two_places_sgn n plain T) by auto. apply xorb_nilpotent.
  - rewrite (sgn_rmul n), Sq, (two_places_sgn n bob (bob_change n)) by auto. apply xorb_nilpotent.
  - rewrite <- Lp. auto.
  - rewrite <- Pw. auto.
  - intros j Hj. rewrite <- Pw. auto.
  - rewrite <- Eh. unfold Q, T. rewrite bob_difference by auto. rewrite (cj_rpow n), three_cubed by auto. apply (cj_rounds n Q); auto.
  - rewrite Fm. apply (full_arith _ n); auto. rewrite <- La, L, Fn. auto.
  - destruct (fact_quarter (n - 2) ltac:(lia)) as (k & K). apply (full_odd c m k (fact (n - 2)) (n - 1)); auto; try lia.
    rewrite <- Ek. apply (full_arith _ n); auto. rewrite <- La, L, Fn. auto.
Qed.

(** An extent of Plain Bob Minor, with two singles: it comes round after the 720 rows of the stage. *)
Example C147_example :
  exists plain bob single b rows, pn_parse (s2l "12") 6 = Ret (Ok plain) /\ pn_parse (s2l "14") 6 = Ret (Ok bob) /\ pn_parse (s2l "1234") 6 = Ret (Ok single) /\
    let part := [plain; plain; plain; plain; bob; plain; plain; plain; bob; bob] in
    let half := part ++ part ++ removelast part ++ [single] in
    pn_block_to_block_from_rounds tt (concat (map (fun c => removelast (plain_bob 6) ++ [c]) (half ++ half))) = Ret b /\
    block_leftover_row b = Ret [0; 1; 2; 3; 4; 5] /\ block_rows b = Ret rows /\ block_len b = fact 6 /\
    length (nodup (list_eq_dec Nat.eq_dec) (firstn 720 rows)) = 720.
Proof. do 5 eexists. do 3 (split; [vm_compute; reflexivity|]). cbv zeta. splits; vm_compute; reflexivity. Qed.
