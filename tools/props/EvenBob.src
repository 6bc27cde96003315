(** Property theorems C142: touches of Plain Bob without odd calls. *)
(*IMPORTS*)
From Coq Require Import Factorial.
From Verif Require Import Base Spec ListFacts Bell Stage Parity Row RowFacts MulFacts ParityFacts GroupFacts
  Utils SameStageVec SpecVec SsvFacts Block SpecBlock BlockFacts PlaceNot SpecPn PnFacts PnFacts2 PnFacts3 LawFacts LawFacts2
  Class SpecClass Method SpecMethod MethodFacts SymFacts3 ShapeFacts BellPathFacts SpecHunt HuntFacts BobFacts AffectFacts CalledBobFacts EvenFacts EvenBobFacts.
From Verif Require Import PnThms.
Local Open Scope list_scope.
(*BODY*)

(** C142: on 5, 6, 9, 10, 13, 14, ... bells, a touch of Plain Bob in which every change at a lead end keeps the treble in front and swaps an even number of
    pairs repeats a row if it has more than half of the rows of the stage. *)
Theorem C142_even_calls :
  forall A (d : A) n calls b ars lo, 3 <= n -> n mod 4 = 1 \/ n mod 4 = 2 -> calls <> [] ->
    Forall (fun c => legal c /\ pn_stage c = n /\ In 0 (pn_places c) /\ Nat.Even ((n - length (pn_places c)) / 2)) calls ->
    pn_block_to_block_from_rounds d (concat (map (fun c => removelast (plain_bob n) ++ [c]) calls)) = Ret b -> block_holds b n ars lo ->
    NoDup (map fst ars) -> 2 * length ars <= fact n.
Proof.
  intros A d n calls b ars lo Hn M N F E H Nd. assert (Hn0 : 0 < n) by lia. change (fun c => removelast (plain_bob n) ++ [c]) with (called_lead n) in E.
  set (pns := concat (map (called_lead n) calls)) in *. set (K := length calls).
  assert (Fl : Forall (fun pn => legal pn /\ pn_stage pn = n) pns).
  { apply leads_legal; [lia|]. eapply Forall_impl; [|exact F]. intros c (X & Y & _). auto. }
  assert (Ll : length pns = K * (2 * n)).
  { unfold pns, called_lead. rewrite leads_len, bob_body_len by auto. unfold K. f_equal. lia. }
  assert (Np : pns <> []) by (intros Q; rewrite Q in Ll; unfold K in Ll; destruct calls; [congruence|cbn [length] in Ll; nia]).
  destruct (lead_crs n pns Hn0 Np Fl d) as (b0 & ars0 & E0 & H0 & M0 & _). rewrite E in E0. injection E0 as <-.
  assert (ars = ars0) as <- by (destruct H as (_ & _ & _ & _ & _ & X & _), H0 as (_ & _ & _ & _ & _ & Y & _); congruence).
  destruct (leads_trof n calls ltac:(lia) N) as [T1 T2]. fold pns K in T1, T2.
  assert (Vtr : forall x, vrow n (trof n pns x)) by (intros x; apply trof_v; auto).
  assert (Vcr : forall x, vrow n (crs n (trof n pns) x)) by (intros x; apply (Vc n (trof n pns) Hn Vtr)).
  assert (T3 : forall k, k < K -> nth 0 (trof n pns (k * (2 * n) + (2 * n - 1))) 0 = 0 /\ sgn (trof n pns (k * (2 * n) + (2 * n - 1))) = false).
  { intros k Hk. destruct (nth_error calls k) as [c|] eqn:Ec; [|apply nth_error_None in Ec; unfold K in Hk; lia]. rewrite (T2 k c Ec).
    rewrite Forall_forall in F. destruct (F c (nth_error_In _ _ Ec)) as (Lc & Sc & I0 & Ev). destruct (pn_transposition_ok c Lc) as (t & Et & V & R). rewrite Et. split.
    - rewrite Sc, rounds_seq in R. replace n with (S (n - 1)) in R by lia. cbn [seq] in R. inversion R as [|? ? ? ? J R1|? ? ? ? ? J]; subst; [auto|contradiction].
    - apply (even_transposition c t n); auto. }
  pose proof (fun k Hk => proj1 (T3 k Hk)) as T4. pose proof (hrow_v n (2 * n - 1) Hn0) as Ve.
  assert (Sp : forall k, k < K -> crs n (trof n pns) (k * (2 * n) + (2 * n - 1)) = rmul (crs n (trof n pns) (k * (2 * n))) (lead_end_row n)).
  { intros k Hk. apply (lead_split n K); auto. lia. }
  assert (Hd : forall k, k <= K -> sgn (crs n (trof n pns) (k * (2 * n))) = false).
  { induction k as [|k IH]; intros Hk.
    - change (0 * (2 * n)) with 0. cbn [crs]. rewrite rounds_seq. apply sgn_rounds.
    - replace (S k * (2 * n)) with (S (k * (2 * n) + (2 * n - 1))) by lia. cbn [crs]. rewrite (sgn_rmul n), (proj2 (T3 k ltac:(lia))), Sp, (sgn_rmul n), IH, lead_end_even by (auto; lia). auto. }
  set (idx := flat_map (fun k => [k * (2 * n); k * (2 * n) + (2 * n - 1)]) (seq 0 K)).
  assert (Ii : forall i, In i idx -> exists k, k < K /\ (i = k * (2 * n) \/ i = k * (2 * n) + (2 * n - 1))).
  { intros i I. apply in_flat_map in I as (k & Hk & [<-|[<-|[]]]); apply in_seq in Hk; exists k; (split; [lia|auto]). }
  assert (Li : length idx = 2 * K).
  { unfold idx. rewrite <- (seq_length K 0) at 2. generalize (seq 0 K). induction l; cbn [flat_map app length]; lia. }
  assert (Ni : NoDup idx).
  { unfold idx. assert (G : forall a, NoDup (flat_map (fun k => [k * (2 * n); k * (2 * n) + (2 * n - 1)]) (seq a K))); [|apply G]. clear - Hn.
    assert (X : forall m a i, In i (flat_map (fun k => [k * (2 * n); k * (2 * n) + (2 * n - 1)]) (seq a m)) -> a * (2 * n) <= i).
    { intros m a i I. apply in_flat_map in I as (k & Hk & [<-|[<-|[]]]); apply in_seq in Hk; nia. }
    induction K as [|m IH]; intros a; [constructor|]. cbn [seq flat_map app]. constructor; [|constructor; auto].
    - intros [I|I]; [lia|]. apply X in I. nia.
    - intros I. apply X in I. nia. }
  assert (Bd : 2 * length (map (crs n (trof n pns)) idx) <= fact (n - 1)).
  { apply even_rows_with_treble; auto.
    - rewrite M0 in Nd. unfold crows in Nd. rewrite Ll in Nd. apply NoDup_map_inj; auto. intros x y Hx Hy Q.
      assert (B : forall i, In i idx -> i < K * (2 * n)) by (intros i I; apply Ii in I as (k & Hk & [-> | ->]); nia).
      apply (proj1 (NoDup_nth_error _) Nd); [rewrite map_length, seq_length; auto|].
      rewrite !nth_error_map, !(nth_error_nth' _ 0), !seq_nth by (rewrite ?seq_length; auto). cbn [option_map Nat.add]. f_equal. auto.
    - apply Forall_forall. intros r R. apply in_map_iff in R as (i & <- & _). auto.
    - intros r R. apply in_map_iff in R as (i & <- & I). apply Ii in I as (k & Hk & [-> | ->]).
      + split; [|apply Hd; lia]. rewrite (nth_error_nth' _ 0) by (rewrite (proj2 (Vcr _)); auto). f_equal. apply (treble_heads n K); auto. lia.
      + rewrite Sp by auto. assert (Vm : vrow n (rmul (crs n (trof n pns) (k * (2 * n))) (lead_end_row n))) by (apply valid_rmul; auto). split.
        * rewrite (nth_error_nth' _ 0) by (rewrite (proj2 Vm); auto). f_equal. rewrite nth_rmul by (unfold lead_end_row; rewrite (proj2 Ve); auto). rewrite lead_end_nth by lia.
          change (second_from n 0) with 0. apply (treble_heads n K); auto. lia.
        * rewrite (sgn_rmul n), Hd, lead_end_even by (auto; lia). auto. }
  rewrite map_length, Li in Bd. rewrite <- (map_length fst), M0. unfold crows. rewrite map_length, seq_length, Ll. replace n with (S (n - 1)) at 2 by lia.
  change (fact (S (n - 1))) with (S (n - 1) * fact (n - 1)). nia.
Qed.

(** C142: so on 6, 10, 14, ... bells there is no extent of Plain Bob with plain leads and bobs only: a touch of more than half of the rows which does not repeat a row has a single. *)
Theorem C142_extents_need_singles :
  forall A (d : A) n plain bob single calls b ars lo, n mod 4 = 2 -> 4 <= n ->
    pn_parse (s2l "12") n = Ret (Ok plain) -> pn_parse (s2l "14") n = Ret (Ok bob) -> pn_parse (s2l "1234") n = Ret (Ok single) ->
    calls <> [] -> Forall (fun c => In c [plain; bob; single]) calls ->
    pn_block_to_block_from_rounds d (concat (map (fun c => removelast (plain_bob n) ++ [c]) calls)) = Ret b -> block_holds b n ars lo ->
    NoDup (map fst ars) -> fact n < 2 * length ars -> In single calls.
Proof.
  intros A d n plain bob single calls b ars lo M Hn E1 E2 E3 N F E H Nd L.
  pose proof (Nat.div_mod n 4 ltac:(lia)) as D. rewrite M in D.
  destruct (call_places n Hn) as (plain' & bob' & single' & E1' & E2' & E3' & Fl & L1 & L2 & _); [exists (2 * (n / 4) + 1); lia|].
  rewrite E1 in E1'. injection E1' as <-. rewrite E2 in E2'. injection E2' as <-. rewrite E3 in E3'. injection E3' as <-.
  destruct (in_dec pn_eq_dec single calls) as [I|I]; auto. exfalso.
  assert (2 * length ars <= fact n); [|lia].
  apply (pf_C142_even_calls A d n calls b ars lo); auto; [lia|]. rewrite Forall_forall in *. intros c Hc.
  assert (Ev : Nat.Even ((n - 2) / 2)) by (replace (n - 2) with (2 * (n / 4) * 2) by lia; rewrite Nat.div_mul by lia; exists (n / 4); auto).
  destruct (F c Hc) as [<-|[<-|[<-|[]]]]; [| |contradiction].
  - destruct (Fl plain ltac:(cbn; auto)) as (X & Y & Z). rewrite L1. auto.
  - destruct (Fl bob ltac:(cbn; auto)) as (X & Y & Z). rewrite L2. auto.
Qed.

(** A touch of Plain Bob Minor with half of the rows of the stage, from plain leads and bobs only. *)
Example C142_example :
  exists plain bob b rows, pn_parse (s2l "12") 6 = Ret (Ok plain) /\ pn_parse (s2l "14") 6 = Ret (Ok bob) /\
    pn_block_to_block_from_rounds tt (concat (map (fun c => removelast (plain_bob 6) ++ [c])
      (concat (repeat [plain; plain; plain; plain; bob; plain; plain; plain; bob; bob] 3)))) = Ret b /\
    block_leftover_row b = Ret [0; 1; 2; 3; 4; 5] /\ block_rows b = Ret rows /\ 2 * block_len b = fact 6 /\
    length (nodup (list_eq_dec Nat.eq_dec) (firstn 360 rows)) = 360.
Proof. do 4 eexists. splits; vm_compute; reflexivity. Qed.
