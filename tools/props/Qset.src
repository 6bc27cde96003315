(** Property theorems C154: in a round touch the calls come in sets. *)
(*IMPORTS*)
From Coq Require Import Factorial.
From Verif Require Import Base Spec ListFacts Bell Stage Parity Row RowFacts MulFacts ParityFacts GroupFacts
  Utils SameStageVec SpecVec SsvFacts Block SpecBlock BlockFacts PlaceNot SpecPn PnFacts PnFacts2 PnFacts3 LawFacts LawFacts2
  SymFacts3 ShapeFacts SpecHunt HuntFacts BobFacts SpecGrandsire GrandsireFacts EvenFacts EvenBobFacts ConjFacts RoundFacts SpecRound RoundFacts2 QsetFacts.
Local Open Scope list_scope.
(*BODY*)

(** C154: take a touch of plain leads and called leads which comes round without repeating a row, and suppose that a plain lead from any of its lead heads leads to
    one of its lead heads.  Let [q] be the row from the lead head of the plain lead to that of the called lead.  Then with each lead the lead whose
    head is the product of its head with [q] is called too, and the number of calls is a multiple of the order of [q]. *)
Theorem C154_calls_come_in_sets :
  forall A (d : A) n plain called calls pb cb p c p' q g l' b ars, 0 < n -> plain <> [] -> length called = length plain -> calls <> [] ->
    Forall (fun pn => legal pn /\ pn_stage pn = n) plain -> Forall (fun pn => legal pn /\ pn_stage pn = n) called ->
    pn_block_to_block_from_rounds tt plain = Ret pb -> block_leftover_row pb = Ret p ->
    pn_block_to_block_from_rounds tt called = Ret cb -> block_leftover_row cb = Ret c ->
    row_inv p = Ret p' -> row_mul c p' = Ret q -> closure g q = Ret l' ->
    pn_block_to_block_from_rounds d (touch_of plain called calls) = Ret b -> block_holds b n ars (seq 0 n) -> NoDup (map fst ars) ->
    (forall i r, i < length calls -> nth_error (map fst ars) (i * length plain) = Some r ->
      exists j r', j < length calls /\ composition r p r' /\ nth_error (map fst ars) (j * length plain) = Some r') ->
    (forall i r, nth_error calls i = Some true -> nth_error (map fst ars) (i * length plain) = Some r ->
      exists j r', nth_error calls j = Some true /\ row_mul r q = Ret r' /\ nth_error (map fst ars) (j * length plain) = Some r') /\
    Nat.divide (length l') (length (filter (fun called => called) calls)).
Proof.
  intros A d n plain called calls pb cb p c p' q g l' b ars Hn Np Lc Nc Fp Fc Epb Ep Ecb Ec Ei Eq Cl' E H Nd Cd.
  destruct (lead_crs n plain Hn Np Fp tt) as (pb0 & pars & E1 & H1 & _). rewrite Epb in E1. injection E1 as <-.
  pose proof (Nca n plain called Hn Np Fp Lc) as Nca.
  destruct (lead_crs n called Hn Nca Fc tt) as (cb0 & cars & E2 & H2 & _). rewrite Ecb in E2. injection E2 as <-. rewrite Lc in H2.
  change (crs n (trof n plain) (length plain)) with (head_of n plain plain) in H1. change (crs n (trof n called) (length plain)) with (head_of n plain called) in H2.
  assert (p = head_of n plain plain) as -> by (destruct H1 as (_ & _ & _ & _ & _ & _ & X); congruence).
  assert (c = head_of n plain called) as -> by (destruct H2 as (_ & _ & _ & _ & _ & _ & X); congruence).
  pose proof (head_of_v n plain called Hn Np Fp Fc Lc false) as Vp. pose proof (head_of_v n plain called Hn Np Fp Fc Lc true) as Vc. cbn beta iota in Vp, Vc.
  rewrite row_inv_ok in Ei by apply Vp. injection Ei as <-. rewrite (row_mul_ok n) in Eq by auto using valid_rinv. injection Eq as <-.
  assert (Vq : vrow n (rmul (head_of n plain called) (rinv (head_of n plain plain)))) by auto using valid_rmul, valid_rinv.
  destruct (closure_result n _ g l' Vq Cl') as (e & Q0 & Q1 & Q2 & ->).
  rewrite map_length, seq_length in *.
  destruct (lead_crs n (touch_of plain called calls) Hn (touch_nonempty n _ _ _ Hn Np Fp Lc Nc) (touch_legal n _ _ _ Fp Fc) d) as (b0 & ars0 & E0 & H0 & M0 & _).
  rewrite E in E0. injection E0 as <-. rewrite (touch_length plain called calls Lc) in *.
  assert (ars0 = ars) as -> by (destruct H as (_ & _ & _ & _ & _ & X & _), H0 as (_ & _ & _ & _ & _ & Y & _); congruence).
  pose proof (touch_L n plain called Hn Np Fp Lc) as L0. assert (K0 : 0 < length calls) by (destruct calls; [congruence|cbn; lia]).
  assert (At : forall i, i < length calls -> nth_error (map fst ars) (i * length plain) = Some (trow n plain called calls (i * length plain))).
  { intros i Hi. rewrite M0. unfold crows. assert (i * length plain < length calls * length plain) by nia.
    rewrite nth_error_map, (nth_error_nth' _ 0), seq_nth by (rewrite ?seq_length; auto). auto. }
  assert (Round : trow n plain called calls (length calls * length plain) = row_rounds n).
  { rewrite rounds_seq. destruct H as (_ & _ & _ & _ & _ & _ & X), H0 as (_ & _ & _ & _ & _ & _ & Y). rewrite X in Y. injection Y as Y. symmetry. exact Y. }
  assert (Inj : forall i j, i < length calls -> j < length calls ->
    trow n plain called calls (i * length plain) = trow n plain called calls (j * length plain) -> i = j).
  { intros i j Hi Hj Q. assert (X : i * length plain = j * length plain); [|nia].
    apply (proj1 (NoDup_nth_error _) Nd); [apply nth_error_Some; rewrite At by auto; discriminate|]. rewrite !At by auto. f_equal. auto. }
  assert (Closed : forall i, i < length calls -> exists j, j < length calls /\
    trow n plain called calls (j * length plain) = rmul (trow n plain called calls (i * length plain)) (head_of n plain plain)).
  { intros i Hi. destruct (Cd i _ Hi (At i Hi)) as (j & r' & Hj & C & R). exists j. split; auto. apply composition_fun in C. rewrite At in R by auto. injection R as R. rewrite R. auto. }
  assert (Vt : forall i, i < length calls -> vrow n (trow n plain called calls (i * length plain))) by (intros i _; apply trow_v; auto).
  assert (Step : forall i, i < length calls -> trow n plain called calls (S i mod length calls * length plain) =
    rmul (trow n plain called calls (i * length plain)) (if nth i calls false then head_of n plain called else head_of n plain plain)).
  { intros i Hi. replace (if nth i calls false then head_of n plain called else head_of n plain plain) with (head_of n plain (if nth i calls false then called else plain))
      by (destruct (nth i calls false); auto). rewrite <- trow_head by auto.
    destruct (Nat.eq_dec (S i) (length calls)) as [X|X]; [rewrite X, Nat.mod_same, Round by lia; auto|rewrite Nat.mod_small by lia; auto]. }
  split.
  - intros i r Ci Er. assert (Hi : i < length calls) by (apply nth_error_Some; congruence). rewrite At in Er by auto. injection Er as <-.
    destruct (called_together n (length calls) (fun i => trow n plain called calls (i * length plain)) (head_of n plain plain) (head_of n plain called)
      (fun i => nth i calls false)) with (i := i) as (j & Hj & Cj & Ej); auto; [apply nth_error_nth; auto|].
    exists j, (trow n plain called calls (j * length plain)). split; [|split; [|auto]].
    + rewrite <- Cj. apply nth_error_nth'. auto.
    + rewrite (row_mul_ok n) by auto. rewrite <- Ej. auto.
  - rewrite <- count_calls.
    apply (calls_in_sets n (length calls) e (fun i => trow n plain called calls (i * length plain)) (head_of n plain plain) (head_of n plain called)); auto.
Qed.

(** The extent of Plain Bob Doubles: twelve leads with three bobs; the bobs are a set of three. *)
Example C154_example :
  exists plain bob pb cb p c p' q l' b rows, pn_block_parse (s2l "5.1.5.1.5,125") 5 = Ret (Ok plain) /\ pn_parse (s2l "145") 5 = Ret (Ok bob) /\
    pn_block_to_block_from_rounds tt plain = Ret pb /\ block_leftover_row pb = Ret p /\
    pn_block_to_block_from_rounds tt (removelast plain ++ [bob]) = Ret cb /\ block_leftover_row cb = Ret c /\
    row_inv p = Ret p' /\ row_mul c p' = Ret q /\ closure 100 q = Ret l' /\ length l' = 3 /\
    pn_block_to_block_from_rounds tt (touch_of plain (removelast plain ++ [bob]) (concat (repeat [false; false; false; true] 3))) = Ret b /\
    block_leftover_row b = Ret [0; 1; 2; 3; 4] /\ block_rows b = Ret rows /\ block_len b = 120 /\
    length (nodup (list_eq_dec Nat.eq_dec) (firstn 120 rows)) = 120 /\
    length (filter (fun called => called) (concat (repeat [false; false; false; true] 3))) = 3 /\
    row_mul (nth 30 rows []) q = Ret (nth 70 rows []) /\ row_mul (nth 70 rows []) q = Ret (nth 110 rows []) /\
    forallb (fun i => match row_mul (nth (i * 10) rows []) p with
      | Ret r => existsb (fun j => if list_eq_dec Nat.eq_dec (nth (j * 10) rows []) r then true else false) (seq 0 12)
      | _ => false end) (seq 0 12) = true.
Proof. do 11 eexists. splits; vm_compute; reflexivity. Qed.
