(** Property theorems C157: round blocks joined by a set of calls. *)
(*IMPORTS*)
From Verif Require Import Base Spec ListFacts Bell Stage Parity Row RowFacts MulFacts ParityFacts GroupFacts
  Utils SameStageVec SpecVec SsvFacts Block SpecBlock BlockFacts PlaceNot SpecPn PnFacts PnFacts2 LawFacts LawFacts2 QjoinFacts.
Local Open Scope list_scope.
(*BODY*)

(** C157: take blocks which all end with the same change [pp], each rung from a row to which it comes back, and another change [pc].  Let [q] be the
    row from the transposition of [pp] to that of [pc], and suppose there are as many blocks as the order of [q], and that the last row of each block
    before [pp] times [q] is the last row of the next before [pp].  Then the blocks with [pc] for [pp], rung after each other from the start of the
    first, come back to that start, and ring exactly the rows of all the blocks, block after block. *)
Theorem C157_blocks_joined_by_a_set_of_calls :
  forall n pp pc tp tc tp' q fuel l bodies rowss start rest others,
    legal pp -> pn_stage pp = n -> legal pc -> pn_stage pc = n -> Forall (Forall (fun pn => legal pn /\ pn_stage pn = n)) bodies ->
    pn_transposition pp = Ret tp -> pn_transposition pc = Ret tc -> row_inv tp = Ret tp' -> row_mul tc tp' = Ret q -> closure fuel q = Ret l ->
    length bodies = length l ->
    Forall2 (fun body rows => exists s v, valid_row s /\ length s = n /\ pn_block_to_rows (body ++ [pp]) s = Ret (Ok v) /\
      ssv_rows v = Ret (rows ++ [s])) bodies rowss ->
    (forall k a b, nth_error rowss k = Some a -> nth_error rowss (S k) = Some b -> row_mul (last a []) q = Ret (last b [])) ->
    rowss = (start :: rest) :: others ->
    exists v, pn_block_to_rows (concat (map (fun body => body ++ [pc]) bodies)) start = Ret (Ok v) /\ ssv_rows v = Ret (concat rowss ++ [start]).
Proof.
  intros n pp pc tp tc tp' q fuel l bodies rowss start rest others Lp Sp Lc Sc Fb Etp Etc Ei Eq Cl Ln F Lk Er.
  destruct (pn_transposition_ok pp Lp) as (tp0 & E1 & Vtp & Rp). rewrite Etp in E1. injection E1 as <-. rewrite Sp in *.
  destruct (pn_transposition_ok pc Lc) as (tc0 & E2 & Vtc & Rc). rewrite Etc in E2. injection E2 as <-. rewrite Sc in *.
  rewrite row_inv_ok in Ei by apply Vtp. injection Ei as <-. rewrite (row_mul_ok n) in Eq by auto using valid_rinv. injection Eq as <-.
  assert (Vq : vrow n (rmul tc (rinv tp))) by auto using valid_rmul, valid_rinv.
  destruct (closure_result n _ fuel l Vq Cl) as (d & D0 & D1 & _ & ->). rewrite map_length, seq_length in Ln.
  assert (F2 : Forall2 (part n pp) bodies rowss).
  { clear - Fb F Lp Sp. induction F as [|body rows bodies rowss (s & v & V & L & E & Ev) F IH]; constructor.
    - inversion Fb; subst. eapply part_of_rows; eauto. split; auto.
    - apply IH. inversion Fb; auto. }
  destruct (chain_ok n pp pc tp tc Rp Rc Vtp Vtc bodies rowss F2) as [Vx C].
  { destruct bodies; cbn in Ln; [lia|discriminate]. }
  { exact Lk. }
  rewrite Ln, D1, (rmul_rounds_r n) in C by apply Vx.
  assert (Z : rmul (last (hd [] rowss) []) tp = start /\ vrow n start).
  { subst rowss. cbn [hd] in *. inversion F2 as [|? ? ? ? (r & rs & x & E & V & H & R) _]; subst. injection E as -> ->.
    rewrite (rung_last _ _ _ _ H) in *. split; auto. eapply rings_fun; [|exact R]. apply (rings_rmul (pn_stage pp)); auto. }
  destruct Z as [Z Vs]. rewrite Z in C. destruct (chain_rung _ _ _ _ C) as (r & rs & E & Eh & Ru).
  assert (r = start) as -> by (rewrite <- Eh, Er; auto).
  destruct (to_rows_ok (concat (map (fun body => body ++ [pc]) bodies)) start n) as (v & rs' & x & Ev & Rv & Ru'); auto.
  - destruct bodies as [|[|? ?] ?]; cbn in Ln; [lia|discriminate|discriminate].
  - clear - Fb Lc Sc. induction Fb as [|body bodies H Fb IH]; cbn [map concat]; [constructor|]. repeat (apply Forall_app; split; auto).
  - exists v. split; auto. rewrite (rep_rows _ _ _ Rv), E. destruct (rung_fun _ _ _ _ _ _ Ru Ru') as [<- _]. auto.
Qed.

(** Three plain courses of Plain Bob Doubles, joined by three bobs to an extent. *)
Example C157_example :
  exists plain pp pc tp tc tp' q l v0 v1 v2 rows0 rows1 rows2 v,
    let body := plain ++ plain ++ plain ++ removelast plain in
    pn_block_parse (s2l "5.1.5.1.5,125") 5 = Ret (Ok plain) /\ pn_parse (s2l "125") 5 = Ret (Ok pp) /\ pn_parse (s2l "145") 5 = Ret (Ok pc) /\
    pn_transposition pp = Ret tp /\ pn_transposition pc = Ret tc /\ row_inv tp = Ret tp' /\ row_mul tc tp' = Ret q /\
    closure 100 q = Ret l /\ length l = 3 /\
    pn_block_to_rows (body ++ [pp]) [0; 1; 2; 3; 4] = Ret (Ok v0) /\ ssv_rows v0 = Ret (rows0 ++ [[0; 1; 2; 3; 4]]) /\
    pn_block_to_rows (body ++ [pp]) [0; 3; 1; 2; 4] = Ret (Ok v1) /\ ssv_rows v1 = Ret (rows1 ++ [[0; 3; 1; 2; 4]]) /\
    pn_block_to_rows (body ++ [pp]) [0; 2; 3; 1; 4] = Ret (Ok v2) /\ ssv_rows v2 = Ret (rows2 ++ [[0; 2; 3; 1; 4]]) /\
    row_mul (last rows0 []) q = Ret (last rows1 []) /\ row_mul (last rows1 []) q = Ret (last rows2 []) /\
    pn_block_to_rows ((body ++ [pc]) ++ (body ++ [pc]) ++ (body ++ [pc])) [0; 1; 2; 3; 4] = Ret (Ok v) /\
    ssv_rows v = Ret ((rows0 ++ rows1 ++ rows2) ++ [[0; 1; 2; 3; 4]]) /\
    length (nodup (list_eq_dec Nat.eq_dec) (rows0 ++ rows1 ++ rows2)) = 120.
Proof.
  destruct (pn_block_parse (s2l "5.1.5.1.5,125") 5) as [[plain|]| | |] eqn:E; try discriminate E. exists plain.
  vm_compute in E. injection E as <-.
  do 10 eexists.
  set (rows := fun s => match pn_block_parse (s2l "5.1.5.1.5,125") 5 with
    | Ret (Ok p) => match pn_block_to_rows (p ++ p ++ p ++ p) s with Ret (Ok v) => match ssv_rows v with Ret l => firstn 40 l | _ => [] end | _ => [] end
    | _ => [] end).
  exists (rows [0; 1; 2; 3; 4]), (rows [0; 3; 1; 2; 4]), (rows [0; 2; 3; 1; 4]). eexists. cbv zeta. splits; vm_compute; reflexivity.
Qed.
