(** Property theorems C159: a touch with a set of calls left out falls into round blocks. *)
(*IMPORTS*)
From Verif Require Import Base Spec ListFacts Bell Stage Parity Row RowFacts MulFacts ParityFacts GroupFacts
  Utils SameStageVec SpecVec SsvFacts Block SpecBlock BlockFacts PlaceNot SpecPn PnFacts PnFacts2 LawFacts LawFacts2 QjoinFacts InsertFacts QsplitFacts.
Local Open Scope list_scope.
(*BODY*)

(** C159: take a block which comes back to the row it is rung from, cut into parts ending with the same call [pc], and another change [pp].  Let [q] be
    the row from the transposition of [pp] to that of [pc], and suppose there are as many parts as the order of [q], and that the last row of each part
    before the call times [q] is the last row of the next before the call.  Then each part with [pp] for the call, rung from its first row, comes back to it and rings the
    same rows. *)
Theorem C159_without_a_set_of_calls :
  forall n pp pc tp tc tp' q fuel l bodies rowss start v,
    legal pp -> pn_stage pp = n -> legal pc -> pn_stage pc = n -> Forall (Forall (fun pn => legal pn /\ pn_stage pn = n)) bodies ->
    pn_transposition pp = Ret tp -> pn_transposition pc = Ret tc -> row_inv tp = Ret tp' -> row_mul tc tp' = Ret q -> closure fuel q = Ret l ->
    length bodies = length l -> valid_row start -> length start = n ->
    pn_block_to_rows (concat (map (fun body => body ++ [pc]) bodies)) start = Ret (Ok v) -> ssv_rows v = Ret (concat rowss ++ [start]) ->
    Forall2 (fun body rows => length rows = length (body ++ [pc])) bodies rowss ->
    (forall k a b, nth_error rowss k = Some a -> nth_error rowss (S k) = Some b -> row_mul (last a []) q = Ret (last b [])) ->
    Forall2 (fun body rows => exists s rest v', rows = s :: rest /\ pn_block_to_rows (body ++ [pp]) s = Ret (Ok v') /\
      ssv_rows v' = Ret (rows ++ [s])) bodies rowss.
Proof.
  intros n pp pc tp tc tp' q fuel l bodies rowss start v Lp Sp Lc Sc Fb Etp Etc Ei Eq Cl Ln Vs Ls Ev Er Fl Lk.
  destruct (pn_transposition_ok pp Lp) as (tp0 & E1 & Vtp & Rp). rewrite Etp in E1. injection E1 as <-. rewrite Sp in *.
  destruct (pn_transposition_ok pc Lc) as (tc0 & E2 & Vtc & Rc). rewrite Etc in E2. injection E2 as <-. rewrite Sc in *.
  rewrite row_inv_ok in Ei by apply Vtp. injection Ei as <-. rewrite (row_mul_ok n) in Eq by auto using valid_rinv. injection Eq as <-.
  assert (Vq : vrow n (rmul tc (rinv tp))) by auto using valid_rmul, valid_rinv.
  destruct (closure_result n _ fuel l Vq Cl) as (d & D0 & D1 & _ & ->). rewrite map_length, seq_length in Ln.
  assert (V : vrow n start) by (split; auto).
  assert (Nb : bodies <> []) by (destruct bodies; cbn in Ln; [lia|discriminate]).
  destruct (to_rows_ok (concat (map (fun body => body ++ [pc]) bodies)) start n) as (v' & rs & x & Ev' & Rv & Ru); auto.
  { destruct bodies as [|[|? ?] ?]; cbn in Ln; [lia|discriminate|discriminate]. }
  { clear - Fb Lc Sc. induction Fb as [|body bodies H Fb IH]; cbn [map concat]; [constructor|]. repeat (apply Forall_app; split; auto). }
  rewrite Ev in Ev'. injection Ev' as <-. rewrite (rep_rows _ _ _ Rv) in Er. injection Er as Er.
  pose proof (rung_last _ _ _ _ Ru) as Lx. rewrite Er, last_last in Lx. subst x.
  assert (Fl' : Forall2 (fun (body : list place_not) (rows : list row) => length rows = S (length body)) bodies rowss).
  { clear - Fl. induction Fl as [|body rows bodies rowss E F IH]; constructor; auto. rewrite E, app_length. cbn. lia. }
  pose proof (unchain pc bodies rowss Fl' Nb _ _ _ Ru Er) as C.
  assert (Hh : hd [] (hd [] rowss) = start).
  { destruct Fl' as [|body [|r0 rs0] ? ? L ?]; [congruence|discriminate|]. cbn in Er |- *. congruence. }
  assert (Vh : vrow n (hd [] (hd [] rowss))) by (rewrite Hh; auto).
  pose proof (chain_end n pc tp tc Rc Vtp Vtc bodies rowss start C Vh Lk) as Z.
  assert (Vl : vrow n (last (hd [] rowss) [])).
  { clear - C Vh. destruct C as [body r rs x z H R|body r rs x bodies r' rs' rowss z H R C]; cbn [hd] in *; rewrite (rung_last _ _ _ _ H); eapply rung_vrow; eauto. }
  rewrite Ln, D1, (rmul_rounds_r n) in Z by apply Vl. rewrite <- Hh in Z.
  pose proof (chain_parts n pp pc tp tc Rp Rc Vtp Vtc bodies rowss start C Vh Lk Z) as F2.
  clear - F2 Fb Lp Sp. induction F2 as [|body rows bodies rowss (r & rs & x & -> & V & H & R) F2 IH]; constructor.
  - inversion Fb; subst. destruct (rung_rows (pn_stage pp) (body ++ [pp]) r (rs ++ [r]) r) as (v' & Ev & Es); auto.
    + destruct body; discriminate.
    + apply Forall_app. auto.
    + eapply rung_app; eauto. econstructor; eauto. constructor.
    + exists r, rs, v'. auto.
  - apply IH. inversion Fb; auto.
Qed.

(** The extent of Plain Bob Doubles with three bobs: without them it falls into three plain courses. *)
Example C159_example :
  exists plain pp pc tp tc tp' q l v0 v1 v2 rows0 rows1 rows2 v,
    let body := plain ++ plain ++ plain ++ removelast plain in
    pn_block_parse (s2l "5.1.5.1.5,125") 5 = Ret (Ok plain) /\ pn_parse (s2l "125") 5 = Ret (Ok pp) /\ pn_parse (s2l "145") 5 = Ret (Ok pc) /\
    pn_transposition pp = Ret tp /\ pn_transposition pc = Ret tc /\ row_inv tp = Ret tp' /\ row_mul tc tp' = Ret q /\
    closure 100 q = Ret l /\ length l = 3 /\
    pn_block_to_rows ((body ++ [pc]) ++ (body ++ [pc]) ++ (body ++ [pc])) [0; 1; 2; 3; 4] = Ret (Ok v) /\
    ssv_rows v = Ret ((rows0 ++ rows1 ++ rows2) ++ [[0; 1; 2; 3; 4]]) /\ map (@length row) [rows0; rows1; rows2] = [40; 40; 40] /\
    length (body ++ [pc]) = 40 /\ length (nodup (list_eq_dec Nat.eq_dec) (rows0 ++ rows1 ++ rows2)) = 120 /\
    row_mul (last rows0 []) q = Ret (last rows1 []) /\ row_mul (last rows1 []) q = Ret (last rows2 []) /\
    pn_block_to_rows (body ++ [pp]) [0; 1; 2; 3; 4] = Ret (Ok v0) /\ ssv_rows v0 = Ret (rows0 ++ [[0; 1; 2; 3; 4]]) /\
    pn_block_to_rows (body ++ [pp]) [0; 3; 1; 2; 4] = Ret (Ok v1) /\ ssv_rows v1 = Ret (rows1 ++ [[0; 3; 1; 2; 4]]) /\
    pn_block_to_rows (body ++ [pp]) [0; 2; 3; 1; 4] = Ret (Ok v2) /\ ssv_rows v2 = Ret (rows2 ++ [[0; 2; 3; 1; 4]]).
Proof.
  destruct (pn_block_parse (s2l "5.1.5.1.5,125") 5) as [[plain|]| | |] eqn:E; try discriminate E. exists plain.
  vm_compute in E. injection E as <-.
  do 10 eexists.
  set (rows := fun s => match pn_block_parse (s2l "5.1.5.1.5,125") 5 with
    | Ret (Ok p) => match pn_block_to_rows (p ++ p ++ p ++ p) s with Ret (Ok v) => match ssv_rows v with Ret l => firstn 40 l | _ => [] end | _ => [] end
    | _ => [] end).
  exists (rows [0; 1; 2; 3; 4]), (rows [0; 3; 1; 2; 4]), (rows [0; 2; 3; 1; 4]). eexists. cbv zeta. splits; vm_compute; reflexivity.
Qed.
