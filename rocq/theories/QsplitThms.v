(** Property theorems C159: a touch with a set of calls left out falls into round blocks. *)

(* Generated from tools/props/Qsplit.src: the proofs behind PropsQsplit.v. *)
From Verif Require Import Base Spec ListFacts Bell Stage Parity Row RowFacts MulFacts ParityFacts GroupFacts
  Utils SameStageVec SpecVec SsvFacts Block SpecBlock BlockFacts PlaceNot SpecPn PnFacts PnFacts2 LawFacts LawFacts2 QjoinFacts InsertFacts QsplitFacts.
Local Open Scope list_scope.

Lemma pf_C159_without_a_set_of_calls :
  forall n pp pc tp tc tp' q fuel l bodies rowss start v,
    legal pp -> pn_stage pp = n -> legal pc -> pn_stage pc = n -> Forall (Forall (fun pn => legal pn /\ pn_stage pn = n)) bodies ->
    pn_transposition pp = Ret tp -> pn_transposition pc = Ret tc -> row_inv tp = Ret tp' -> row_mul tc tp' = Ret q -> closure fuel q = Ret l ->
    length bodies = length l -> valid_row start -> length start = n ->
    pn_block_to_rows (concat (map (fun body => body ++ [pc]) bodies)) start = Ret (Ok v) -> ssv_rows v = Ret (concat rowss ++ [start]) ->
    Forall2 (fun body rows => length rows = length (body ++ [pc])) bodies rowss ->
    (forall k a b, nth_error rowss k = Some a -> nth_error rowss (S k) = Some b -> row_mul (last a []) q = Ret (last b [])) ->
    Forall2 (fun body rows => exists s rest v', rows = s :: rest /\ pn_block_to_rows (body ++ [pp]) s = Ret (Ok v') /\
      ssv_rows v' = Ret (rows ++ [s])) bodies rowss.
Proof.
  intros n pp pc tp tc tp' q fuel l bodies rowss start v Lp Sp Lc Sc Fb Etp Etc Ei Eq Cl Ln Vs Ls Ev Er Fl Lk.
  destruct (pn_transposition_ok pp Lp) as (tp0 & E1 & Vtp & Rp). rewrite Etp in E1. injection E1 as <-. rewrite Sp in *.
  destruct (pn_transposition_ok pc Lc) as (tc0 & E2 & Vtc & Rc). rewrite Etc in E2. injection E2 as <-. rewrite Sc in *.
  rewrite row_inv_ok in Ei by apply Vtp. injection Ei as <-. rewrite (row_mul_ok n) in Eq by auto using valid_rinv. injection Eq as <-.
  assert (Vq : vrow n (rmul tc (rinv tp))) by auto using valid_rmul, valid_rinv.
  destruct (closure_result n _ fuel l Vq Cl) as (d & D0 & D1 & _ & ->). rewrite map_length, seq_length in Ln.
  assert (V : vrow n start) by (split; auto).
  assert (Nb : bodies <> []) by (destruct bodies; cbn in Ln; [lia|discriminate]).
  destruct (to_rows_ok (concat (map (fun body => body ++ [pc]) bodies)) start n) as (v' & rs & x & Ev' & Rv & Ru); auto.
  { destruct bodies as [|[|? ?] ?]; cbn in Ln; [lia|discriminate|discriminate]. }
  { clear - Fb Lc Sc. induction Fb as [|body bodies H Fb IH]; cbn [map concat]; [constructor|]. repeat (apply Forall_app; split; auto). }
  rewrite Ev in Ev'. injection Ev' as <-. rewrite (rep_rows _ _ _ Rv) in Er. injection Er as Er.
  pose proof (rung_last _ _ _ _ Ru) as Lx. rewrite Er, last_last in Lx. subst x.
  assert (Fl' : Forall2 (fun (body : list place_not) (rows : list row) => length rows = S (length body)) bodies rowss).
  { clear - Fl. induction Fl as [|body rows bodies rowss E F IH]; constructor; auto. rewrite E, app_length. cbn. lia. }
  pose proof (unchain pc bodies rowss Fl' Nb _ _ _ Ru Er) as C.
  assert (Hh : hd [] (hd [] rowss) = start).
  { destruct Fl' as [|body [|r0 rs0] ? ? L ?]; [congruence|discriminate|]. cbn in Er |- *. congruence. }
  assert (Vh : vrow n (hd [] (hd [] rowss))) by (rewrite Hh; auto).
  pose proof (chain_end n pc tp tc Rc Vtp Vtc bodies rowss start C Vh Lk) as Z.
  assert (Vl : vrow n (last (hd [] rowss) [])).
  { clear - C Vh. destruct C as [body r rs x z H R|body r rs x bodies r' rs' rowss z H R C]; cbn [hd] in *; rewrite (rung_last _ _ _ _ H); eapply rung_vrow; eauto. }
  rewrite Ln, D1, (rmul_rounds_r n) in Z by apply Vl. rewrite <- Hh in Z.
  pose proof (chain_parts n pp pc tp tc Rp Rc Vtp Vtc bodies rowss start C Vh Lk Z) as F2.
  clear - F2 Fb Lp Sp. induction F2 as [|body rows bodies rowss (r & rs & x & -> & V & H & R) F2 IH]; constructor.
  - inversion Fb; subst. destruct (rung_rows (pn_stage pp) (body ++ [pp]) r (rs ++ [r]) r) as (v' & Ev & Es); auto.
    + destruct body; discriminate.
    + apply Forall_app. auto.
    + eapply rung_app; eauto. econstructor; eauto. constructor.
    + exists r, rs, v'. auto.
  - apply IH. inversion Fb; auto.
Qed.
