(** Property theorems C100: touches, the leads of methods and calls put together. *)

(* Generated from tools/props/Touch.src; the proofs are in TouchThms.v. *)
From Verif Require Import Base Bell Stage Parity Row Utils SameStageVec Block PlaceNot Class Method Call Spec SpecVec SpecBlock SpecPn ListFacts
  BellFacts RowFacts MulFacts GroupFacts GroupFacts2 SsvFacts BlockFacts PnFacts PnFacts2 PnFacts3 LawFacts LawFacts2 SpecTouch TouchFacts.
From Verif Require Import PnThms BlockThms MethodThms Laws2Thms.
Local Open Scope list_scope.
From Verif Require Import TouchThms.

(** C100: putting the leads of any changes together, one after another onto an empty block, gives the block of
    all these changes; it comes to the product of their lead heads. *)
Theorem C100_leads_put_together :
  forall A (d : A) s pnss e, 0 < s -> block_empty s = Ret e ->
    Forall (fun pns => pns <> [] /\ Forall (fun pn => legal pn /\ pn_stage pn = s) pns) pnss ->
    exists leads heads t lo, Forall2 (fun pns l => pn_block_to_block_from_rounds d pns = Ret l) pnss leads /\
      Forall2 (fun l h => block_leftover_row l = Ret h) leads heads /\ put_together e leads t /\
      block_len t = list_sum (map (@length place_not) pnss) /\
      block_leftover_row t = Ret lo /\ is_product (seq 0 s :: heads) lo /\
      (pnss <> [] -> pn_block_to_block_from_rounds d (concat pnss) = Ret t).
Proof. exact pf_C100_leads_put_together. Qed.
Print Assumptions C100_leads_put_together.

(** C100: a bob or a single put into a lead: taking out of the lead, from any index on, as many rows as the call
    covers, and putting the rows of the call there, gives the lead of the changes among which those of the call
    stand in the place of the ones covered.  It is as long as the lead was. *)
Theorem C100_calls_replace_changes :
  forall A (d : A) s pns pns' i, 0 < s -> pns' <> [] -> i + length pns' <= length pns ->
    Forall (fun pn => legal pn /\ pn_stage pn = s) pns -> Forall (fun pn => legal pn /\ pn_stage pn = s) pns' ->
    exists lead bob single, pn_block_to_block_from_rounds d pns = Ret lead /\ le_bob pns' = Ret bob /\ le_single pns' = Ret single /\
    forall c, c = bob \/ c = single ->
    exists before rest covered after called b, block_split lead i = Ret (Some (before, rest)) /\
      block_split rest (cover_len c) = Ret (Some (covered, after)) /\
      block_extend before (block_map_annots (call_block c) (fun _ => d)) = Ret (called, Ok tt) /\
      block_extend called after = Ret (b, Ok tt) /\ block_len b = block_len lead /\
      pn_block_to_block_from_rounds d (firstn i pns ++ pns' ++ skipn (i + length pns') pns) = Ret b.
Proof. exact pf_C100_calls_replace_changes. Qed.
Print Assumptions C100_calls_replace_changes.

(** C100: with the call at the end of the lead, the row before the call times the transposition of the call is
    the new lead head; so the new lead head is the plain one, times the inverse of what the covered changes
    do, times the transposition of the call. *)
Theorem C100_lead_head_of_a_called_lead :
  forall s pns pns' b lead b', 0 < s -> pns' <> [] -> pns <> [] ->
    Forall (fun pn => legal pn /\ pn_stage pn = s) (b ++ pns) -> Forall (fun pn => legal pn /\ pn_stage pn = s) pns' ->
    pn_block_to_block_from_rounds tt (b ++ pns) = Ret lead -> pn_block_to_block_from_rounds tt (b ++ pns') = Ret b' ->
    exists c plain plain_head covers undone h t h', le_bob pns' = Ret c /\ pn_block_to_block_from_rounds tt pns = Ret plain /\
      block_leftover_row plain = Ret covers /\ row_inv covers = Ret undone /\
      block_leftover_row lead = Ret plain_head /\ row_mul plain_head undone = Ret h /\
      block_get_row lead (length b) = Some h /\ block_get_row b' (length b) = Some h /\
      call_transposition c = Ret t /\ row_mul h t = Ret h' /\ block_leftover_row b' = Ret h'.
Proof. exact pf_C100_lead_head_of_a_called_lead. Qed.
Print Assumptions C100_lead_head_of_a_called_lead.

(** C100: a part repeated.  The iterator which repeats a block that starts at rounds is at rounds at the beginning of
    a repetition exactly when the number of repetitions so far is a multiple of the length of the closure of the
    left-over row of the block. *)
Theorem C100_repeated_parts_come_round :
  forall A (b : block A) s ars lo fuel l sched, block_holds b s ars lo -> ars <> [] ->
    is_identity (hd [] (map fst ars)) -> closure fuel lo = Ret l ->
    exists ri outs ri', repeat_iter_new (seq 0 s) b = Ret (Ok ri) /\ repeat_run ri sched = Ret (outs, ri') /\
      forall k, k * length ars < length sched ->
        exists item a, nth_error outs (k * length ars) = Some (Some (item, 0, a)) /\
          (item = seq 0 s <-> Nat.divide (length l) k).
Proof. exact pf_C100_repeated_parts_come_round. Qed.
Print Assumptions C100_repeated_parts_come_round.

(** A plain lead and a bobbed lead of Plain Bob Minor: the bob, "14", covers the last change of the lead. *)
Example C100_example :
  exists pns bob_pns lead called c e t b, pn_block_parse (s2l "-16-16-16,12") 6 = Ret (Ok pns) /\ pn_block_parse (s2l "14") 6 = Ret (Ok bob_pns) /\
    pn_block_to_block_from_rounds tt pns = Ret lead /\ block_leftover_row lead = Ret [0; 2; 4; 1; 5; 3] /\
    le_bob bob_pns = Ret c /\ cover_len c = 1 /\ call_transposition c = Ret [0; 2; 1; 3; 5; 4] /\
    pn_block_to_block_from_rounds tt (firstn 11 pns ++ bob_pns) = Ret called /\ block_leftover_row called = Ret [0; 1; 2; 4; 5; 3] /\
    block_empty 6 = Ret e /\ put_together e [lead; called] t /\ block_len t = 24 /\ block_leftover_row t = Ret [0; 2; 4; 5; 3; 1] /\
    pn_block_to_block_from_rounds tt (pns ++ firstn 11 pns ++ bob_pns) = Ret b /\ b = t.
Proof.
  do 8 eexists. split; [vm_compute; reflexivity|]. split; [vm_compute; reflexivity|]. split; [vm_compute; reflexivity|].
  split; [vm_compute; reflexivity|]. split; [vm_compute; reflexivity|]. split; [vm_compute; reflexivity|]. split; [vm_compute; reflexivity|].
  split; [vm_compute; reflexivity|]. split; [vm_compute; reflexivity|]. split; [vm_compute; reflexivity|].
  split. { eapply pt_next; [vm_compute; reflexivity|]. eapply pt_next; [vm_compute; reflexivity|]. apply pt_end. }
  split; [vm_compute; reflexivity|]. split; [vm_compute; reflexivity|]. split; vm_compute; reflexivity.
Qed.
