(** Property theorems C80 onwards: laws which relate several functions of the API. *)

(* Generated from tools/props/Laws.src; the proofs are in LawsThms.v. *)
From Verif Require Import Base Bell Stage Parity Row Utils SameStageVec Block PlaceNot Spec SpecVec SpecBlock SpecPn ListFacts
  BellFacts RowFacts MulFacts ParityFacts GroupFacts GroupFacts2 SsvFacts BlockFacts PnFacts PnFacts2 PnFacts3 SpecLaws LawFacts.
From Verif Require Import PnThms.
Local Open Scope list_scope.
From Verif Require Import LawsThms.

(** C80: the place notation between each row and the next of those rung by a block is the change of the
    block at that place. *)
Theorem C80_rows_give_the_changes_back :
  forall pns start s v rows, pns <> [] -> Forall (fun pn => legal pn /\ pn_stage pn = s) pns ->
    valid_row start -> length start = s ->
    pn_block_to_rows pns start = Ret (Ok v) -> ssv_rows v = Ret rows ->
    length rows = length pns + 1 /\
    forall i r r', nth_error rows i = Some r -> nth_error rows (i + 1) = Some r' ->
      pn_between r r' = Ret (nth_error pns i).
Proof. exact pf_C80_rows_give_the_changes_back. Qed.
Print Assumptions C80_rows_give_the_changes_back.

(** C80: conversely, if there is a place notation between each row and the next of a list of rows, these
    place notations make a block, and ringing it from the first row gives the list. *)
Theorem C80_changes_give_the_rows_back :
  forall s r rows pns, 0 < length rows -> Forall (fun x => valid_row x /\ length x = s) (r :: rows) ->
    length pns = length rows ->
    (forall i a b, nth_error (r :: rows) i = Some a -> nth_error (r :: rows) (i + 1) = Some b ->
       exists pn, nth_error pns i = Some pn /\ pn_between a b = Ret (Some pn)) ->
    pn_block_from_vec pns = Ok pns /\
    exists v, pn_block_to_rows pns r = Ret (Ok v) /\ ssv_rows v = Ret (r :: rows).
Proof. exact pf_C80_changes_give_the_rows_back. Qed.
Print Assumptions C80_changes_give_the_rows_back.

(** C80: so blocks of legal changes which ring the same rows from the same start are the same. *)
Theorem C80_different_blocks_ring_different_rows :
  forall pns pns' start s v, pns <> [] -> pns' <> [] ->
    Forall (fun pn => legal pn /\ pn_stage pn = s) pns -> Forall (fun pn => legal pn /\ pn_stage pn = s) pns' ->
    valid_row start -> length start = s ->
    pn_block_to_rows pns start = Ret (Ok v) -> pn_block_to_rows pns' start = Ret (Ok v) -> pns = pns'.
Proof. exact pf_C80_different_blocks_ring_different_rows. Qed.
Print Assumptions C80_different_blocks_ring_different_rows.

(** C80: ringing a block from another row [a] times the start gives the rows multiplied by [a]: the buffer
    is the one [pre_multiply] makes. *)
Theorem C80_other_starts :
  forall pns start s a v, pns <> [] -> Forall (fun pn => legal pn /\ pn_stage pn = s) pns ->
    valid_row start -> length start = s -> valid_row a -> length a = s ->
    pn_block_to_rows pns start = Ret (Ok v) ->
    exists a_start v', row_mul a start = Ret a_start /\ ssv_pre_multiply v a = Ret (v', Ok tt) /\
      pn_block_to_rows pns a_start = Ret (Ok v').
Proof. exact pf_C80_other_starts. Qed.
Print Assumptions C80_other_starts.

(** C80: ringing one block and then another is ringing the block of all their changes. *)
Theorem C80_one_block_after_another :
  forall A (d : A) pns pns' start s, pns <> [] -> pns' <> [] ->
    Forall (fun pn => legal pn /\ pn_stage pn = s) pns -> Forall (fun pn => legal pn /\ pn_stage pn = s) pns' ->
    valid_row start -> length start = s ->
    exists b b' b'', pn_block_to_block d pns start = Ret (Ok b) /\
      pn_block_to_block_from_rounds d pns' = Ret b' /\ block_extend b b' = Ret (b'', Ok tt) /\
      pn_block_to_block d (pns ++ pns') start = Ret (Ok b'').
Proof. exact pf_C80_one_block_after_another. Qed.
Print Assumptions C80_one_block_after_another.

(** C80: ringing the changes of a block backwards from the row it leads to brings back its rows in reverse. *)
Theorem C80_ringing_backwards :
  forall pns start s v rows last_row, pns <> [] -> Forall (fun pn => legal pn /\ pn_stage pn = s) pns ->
    valid_row start -> length start = s ->
    pn_block_to_rows pns start = Ret (Ok v) -> ssv_rows v = Ret rows -> last_opt rows = Some last_row ->
    exists v', pn_block_to_rows (rev pns) last_row = Ret (Ok v') /\ ssv_rows v' = Ret (rev rows).
Proof. exact pf_C80_ringing_backwards. Qed.
Print Assumptions C80_ringing_backwards.

(** Plain hunt on four bells, read off its rows. *)
Example C80_example :
  exists pns v, pn_block_parse (s2l "-14-14") 4 = Ret (Ok pns) /\ pn_block_to_rows pns [0; 1; 2; 3] = Ret (Ok v) /\
    ssv_rows v = Ret [[0; 1; 2; 3]; [1; 0; 3; 2]; [1; 3; 0; 2]; [3; 1; 2; 0]; [3; 2; 1; 0]] /\
    pn_between [1; 0; 3; 2] [1; 3; 0; 2] = Ret (Some (PlaceNot [0; 3] 4)) /\
    Forall (fun pn => legal pn /\ pn_stage pn = 4) pns.
Proof.
  do 2 eexists. splits; try (vm_compute; reflexivity).
  eapply pf_C43_parsed_changes_are_legal with (t := s2l "-14-14"); [lia|vm_compute; reflexivity].
Qed.

(** C81: any legal changes on at most 33 bells, written one after another as they are displayed, with dots or
    spaces where needed, are read back as the same block. *)
Theorem C81_changes_written_out :
  forall s pns t, 0 < s -> s <= 33 -> pns <> [] -> Forall (fun pn => legal pn /\ pn_stage pn = s) pns ->
    written_out pns t -> pn_block_parse t s = Ret (Ok pns).
Proof. exact pf_C81_changes_written_out. Qed.
Print Assumptions C81_changes_written_out.

(** C81: in particular with a dot between each two. *)
Theorem C81_changes_with_dots :
  forall s pns, 0 < s -> s <= 33 -> pns <> [] -> Forall (fun pn => legal pn /\ pn_stage pn = s) pns ->
    pn_block_parse (with_dots pns) s = Ret (Ok pns).
Proof. exact pf_C81_changes_with_dots. Qed.
Print Assumptions C81_changes_with_dots.

(** C81: two texts with a dot or a space between them describe the changes of the one followed by those of the
    other; with a comma between them, each is followed by its mirror image; a text after a [+] means the same
    as alone. *)
Theorem C81_texts_combine :
  forall s a b la lb d, 0 < s -> plain_text a -> plain_text b -> is_delimiter_char d ->
    pn_block_parse a s = Ret (Ok la) -> pn_block_parse b s = Ret (Ok lb) ->
    pn_block_parse (a ++ d :: b) s = Ret (Ok (la ++ lb)) /\
    pn_block_parse (a ++ s2l "," ++ b) s = Ret (Ok (la ++ tl (rev la) ++ lb ++ tl (rev lb))) /\
    pn_block_parse (s2l "+" ++ a) s = Ret (Ok la) /\
    pn_block_parse (s2l "+" ++ a ++ s2l "," ++ b) s = Ret (Ok (la ++ lb ++ tl (rev lb))).
Proof. exact pf_C81_texts_combine. Qed.
Print Assumptions C81_texts_combine.

(** C81: a text with a mirror image leads from rounds to a row which is its own inverse, so the row at the end
    of two such parts (the lead head of most methods) is the product of two such rows. *)
Theorem C81_symmetrical_blocks :
  forall s a b la lb pns, 0 < s -> plain_text a -> plain_text b ->
    pn_block_parse a s = Ret (Ok la) -> pn_block_parse b s = Ret (Ok lb) ->
    pn_block_parse (a ++ s2l "," ++ b) s = Ret (Ok pns) ->
    exists lead x y lead_head, pn_block_to_block_from_rounds tt pns = Ret lead /\ block_leftover_row lead = Ret lead_head /\
      row_inv x = Ret x /\ row_inv y = Ret y /\ row_mul x y = Ret lead_head /\ row_inv lead_head = row_mul y x.
Proof. exact pf_C81_symmetrical_blocks. Qed.
Print Assumptions C81_symmetrical_blocks.

(** Cambridge Surprise Minor: its lead head, and the text of its first changes without any dot between a cross and
    another change. *)
Example C81_example :
  plain_text (s2l "-36-14-12-36-14-56") /\ plain_text (s2l "12") /\
  (exists pns lead, pn_block_parse (s2l "-36-14-12-36-14-56,12") 6 = Ret (Ok pns) /\
     pn_block_to_block_from_rounds tt pns = Ret lead /\ block_leftover_row lead = Ret [0; 4; 5; 2; 3; 1]) /\
  written_out [PlaceNot [] 6; PlaceNot [2; 5] 6; PlaceNot [0; 3] 6; PlaceNot [] 6] (s2l "-36.14-").
Proof.
  splits.
  - split; [intros K|intros c K P; apply s2l1 in P; subst c]; vm_compute in K; intuition discriminate.
  - split; [intros K|intros c K P; apply s2l1 in P; subst c]; vm_compute in K; intuition discriminate.
  - do 2 eexists. splits; vm_compute; reflexivity.
  - apply (wo_cross 6). apply (wo_places (PlaceNot [2; 5] 6) _ (s2l ".14-")); [left; right; reflexivity|].
    apply (wo_delimiter 46%N); [right; reflexivity|]. apply (wo_places (PlaceNot [0; 3] 6) _ (s2l "-")); [right; right; right; reflexivity|].
    apply (wo_cross 6). constructor.
Qed.
