(** Property theorems C139: the bells which calls affect. *)

(* Generated from tools/props/Affect.src; the proofs are in AffectThms.v. *)
From Verif Require Import Base Bell Stage Row Utils SameStageVec Block PlaceNot Class Method Call Spec SpecVec SpecBlock SpecClass SpecPn SpecAffect SpecHunt ListFacts
  BellFacts RowFacts MulFacts GroupFacts SsvFacts BlockFacts PnFacts PnFacts2 PnFacts3 LawFacts ClassFacts BellPathFacts BobFacts AffectFacts.
From Verif Require Import PnThms BlockThms TouchThms.
Local Open Scope list_scope.
From Verif Require Import AffectThms.

(** C139: two blocks of equally many changes take a bell along the same path exactly when, wherever the bell is, the two changes
    rung there take it to the same place. *)
Theorem C139_same_paths :
  forall A (d : A) s pns pns' b b' x fp fp', pns <> [] -> length pns = length pns' ->
    Forall (fun pn => legal pn /\ pn_stage pn = s) pns -> Forall (fun pn => legal pn /\ pn_stage pn = s) pns' ->
    pn_block_to_block_from_rounds d pns = Ret b -> pn_block_to_block_from_rounds d pns' = Ret b' ->
    block_full_path_of b x = Ret (Some fp) -> block_full_path_of b' x = Ret (Some fp') ->
    (fp' = fp <-> forall i p pn pn', nth_error fp i = Some p -> nth_error pns i = Some pn -> nth_error pns' i = Some pn' -> same_move pn pn' p).
Proof. exact pf_C139_same_paths. Qed.
Print Assumptions C139_same_paths.

(** C139: if a call takes the place of the last changes of a lead, then a bell ends the lead where it ends the plain lead exactly when
    the call and the changes covered take it from where it is to the same place. *)
Theorem C139_affected_bells :
  forall s pns pns' b lead called c c' h t t' p x, 0 < s -> pns <> [] -> pns' <> [] ->
    Forall (fun pn => legal pn /\ pn_stage pn = s) (b ++ pns) -> Forall (fun pn => legal pn /\ pn_stage pn = s) pns' ->
    pn_block_to_block_from_rounds tt (b ++ pns) = Ret lead -> pn_block_to_block_from_rounds tt (b ++ pns') = Ret called ->
    le_bob pns = Ret c -> call_transposition c = Ret t -> le_bob pns' = Ret c' -> call_transposition c' = Ret t' ->
    block_get_row lead (length b) = Some h -> nth_error h p = Some x ->
    exists head head', block_leftover_row lead = Ret head /\ block_leftover_row called = Ret head' /\
      ((exists q, nth_error head q = Some x /\ nth_error head' q = Some x) <-> exists q, nth_error t q = Some p /\ nth_error t' q = Some p).
Proof. exact pf_C139_affected_bells. Qed.
Print Assumptions C139_affected_bells.

(** C139: on any number of bells from four on, a bob (14 instead of 12) affects the bells in the second, third and fourth places, and a
    single (1234 instead of 12) those in the third and the fourth. *)
Theorem C139_bobs_and_singles :
  forall n, 4 <= n -> exists plain bob single, pn_parse (s2l "12") n = Ret (Ok plain) /\ pn_parse (s2l "14") n = Ret (Ok bob) /\
    pn_parse (s2l "1234") n = Ret (Ok single) /\
    forall p, p < n -> (same_move plain bob p <-> p = 0 \/ 4 <= p) /\ (same_move plain single p <-> p < 2 \/ 4 <= p).
Proof. exact pf_C139_bobs_and_singles. Qed.
Print Assumptions C139_bobs_and_singles.

(** C139: so in a touch of leads which end with 12, with bobs 14 and singles 1234, a bell rings what it rings in as many plain leads
    exactly when at every bob it is in front or above the fourth place, and at every single in the first two places or above the fourth. *)
Theorem C139_bells_which_no_call_affects :
  forall A (d : A) n plain bob single body calls b b' x fp fp',
    pn_parse (s2l "12") n = Ret (Ok plain) -> pn_parse (s2l "14") n = Ret (Ok bob) -> pn_parse (s2l "1234") n = Ret (Ok single) ->
    4 <= n -> Forall (fun pn => legal pn /\ pn_stage pn = n) body -> calls <> [] -> Forall (fun c => In c [plain; bob; single]) calls ->
    pn_block_to_block_from_rounds d (concat (repeat (body ++ [plain]) (length calls))) = Ret b ->
    pn_block_to_block_from_rounds d (concat (map (fun c => body ++ [c]) calls)) = Ret b' ->
    block_full_path_of b x = Ret (Some fp) -> block_full_path_of b' x = Ret (Some fp') ->
    (fp' = fp <-> forall j c p, nth_error calls j = Some c -> nth_error fp (j * (length body + 1) + length body) = Some p ->
       (c = bob -> p = 0 \/ 4 <= p) /\ (c = single -> p < 2 \/ 4 <= p)).
Proof. exact pf_C139_bells_which_no_call_affects. Qed.
Print Assumptions C139_bells_which_no_call_affects.

(** Three leads of Plain Bob Minor, the first with a bob and the second with a single: the 4 is in 5ths and 6ths place at the calls and keeps to
    its plain course; the 3 is in 2nds place at the bob and does not. *)
Example C139_example :
  exists plain bob single b b', pn_parse (s2l "12") 6 = Ret (Ok plain) /\ pn_parse (s2l "14") 6 = Ret (Ok bob) /\ pn_parse (s2l "1234") 6 = Ret (Ok single) /\
    plain_bob 6 = removelast (plain_bob 6) ++ [plain] /\
    pn_block_to_block_from_rounds tt (concat (repeat (plain_bob 6) 3)) = Ret b /\
    pn_block_to_block_from_rounds tt (concat (map (fun c => removelast (plain_bob 6) ++ [c]) [bob; single; plain])) = Ret b' /\
    (exists fp, block_full_path_of b 3 = Ret (Some fp) /\ block_full_path_of b' 3 = Ret (Some fp) /\
       nth_error fp 11 = Some 4 /\ nth_error fp 23 = Some 5) /\
    (exists fp fp', block_full_path_of b 2 = Ret (Some fp) /\ block_full_path_of b' 2 = Ret (Some fp') /\ nth_error fp 11 = Some 1 /\
       nth_error fp 12 = Some 1 /\ nth_error fp' 12 = Some 2).
Proof.
  do 5 eexists. split; [vm_compute; reflexivity|]. split; [vm_compute; reflexivity|]. split; [vm_compute; reflexivity|].
  split; [vm_compute; reflexivity|]. split; [vm_compute; reflexivity|]. split; [vm_compute; reflexivity|].
  split; [eexists|do 2 eexists]; splits; vm_compute; reflexivity.
Qed.
