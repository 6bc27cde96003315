(** Model of /repo/src/call.rs.  [Block] is [AnnotBlock<()>]. *)
From Verif Require Import Base Bell Stage Row Utils SameStageVec Block PlaceNot Class Method.
Local Open Scope list_scope.

(* call.rs 3-4 *)
Definition NOTATION_BOB : char := 45%N.
(* call.rs 4 *)
Definition NOTATION_SINGLE : char := 115%N.

(* call.rs 7-15 (and [Call::new], 22-30) *)
Record call := Call { notation : char; location : str; covers : nat; call_block : block unit }.

(* call.rs 33-40 *)
Definition le_bob (pns : pn_block) : exec call :=
  b <- pn_block_to_block_from_rounds tt pns;;
  Ret (Call NOTATION_BOB LABEL_LEAD_END (pn_block_len pns) b).

(* call.rs 43-50 *)
Definition le_single (pns : pn_block) : exec call :=
  b <- pn_block_to_block_from_rounds tt pns;;
  Ret (Call NOTATION_SINGLE LABEL_LEAD_END (pn_block_len pns) b).

(* call.rs 60-62 *)
Definition call_stage (c : call) : stage := block_stage (call_block c).

(* call.rs 67-69 *)
Definition call_effective_stage (c : call) : exec stage := block_effective_stage (call_block c).

(* call.rs 73-75 *)
Definition cover_len (c : call) : nat := covers c.

(* call.rs 79-81 *)
Definition call_len (c : call) : nat := block_len (call_block c).

(* call.rs 98-100 *)
Definition call_transposition (c : call) : exec row := block_leftover_row (call_block c).
