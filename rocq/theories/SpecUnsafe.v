(** The documented safety conditions of the unsafe functions, and the checked functions they stand for. *)
From Verif Require Import Base Bell Stage Row Utils SameStageVec Block PlaceNot Mask Music Class Method Program Unsafe
  Spec SpecVec SpecProg.
Local Open Scope list_scope.

Section At.
Context (st : list value).
Definition row_at (i : nat) (r : row) : Prop := nth_error st i = Some (VRow r).

(** The stage of the mutable row at a place. *)
Definition stage_at (p : place) (s : nat) : Prop :=
  match p with
  | InRow i => exists r, row_at i r /\ length r = s
  | InVec i _ | InVecFirst i | InVecLast i => exists v, nth_error st i = Some (VVec v) /\ ssv_stage v = s
  end.

(** What the section "Safety" of the documentation of each function asks for; nothing if an argument
    is not of the right type (such a program is not one). *)
Definition contract (c : ucall) : Prop :=
  match c with
  | Safe c => careful_call st c
  (* "if the Bells ... are a valid Row according to the Framework" *)
  | FromVecUnchecked bells => valid_row bells
  (* "if place < self.stage.as_usize()" *)
  | GetBellUnchecked i place => forall r, row_at i r -> place < length r
  (* "if self and rhs have the same stage" *)
  | MulUnchecked i j | MulIntoUnchecked i j _ | TranpositionToUnchecked i j =>
      forall a b, row_at i a -> row_at j b -> length a = length b
  (* "if self, rhs and out all share the same Stage" *)
  | MulIntoRowUnchecked i j out =>
      forall a b s, row_at i a -> row_at j b -> stage_at out s -> length a = length b /\ length a = s
  (* "if bells is formed of a sequence of valid Rows (each of the provided Stage) concatenated together" *)
  | VecFromBellsUnchecked bells n =>
      exists rows, Forall (fun r => valid_row r /\ length r = n) rows /\ bells = concat rows
  (* "if parsed_places is sorted into increasing order" *)
  | PnFromSortedSlice places _ =>
      forall i j p q, i < j -> nth_error places i = Some p -> nth_error places j = Some q -> p <= q
  (* "only when self.stage() == row.stage()" *)
  | PermuteUnchecked pn p => forall x s, nth_error st pn = Some (VPn x) -> stage_at p s -> pn_stage x = s
  | PermuteNewUnchecked pn i => forall x r, nth_error st pn = Some (VPn x) -> row_at i r -> pn_stage x = length r
  (* "All the Stages of the PlaceNots match; the Vec is non-empty" *)
  | PnBlockFromVecUnchecked ps =>
      pns_at st ps <> [] /\ forall p q, In p (pns_at st ps) -> In q (pns_at st ps) -> pn_stage p = pn_stage q
  (* "if b is not already fixed in self, or is already fixed to its home position" *)
  | MaskFixUnchecked m b =>
      forall x p, nth_error st m = Some (VMask x) -> nth_error x p = Some (Some b) -> p = b
  (* "if b is not already fixed in self, or is already fixed at the given place" *)
  | MaskSetUnchecked m b place =>
      forall x p, nth_error st m = Some (VMask x) -> nth_error x p = Some (Some b) -> p = place
  end.
End At.

(** Every call of the program keeps its contract when the program gets there. *)
Fixpoint keeps_contracts (hash_order : list nat -> list nat) (st : list value) (prog : list ucall) : Prop :=
  match prog with
  | [] => True
  | c :: t =>
      contract st c /\ (forall st', ustep hash_order st c = Ret st' -> keeps_contracts hash_order st' t)
  end.

(** The safe function which does the same with the check, where there is one. *)
Definition checked (c : ucall) : ucall :=
  match c with
  | FromVecUnchecked bells => Safe (FromVec bells)
  | MulUnchecked i j => Safe (Mul i j)
  | MulIntoUnchecked i j out => Safe (MulInto i j out)
  | MulIntoRowUnchecked i j out => Safe (ChangeRow out (MulIntoRow i j))
  | TranpositionToUnchecked i j => Safe (SolveXA i j)
  | PermuteUnchecked pn p => Safe (ChangeRow p (Permute pn))
  | PermuteNewUnchecked pn i => Safe (PnPermuteNew pn i)
  | PnBlockFromVecUnchecked ps => Safe (PnBlockFromVec ps)
  | MaskFixUnchecked m b => Safe (MaskFix m b)
  | MaskSetUnchecked m b p => Safe (MaskSetBell m b p)
  | c => c
  end.
