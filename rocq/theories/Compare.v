(** Model of the derived comparisons: [derive(PartialEq, Ord, Hash)] is expanded by the compiler to
    the definitions below. *)
From Verif Require Import Base Bell Stage Row Utils SameStageVec Block.
Local Open Scope list_scope.

(* owned.rs 20-27, borrowed.rs 58-65: the [Ord] of [Vec<Bell>] and of [[Bell]], which is
   lexicographic; that of [Bell] (bell.rs 23-27) is the one of its index *)
Fixpoint row_cmp (a b : row) : comparison :=
  match a, b with
  | [], [] => Eq
  | [], _ :: _ => Lt
  | _ :: _, [] => Gt
  | x :: a', y :: b' =>
      match Nat.compare x y with
      | Eq => row_cmp a' b'
      | o => o
      end
  end.

(* owned.rs 20-27, borrowed.rs 58-65, owned.rs 494-504 *)
Definition row_eqb (a b : row) : bool := list_eqb a b.

(* owned.rs 20-27 and borrowed.rs 58-65: what is written to the hasher, the length and then each bell;
   [Vec] and slices write the same *)
Definition row_hash_feed (r : row) : list nat := length r :: r.

(* same_stage_vec.rs 42-52 *)
Definition ssv_eqb (a b : ssv) : bool := list_eqb (ssv_bells a) (ssv_bells b) && (ssv_stage a =? ssv_stage b).

(* same_stage_vec.rs 42-52 *)
Definition ssv_hash_feed (v : ssv) : list nat := length (ssv_bells v) :: ssv_bells v ++ [ssv_stage v].

(* block.rs 61-71; [eqb] is the equality of annotations *)
Fixpoint annots_eqb {A} (eqb : A -> A -> bool) (a b : list A) : bool :=
  match a, b with
  | [], [] => true
  | x :: a', y :: b' => eqb x y && annots_eqb eqb a' b'
  | _, _ => false
  end.
(* derived [PartialEq], block.rs 61 *)
Definition block_eqb {A} (eqb : A -> A -> bool) (a b : block A) : bool :=
  ssv_eqb (blk_rows a) (blk_rows b) && annots_eqb eqb (blk_annots a) (blk_annots b).
