(** Property theorems C148: products of a group with other rows. *)

(* Generated from tools/props/Coset.src; the proofs are in CosetThms.v. *)
From Coq Require Import Factorial.
From Verif Require Import Base Spec ListFacts Bell Stage Row RowFacts MulFacts GroupFacts GroupFacts2 Utils
  SameStageVec SpecVec SsvFacts Block SpecBlock BlockFacts LawFacts2 SpecMask ExtentFacts CourseExtentFacts CosetFacts.
Local Open Scope list_scope.
From Verif Require Import CosetThms.

(** C148: the products of a group with other rows are as many as there are pairs.  They are all different exactly when the rows are, and no row of the group takes
    one of the rows to another.  Multiplying them by a row of the group gives the same rows again. *)
Theorem C148_products_with_a_group :
  forall n group rows l, Forall (fun r => valid_row r /\ length r = n) group -> Forall (fun r => valid_row r /\ length r = n) rows -> NoDup group ->
    is_group_set group = Ret (Ok true) -> multi_cartesian_product [group; rows] = Ret (Ok l) ->
    length l = length group * length rows /\
    (NoDup l <-> NoDup rows /\ forall p q x, In p rows -> In q rows -> solve_xa_equals_b p q = Ret (Ok x) -> In x group -> p = q) /\
    forall g, In g group -> exists l', multi_cartesian_product [[g]; l] = Ret (Ok l') /\ Permutation l' l.
Proof. exact pf_C148_products_with_a_group. Qed.
Print Assumptions C148_products_with_a_group.

(** C148: if these products are all different, there are at most as many as orders of the bells, and if there are as many, then they are all rows of the stage. *)
Theorem C148_extents_in_parts :
  forall n group rows l, Forall (fun r => valid_row r /\ length r = n) group -> Forall (fun r => valid_row r /\ length r = n) rows -> NoDup group ->
    is_group_set group = Ret (Ok true) -> multi_cartesian_product [group; rows] = Ret (Ok l) -> NoDup rows ->
    (forall p q x, In p rows -> In q rows -> solve_xa_equals_b p q = Ret (Ok x) -> In x group -> p = q) ->
    length group * length rows <= fact n /\
    (length group * length rows = fact n <-> forall r, valid_row r -> length r = n -> In r l).
Proof. exact pf_C148_extents_in_parts. Qed.
Print Assumptions C148_extents_in_parts.

(** C148: a group within a group divides it into parts: for some rows of the greater group, the products of the smaller group with them
    are all rows of the greater one, each once. *)
Theorem C148_groups_divide_groups :
  forall n small great, Forall (fun r => valid_row r /\ length r = n) great -> NoDup small -> NoDup great -> (forall x, In x small -> In x great) ->
    is_group_set small = Ret (Ok true) -> is_group_set great = Ret (Ok true) ->
    exists rows l, (forall x, In x rows -> In x great) /\ NoDup rows /\ multi_cartesian_product [small; rows] = Ret (Ok l) /\ Permutation l great.
Proof. exact pf_C148_groups_divide_groups. Qed.
Print Assumptions C148_groups_divide_groups.

(** The extent on three bells as two parts of three rows each, and as three parts of two. *)
Example C148_example :
  is_group_set [[0; 1; 2]; [1; 2; 0]; [2; 0; 1]] = Ret (Ok true) /\
  multi_cartesian_product [[[0; 1; 2]; [1; 2; 0]; [2; 0; 1]]; [[0; 1; 2]; [1; 0; 2]]] =
    Ret (Ok [[0; 1; 2]; [1; 2; 0]; [2; 0; 1]; [1; 0; 2]; [2; 1; 0]; [0; 2; 1]]) /\
  solve_xa_equals_b [0; 1; 2] [1; 0; 2] = Ret (Ok [1; 0; 2]) /\
  is_group_set [[0; 1; 2]; [1; 0; 2]] = Ret (Ok true) /\
  multi_cartesian_product [[[0; 1; 2]; [1; 0; 2]]; [[0; 1; 2]; [0; 2; 1]; [2; 0; 1]]] =
    Ret (Ok [[0; 1; 2]; [1; 0; 2]; [0; 2; 1]; [1; 2; 0]; [2; 0; 1]; [2; 1; 0]]) /\
  multi_cartesian_product [[[0; 1; 2]; [1; 0; 2]]; [[0; 2; 1]; [1; 2; 0]]] =
    Ret (Ok [[0; 2; 1]; [1; 2; 0]; [1; 2; 0]; [0; 2; 1]]) /\
  solve_xa_equals_b [0; 2; 1] [1; 2; 0] = Ret (Ok [1; 0; 2]).
Proof. splits; reflexivity. Qed.
