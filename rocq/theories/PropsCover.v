(** Property theorems C111: cover bells do not change what rows do. *)

(* Generated from tools/props/Cover.src; the proofs are in CoverThms.v. *)
From Verif Require Import Base Spec ListFacts Bell Stage Parity Row RowFacts MulFacts GroupFacts SpecCover CoverFacts RowThms GroupThms.
Local Open Scope list_scope.
From Verif Require Import CoverThms.

(** C111: [extend_to_stage] adds the cover bells, and it does not matter whether they are added in steps. *)
Theorem C111_covers :
  forall a s, valid_row a -> length a <= s ->
    (forall a', extend_to_stage a s = Ret a' <-> covered s a a') /\
    (forall a' u, extend_to_stage a s = Ret a' -> s <= u -> extend_to_stage a' u = extend_to_stage a u).
Proof. exact pf_C111_covers. Qed.
Print Assumptions C111_covers.

(** C111: products, inverses, powers and solutions of equations have the cover bells too, and covered rows are equal only if
    the rows are. *)
Theorem C111_products :
  forall s a b a' b', valid_row a -> valid_row b -> length a = length b -> covered s a a' -> covered s b b' ->
    (exists c c', row_mul a b = Ret c /\ row_mul a' b' = Ret c' /\ covered s c c') /\
    (exists c c', row_inv a = Ret c /\ row_inv a' = Ret c' /\ covered s c c') /\
    (forall e, exists c c', pow_i a e = Ret c /\ pow_i a' e = Ret c' /\ covered s c c') /\
    (exists c c', solve_ax_equals_b a b = Ret (Ok c) /\ solve_ax_equals_b a' b' = Ret (Ok c') /\ covered s c c') /\
    (exists c c', solve_xa_equals_b a b = Ret (Ok c) /\ solve_xa_equals_b a' b' = Ret (Ok c') /\ covered s c c') /\
    (a' = b' <-> a = b).
Proof. exact pf_C111_products. Qed.
Print Assumptions C111_products.

(** C111: what can be asked about a row has the same answer with cover bells: whether it is rounds, its effective stage and
    parity, and where its bells are; only the cover bells join the bells which are in their own places. *)
Theorem C111_queries :
  forall s a a', valid_row a -> covered s a a' ->
    is_rounds a' = is_rounds a /\ effective_stage a' = effective_stage a /\
    (exists p, (forall fuel, 2 * length a < fuel -> exists r, row_parity fuel a = Ret (r, p)) /\
               (forall fuel, 2 * s < fuel -> exists r, row_parity fuel a' = Ret (r, p))) /\
    (forall b, b < length a -> place_of a' b = place_of a b) /\
    fixed_bells a' = fixed_bells a ++ seq (length a) (s - length a).
Proof. exact pf_C111_queries. Qed.
Print Assumptions C111_queries.

(** C111: the closure of a covered row is the closure of the row, covered. *)
Theorem C111_closures :
  forall s a a' fuel, valid_row a -> covered s a a' ->
    (forall l, closure fuel a = Ret l -> exists l', closure fuel a' = Ret l' /\ Forall2 (covered s) l l') /\
    (forall l', closure fuel a' = Ret l' -> exists l, closure fuel a = Ret l) /\
    (forall l, closure_from_rounds fuel a = Ret l -> exists l', closure_from_rounds fuel a' = Ret l' /\ Forall2 (covered s) l l') /\
    (forall l', closure_from_rounds fuel a' = Ret l' -> exists l, closure_from_rounds fuel a = Ret l).
Proof. exact pf_C111_closures. Qed.
Print Assumptions C111_closures.

(** C111: and so are products of sets and least groups, in the same order; rows with cover bells are a group exactly when
    the rows are. *)
Theorem C111_groups :
  forall n s rows rows', Forall (fun r => valid_row r /\ length r = n) rows -> n <= s -> Forall2 (covered s) rows rows' ->
    (forall fuel l, least_group_containing fuel rows = Ret (Ok l) ->
       exists l', least_group_containing fuel rows' = Ret (Ok l') /\ Forall2 (covered s) l l') /\
    (forall fuel l', least_group_containing fuel rows' = Ret (Ok l') -> exists l, least_group_containing fuel rows = Ret (Ok l)) /\
    is_group_set rows' = is_group_set rows.
Proof. exact pf_C111_groups. Qed.
Print Assumptions C111_groups.

(** C111: the same for products of sets of rows. *)
Theorem C111_products_of_sets :
  forall n s sets sets', Forall (Forall (fun r => valid_row r /\ length r = n)) sets -> n <= s -> Forall2 (Forall2 (covered s)) sets sets' ->
    exists l l', multi_cartesian_product sets = Ret (Ok l) /\ multi_cartesian_product sets' = Ret (Ok l') /\ Forall2 (covered s) l l'.
Proof. exact pf_C111_products_of_sets. Qed.
Print Assumptions C111_products_of_sets.

Example C111_example :
  extend_to_stage [1; 2; 0] 5 = Ret [1; 2; 0; 3; 4] /\ covered 5 [1; 2; 0] [1; 2; 0; 3; 4] /\
  closure 10 [1; 2; 0; 3; 4] = Ret [[1; 2; 0; 3; 4]; [2; 0; 1; 3; 4]; [0; 1; 2; 3; 4]] /\
  closure 10 [1; 2; 0] = Ret [[1; 2; 0]; [2; 0; 1]; [0; 1; 2]] /\
  is_group_set [[1; 2; 0; 3; 4]; [2; 0; 1; 3; 4]; [0; 1; 2; 3; 4]] = Ret (Ok true) /\
  is_backrounds [1; 0] = true /\ is_backrounds [1; 0; 2] = false.
Proof.
  splits; try reflexivity. split; [reflexivity|]. split; [reflexivity|]. cbn. intros i H. destruct i as [|[|[|[|[|i]]]]]; try reflexivity; lia.
Qed.
