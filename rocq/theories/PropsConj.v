(** Property theorems C118: renaming the bells does not change what rows do. *)

(* Generated from tools/props/Conj.src; the proofs are in ConjThms.v. *)
From Verif Require Import Base Spec ListFacts Bell Stage Parity Row RowFacts MulFacts ParityFacts GroupFacts CoverFacts SpecConj ConjFacts RowThms GroupThms.
Local Open Scope list_scope.
From Verif Require Import ConjThms.

(** C118: for rows [x] and [r] of one stage there is exactly one row which is [r] renamed by [x], and it is [x * r * !x]. *)
Theorem C118_renaming :
  forall x r, valid_row x -> valid_row r -> length x = length r ->
    exists xi xr r', row_inv x = Ret xi /\ row_mul x r = Ret xr /\ row_mul xr xi = Ret r' /\ valid_row r' /\
      forall c, renamed x r c <-> c = r'.
Proof. exact pf_C118_renaming. Qed.
Print Assumptions C118_renaming.

(** C118: products, inverses, powers and solutions of equations of renamed rows are the renamed results, and renamed rows are
    equal only if the rows are. *)
Theorem C118_products :
  forall x a b a' b', valid_row x -> valid_row a -> valid_row b -> renamed x a a' -> renamed x b b' ->
    (exists c c', row_mul a b = Ret c /\ row_mul a' b' = Ret c' /\ renamed x c c') /\
    (exists c c', row_inv a = Ret c /\ row_inv a' = Ret c' /\ renamed x c c') /\
    (forall e, exists c c', pow_i a e = Ret c /\ pow_i a' e = Ret c' /\ renamed x c c') /\
    (exists c c', solve_ax_equals_b a b = Ret (Ok c) /\ solve_ax_equals_b a' b' = Ret (Ok c') /\ renamed x c c') /\
    (exists c c', solve_xa_equals_b a b = Ret (Ok c) /\ solve_xa_equals_b a' b' = Ret (Ok c') /\ renamed x c c') /\
    (a' = b' <-> a = b).
Proof. exact pf_C118_products. Qed.
Print Assumptions C118_products.

(** C118: a renamed row is rounds exactly when the row is, has the same parity, and its bells which are in their own places are
    those of the row, renamed. *)
Theorem C118_queries :
  forall x a a', valid_row x -> valid_row a -> renamed x a a' ->
    is_rounds a' = is_rounds a /\
    (exists p, (forall fuel, 2 * length a < fuel -> exists r, row_parity fuel a = Ret (r, p)) /\
               (forall fuel, 2 * length a < fuel -> exists r, row_parity fuel a' = Ret (r, p))) /\
    (forall b c, nth_error x b = Some c -> (In c (fixed_bells a') <-> In b (fixed_bells a))).
Proof. exact pf_C118_queries. Qed.
Print Assumptions C118_queries.

(** C118: the closure of a renamed row is the closure of the row, renamed. *)
Theorem C118_closures :
  forall x a a' fuel, valid_row x -> valid_row a -> renamed x a a' ->
    (forall l, closure fuel a = Ret l -> exists l', closure fuel a' = Ret l' /\ Forall2 (renamed x) l l') /\
    (forall l', closure fuel a' = Ret l' -> exists l, closure fuel a = Ret l) /\
    (forall l, closure_from_rounds fuel a = Ret l -> exists l', closure_from_rounds fuel a' = Ret l' /\ Forall2 (renamed x) l l') /\
    (forall l', closure_from_rounds fuel a' = Ret l' -> exists l, closure_from_rounds fuel a = Ret l).
Proof. exact pf_C118_closures. Qed.
Print Assumptions C118_closures.

(** C118: and so are least groups, in the same order; renamed rows are a group exactly when the rows are. *)
Theorem C118_groups :
  forall x rows rows', valid_row x -> Forall (fun r => valid_row r /\ length r = length x) rows -> Forall2 (renamed x) rows rows' ->
    (forall fuel l, least_group_containing fuel rows = Ret (Ok l) ->
       exists l', least_group_containing fuel rows' = Ret (Ok l') /\ Forall2 (renamed x) l l') /\
    (forall fuel l', least_group_containing fuel rows' = Ret (Ok l') -> exists l, least_group_containing fuel rows = Ret (Ok l)) /\
    is_group_set rows' = is_group_set rows.
Proof. exact pf_C118_groups. Qed.
Print Assumptions C118_groups.

(** C118: the same for products of sets of rows. *)
Theorem C118_products_of_sets :
  forall x sets sets', valid_row x -> Forall (Forall (fun r => valid_row r /\ length r = length x)) sets -> Forall2 (Forall2 (renamed x)) sets sets' ->
    exists l l', multi_cartesian_product sets = Ret (Ok l) /\ multi_cartesian_product sets' = Ret (Ok l') /\ Forall2 (renamed x) l l'.
Proof. exact pf_C118_products_of_sets. Qed.
Print Assumptions C118_products_of_sets.

(** The row "2314" renamed by "4213" (1 becomes 4, 2 stays, 3 becomes 1 and 4 becomes 3) is "4132". *)
Example C118_example :
  renamed [3; 1; 0; 2] [1; 2; 0; 3] [3; 0; 2; 1] /\
  closure 10 [1; 2; 0; 3] = Ret [[1; 2; 0; 3]; [2; 0; 1; 3]; [0; 1; 2; 3]] /\
  closure 10 [3; 0; 2; 1] = Ret [[3; 0; 2; 1]; [1; 3; 2; 0]; [0; 1; 2; 3]] /\
  fixed_bells [1; 2; 0; 3] = [3] /\ fixed_bells [3; 0; 2; 1] = [2] /\
  is_group_set [[3; 0; 2; 1]; [1; 3; 2; 0]; [0; 1; 2; 3]] = Ret (Ok true).
Proof.
  splits; try reflexivity. split; [reflexivity|]. split; [reflexivity|].
  intros p b q c H1 H2 H3. destruct p as [|[|[|[|p]]]]; cbn in H1, H2; try (destruct p; discriminate);
    injection H1 as <-; injection H2 as <-; cbn in H3; injection H3 as <-; reflexivity.
Qed.
