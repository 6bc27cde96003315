(** Property theorems C108: allocations are reused as documented. *)

(* Generated from tools/props/Alloc.src; the proofs are in AllocThms.v. *)
From Verif Require Import Base Spec Bell Stage Row Utils SameStageVec Block Alloc SpecVec SpecAcc SpecBlock SpecAlloc
  ListFacts BellFacts RowFacts MulFacts GroupFacts SsvFacts BlockFacts AllocFacts AllocFacts2 AllocFacts3 SsvThms.
Local Open Scope list_scope.
From Verif Require Import AllocThms.

Theorem C108_same_results :
  forall grow,
    (forall s, bare items (a_rounds grow s) = Ret (row_rounds s)) /\
    (forall v s, bare items (a_extend_to_stage grow v s) = extend_to_stage (items v) s) /\
    (forall v r, bare items (a_overwrite_from grow v r) = Ret (overwrite_from (items v) r)) /\
    (forall v r, bare items (a_copy_into grow r v) = Ret (copy_into r (items v))) /\
    (forall a b, bare items (a_mul grow a b) = row_mul a b) /\
    (forall a b out, bare (on_fst items) (a_mul_into grow a b out) = mul_into a b (items out)) /\
    (forall r, bare items (a_inv grow r) = row_inv r) /\
    (forall r out, bare items (a_inv_into_buf grow r out) = inv_into_buf r (items out)) /\
    (forall set, bare (fun b => b) (a_is_group_set grow set) = is_group_set set) /\
    (forall t, bare acc_of (a_acc_new grow t) = acc_new (items t)) /\
    (forall a o, bare (on_fst acc_of) (a_acc_call grow a o) = acc_call (acc_of a) o) /\
    (forall r n, bare items (a_pow_u grow r n) = pow_u r n) /\
    (forall r e, bare items (a_pow_i grow r e) = pow_i r e) /\
    (forall s n, bare ssv_of (a_ssv_with_capacity grow s n) = Ret (ssv_new s)) /\
    (forall r, bare ssv_of (a_ssv_from_row_buf r) = ssv_from_row_buf (items r)) /\
    (forall v ops, bare (on_fst ssv_of) (a_ssv_run grow v ops) = ssv_run (ssv_of v) ops) /\
    (forall A (ri : repeat_iter A),
       bare (on_fst (option_map (fun '(r, i, a) => (items r, i, a)))) (a_repeat_iter_next grow ri) = repeat_iter_next ri) /\
    (forall A (ri : repeat_iter A) out,
       bare (fun p => (fst (fst p), items (snd (fst p)), snd p)) (a_repeat_iter_next_into grow ri out) =
       repeat_iter_next_into ri (items out)).
Proof. exact pf_C108_same_results. Qed.
Print Assumptions C108_same_results.

Theorem C108_with_capacity :
  forall grow s n, ample grow -> 0 < s ->
    exists v k, a_ssv_with_capacity grow s n = Ret (v, k) /\ k = (if n =? 0 then 0 else 1) /\
      holds (ssv_of v) s [] /\
      forall ops, Forall vec_op_args_valid ops -> never_above n s [] ops ->
        exists rs outs v', vec_run s [] ops = Some (rs, outs) /\
          a_ssv_run grow v ops = Ret ((v', outs), all_handed_out s [] ops) /\
          room (as_bells v') = room (as_bells v) /\ holds (ssv_of v') s rs.
Proof. exact pf_C108_with_capacity. Qed.
Print Assumptions C108_with_capacity.

Theorem C108_from_any_buffer :
  forall grow s rs v n ops, holds (ssv_of v) s rs -> n * s <= room (as_bells v) ->
    Forall vec_op_args_valid ops -> never_above n s rs ops ->
    exists rs' outs v', vec_run s rs ops = Some (rs', outs) /\
      a_ssv_run grow v ops = Ret ((v', outs), all_handed_out s rs ops) /\
      room (as_bells v') = room (as_bells v) /\ holds (ssv_of v') s rs'.
Proof. exact pf_C108_from_any_buffer. Qed.
Print Assumptions C108_from_any_buffer.

Theorem C108_from_row_buf_and_split :
  forall grow r, valid_row (items r) ->
    a_ssv_from_row_buf r = Ret (Assv r (length (items r)), 0) /\
    forall v s rs i, holds (ssv_of v) s rs -> i <= length rs ->
      exists left right k, a_ssv_split grow v i = Ret (Some (left, right), k) /\
        k = (if i <? length rs then 1 else 0) /\ room (as_bells left) = room (as_bells v).
Proof. exact pf_C108_from_row_buf_and_split. Qed.
Print Assumptions C108_from_row_buf_and_split.

(** C108: a transposed copy of a buffer costs one request, and none if it is empty or refused; the
    transposition in place costs none. *)
Theorem C108_transposed_copy :
  forall grow v s rs t, ample grow -> holds (ssv_of v) s rs -> valid_row t ->
    (length t = s -> exists v', a_ssv_pre_multiplied grow v t = Ret (Ok v', if length rs =? 0 then 0 else 1) /\
       holds (ssv_of v') s (map (row_product t) rs) /\ length rs * s <= room (as_bells v') /\
       exists v2, a_ssv_pre_multiply v t = Ret ((v2, Ok tt), 0) /\
         ssv_of v2 = ssv_of v' /\ room (as_bells v2) = room (as_bells v)) /\
    (length t <> s -> a_ssv_pre_multiplied grow v t = Ret (Err (IncompatibleStages s (length t)), 0) /\
       a_ssv_pre_multiply v t = Ret ((v, Err (IncompatibleStages (length t) s)), 0)).
Proof. exact pf_C108_transposed_copy. Qed.
Print Assumptions C108_transposed_copy.

Theorem C108_written_into_a_buffer :
  forall grow out r a b, ample grow -> valid_row (items out) -> valid_row r -> valid_row a -> valid_row b ->
    length a = length b ->
    (forall m need, In (m, need)
       [(a_mul_into grow a b out, length b);
        ('(v, k) <- a_overwrite_from grow out r;; Ret ((v, Ok tt), k), length r);
        ('(v, k) <- a_copy_into grow r out;; Ret ((v, Ok tt), k), length r)] ->
       exists v, m = Ret ((v, Ok tt), if need <=? room out then 0 else 1) /\ length (items v) = need /\
         (need <= room out -> room v = room out) /\ need <= room v /\ room out <= room v) /\
    (exists v k, a_inv_into_buf grow r out = Ret (v, k) /\ length (items v) = length r /\
       (length r <= room out -> k = 0 /\ room v = room out) /\ k <= 1 /\ room out <= room v).
Proof. exact pf_C108_written_into_a_buffer. Qed.
Print Assumptions C108_written_into_a_buffer.

(** C108: a product, an inverse or rounds which is not written into an existing row costs one request; a product which is refused costs none. *)
Theorem C108_new_rows :
  forall grow a b, ample grow -> valid_row a -> valid_row b ->
    (length a = length b -> exists v, a_mul_result grow a b = Ret (Ok v, 1) /\ items v = row_product a b /\ length a <= room v) /\
    (length a <> length b ->
       a_mul_result grow a b = Ret (Err (IncompatibleStages (length a) (length b)), 0) /\
       forall out, a_mul_into grow a b out = Ret ((out, Err (IncompatibleStages (length a) (length b))), 0)) /\
    (exists v, a_inv grow a = Ret (v, 1) /\ row_product a (items v) = seq 0 (length a) /\ length a <= room v) /\
    forall s, 0 < s -> exists v, a_rounds grow s = Ret (v, 1) /\ items v = seq 0 s /\ s <= room v.
Proof. exact pf_C108_new_rows. Qed.
Print Assumptions C108_new_rows.

Theorem C108_accumulator :
  forall grow t, ample grow -> valid_row (items t) -> length (items t) <= room t ->
    exists a, a_acc_new grow t = Ret (a, 1) /\ aa_total a = t /\
      forall ops, Forall (fun o => valid_row (acc_row o)) ops ->
        (forall r, In (SetTo r) ops -> length r = length (items t)) ->
        requests (a_acc_calls grow a ops) 0.
Proof. exact pf_C108_accumulator. Qed.
Print Assumptions C108_accumulator.

Theorem C108_powers :
  forall grow r, ample grow -> valid_row r ->
    (forall n, requests (a_pow_u grow r n) 2) /\
    (forall e, requests (a_pow_i grow r e) (if (e <? 0)%Z then 3 else 2)).
Proof. exact pf_C108_powers. Qed.
Print Assumptions C108_powers.

Theorem C108_is_group :
  forall grow set s, ample grow -> Forall (fun r => valid_row r /\ length r = s) set ->
    exists n, requests (a_is_group_set grow set) n /\ n <= 4.
Proof. exact pf_C108_is_group. Qed.
Print Assumptions C108_is_group.

Theorem C108_repeat_iter :
  forall grow A (b : block A) s ars lo start k, block_holds b s ars lo -> ars <> [] ->
    valid_row start -> length start = s ->
    exists ri, repeat_iter_new start b = Ret (Ok ri) /\
      requests (a_nexts grow k ri) (k + (k - 1) / length ars) /\
      forall out, s <= room out ->
        exists os out', a_next_intos grow k ri out = Ret ((os, out'), (k - 1) / length ars) /\ room out' = room out.
Proof. exact pf_C108_repeat_iter. Qed.
Print Assumptions C108_repeat_iter.

(** C108: over a block without rows every call gives nothing, asks once (for the next block head) and leaves the given row alone. *)
Theorem C108_repeat_iter_of_nothing :
  forall grow A (b : block A) s lo start k, block_holds b s [] lo -> valid_row start -> length start = s ->
    exists ri, repeat_iter_new start b = Ret (Ok ri) /\
      (exists ri', a_nexts grow k ri = Ret ((repeat None k, ri'), k)) /\
      forall out, a_next_intos grow k ri out = Ret ((repeat (items out, None) k, out), k).
Proof. exact pf_C108_repeat_iter_of_nothing. Qed.
Print Assumptions C108_repeat_iter_of_nothing.

(** With an allocator which gives exactly what is asked for, a buffer made for two rows of four bells
    takes two rows, gives one up and takes another one with the one request that made it (and one for
    the row handed out); one row more needs a second request. *)
Example C108_example :
  ample (fun _ n => n) /\
  never_above 2 4 [] [VPush [1;0;3;2]; VPush [0;1;2;3]; VPop; VPush [3;2;1;0]] /\
  (exists v, a_ssv_with_capacity (fun _ n => n) 4 2 = Ret (v, 1) /\
     requests (a_ssv_run (fun _ n => n) v [VPush [1;0;3;2]; VPush [0;1;2;3]; VPop; VPush [3;2;1;0]]) 1 /\
     requests (a_ssv_run (fun _ n => n) v [VPush [1;0;3;2]; VPush [0;1;2;3]; VPush [3;2;1;0]]) 1) /\
  requests (a_pow_u (fun _ n => n) [1;2;3;0] 100) 2 /\
  requests (a_is_group_set (fun _ n => n) [[0;1;2]; [1;2;0]; [2;0;1]]) 4.
Proof.
  splits.
  - intros old needed. lia.
  - cbn. splits; auto; try lia.
  - eexists. splits; [reflexivity| |]; eexists; vm_compute; reflexivity.
  - eexists; vm_compute; reflexivity.
  - eexists; vm_compute; reflexivity.
Qed.

(** Five rows of a block of two: one new block head for every block but the first. *)
Example C108_repeat_example :
  exists b ri, block_build (BlockArg 3 [[0; 1; 2]; [1; 0; 2]; [1; 2; 0]] (fun i => i)) = Ret (Some b) /\
    repeat_iter_new [2; 1; 0] b = Ret (Ok ri) /\
    requests (a_nexts (fun _ n => n) 5 ri) 7 /\
    requests (a_next_intos (fun _ n => n) 5 ri (Vec [0] 3)) 2.
Proof. do 2 eexists. splits; [vm_compute; reflexivity|vm_compute; reflexivity| |]; eexists; vm_compute; reflexivity. Qed.

(** A block of no rows whose row behind is backrounds. *)
Example C108_repeat_of_nothing_example :
  exists (b : block nat) ri, block_build (BlockArg 3 [[2; 1; 0]] (fun i => i)) = Ret (Some b) /\ block_holds b 3 [] [2; 1; 0] /\
    repeat_iter_new [1; 0; 2] b = Ret (Ok ri) /\
    a_next_intos (fun _ n => n) 2 ri (Vec [0] 3) = Ret (([([0], None); ([0], None)], Vec [0] 3), 2).
Proof.
  do 2 eexists. split; [vm_compute; reflexivity|]. split; [|split; vm_compute; reflexivity].
  unfold block_holds; splits; try reflexivity; auto. apply (proj1 (from_vec_ok [2; 1; 0] [2; 1; 0])). vm_compute. reflexivity.
Qed.
