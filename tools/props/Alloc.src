(** Property theorems C108: allocations are reused as documented. *)
(*IMPORTS*)
From Verif Require Import Base Spec Bell Stage Row Utils SameStageVec Block Alloc SpecVec SpecAcc SpecBlock SpecAlloc
  ListFacts BellFacts RowFacts MulFacts GroupFacts SsvFacts BlockFacts AllocFacts AllocFacts2 AllocFacts3 SsvThms.
Local Open Scope list_scope.
(*BODY*)
Theorem C108_same_results :
  forall grow,
    (forall s, bare items (a_rounds grow s) = Ret (row_rounds s)) /\
    (forall v s, bare items (a_extend_to_stage grow v s) = extend_to_stage (items v) s) /\
    (forall v r, bare items (a_overwrite_from grow v r) = Ret (overwrite_from (items v) r)) /\
    (forall v r, bare items (a_copy_into grow r v) = Ret (copy_into r (items v))) /\
    (forall a b, bare items (a_mul grow a b) = row_mul a b) /\
    (forall a b out, bare (on_fst items) (a_mul_into grow a b out) = mul_into a b (items out)) /\
    (forall r, bare items (a_inv grow r) = row_inv r) /\
    (forall r out, bare items (a_inv_into_buf grow r out) = inv_into_buf r (items out)) /\
    (forall set, bare (fun b => b) (a_is_group_set grow set) = is_group_set set) /\
    (forall t, bare acc_of (a_acc_new grow t) = acc_new (items t)) /\
    (forall a o, bare (on_fst acc_of) (a_acc_call grow a o) = acc_call (acc_of a) o) /\
    (forall r n, bare items (a_pow_u grow r n) = pow_u r n) /\
    (forall r e, bare items (a_pow_i grow r e) = pow_i r e) /\
    (forall s n, bare ssv_of (a_ssv_with_capacity grow s n) = Ret (ssv_new s)) /\
    (forall r, bare ssv_of (a_ssv_from_row_buf r) = ssv_from_row_buf (items r)) /\
    (forall v ops, bare (on_fst ssv_of) (a_ssv_run grow v ops) = ssv_run (ssv_of v) ops) /\
    (forall A (ri : repeat_iter A),
       bare (on_fst (option_map (fun '(r, i, a) => (items r, i, a)))) (a_repeat_iter_next grow ri) = repeat_iter_next ri) /\
    (forall A (ri : repeat_iter A) out,
       bare (fun p => (fst (fst p), items (snd (fst p)), snd p)) (a_repeat_iter_next_into grow ri out) =
       repeat_iter_next_into ri (items out)).
Proof.
  intros grow. splits.
  - apply bare_rounds.
  - apply bare_extend_to_stage.
  - apply bare_overwrite.
  - intros. apply bare_copy.
  - apply bare_mul.
  - apply bare_mul_into.
  - apply bare_inv.
  - apply bare_inv_into_buf.
  - apply bare_group_set.
  - apply bare_acc_new.
  - apply bare_acc_call.
  - apply bare_pow_u.
  - apply bare_pow_i.
  - apply bare_with_capacity.
  - apply bare_from_row_buf.
  - intros. apply bare_run.
  - intros. apply bare_repeat_next.
  - intros. apply bare_repeat_next_into.
Qed.

Theorem C108_with_capacity :
  forall grow s n, ample grow -> 0 < s ->
    exists v k, a_ssv_with_capacity grow s n = Ret (v, k) /\ k = (if n =? 0 then 0 else 1) /\
      holds (ssv_of v) s [] /\
      forall ops, Forall vec_op_args_valid ops -> never_above n s [] ops ->
        exists rs outs v', vec_run s [] ops = Some (rs, outs) /\
          a_ssv_run grow v ops = Ret ((v', outs), all_handed_out s [] ops) /\
          room (as_bells v') = room (as_bells v) /\ holds (ssv_of v') s rs.
Proof.
  intros grow s n G P. unfold a_ssv_with_capacity, vec_with_capacity, reserve, vec_new. cbn [items room length Nat.add].
  assert (K : forall R, n * s <= R ->
    holds (ssv_of (Assv (Vec [] R) s)) s [] /\
    forall ops, Forall vec_op_args_valid ops -> never_above n s [] ops ->
        exists rs outs v', vec_run s [] ops = Some (rs, outs) /\
          a_ssv_run grow (Assv (Vec [] R) s) ops = Ret ((v', outs), all_handed_out s [] ops) /\
          room (as_bells v') = R /\ holds (ssv_of v') s rs).
  { intros R L. assert (Rp : rep s [] (ssv_of (Assv (Vec [] R) s))) by (apply (rep_new s); auto).
    split; [apply holds_rep; auto|]. intros ops A NA.
    destruct (run_room grow n s ops [] (Assv (Vec [] R) s) Rp A NA L) as (rs & outs & v' & E1 & E2 & E3 & E4).
    exists rs, outs, v'. splits; auto. apply holds_rep; auto. }
  destruct (Nat.leb_spec (n * s) 0) as [L|L]; rewrite abind_ret; cbn [bind Nat.add].
  - assert (n = 0) by nia. subst n. destruct (K 0) as [K1 K2]; [lia|]. eexists _, _. splits; [reflexivity|reflexivity|exact K1|].
    intros ops A NA. apply K2; auto.
  - destruct (K (grow 0 (n * s))) as [K1 K2]; [apply G|]. eexists _, _. splits; [reflexivity| |exact K1|].
    + destruct n; [lia|reflexivity].
    + intros ops A NA. apply K2; auto.
Qed.

Theorem C108_from_any_buffer :
  forall grow s rs v n ops, holds (ssv_of v) s rs -> n * s <= room (as_bells v) ->
    Forall vec_op_args_valid ops -> never_above n s rs ops ->
    exists rs' outs v', vec_run s rs ops = Some (rs', outs) /\
      a_ssv_run grow v ops = Ret ((v', outs), all_handed_out s rs ops) /\
      room (as_bells v') = room (as_bells v) /\ holds (ssv_of v') s rs'.
Proof.
  intros grow s rs v n ops H L A NA. apply holds_rep in H.
  destruct (run_room grow n s ops rs v H A NA L) as (rs' & outs & v' & E1 & E2 & E3 & E4).
  exists rs', outs, v'. splits; auto. apply holds_rep; auto.
Qed.

Theorem C108_from_row_buf_and_split :
  forall grow r, valid_row (items r) ->
    a_ssv_from_row_buf r = Ret (Assv r (length (items r)), 0) /\
    forall v s rs i, holds (ssv_of v) s rs -> i <= length rs ->
      exists left right k, a_ssv_split grow v i = Ret (Some (left, right), k) /\
        k = (if i <? length rs then 1 else 0) /\ room (as_bells left) = room (as_bells v).
Proof.
  intros grow r V. split.
  - unfold a_ssv_from_row_buf. rewrite valid_row_stage by auto. rewrite abind_free. reflexivity.
  - intros v s rs i H L. apply holds_rep in H. pose proof (rep_length _ _ _ H) as Len. pose proof (rep_pos _ _ _ H) as P.
    destruct H as (_ & S1 & _). cbn [ssv_of ssv_stage ssv_bells] in *. unfold a_ssv_split. rewrite S1, Len.
    rewrite (proj2 (Nat.leb_le _ _)) by nia. rewrite collect_eq, abind_ret. cbn [bind]. eexists _, _, _. splits; [reflexivity| |reflexivity].
    rewrite skipn_length, Len. unfold asks. destruct (Nat.ltb_spec i (length rs)); destruct (Nat.leb_spec (s * length rs - i * s) 0); nia.
Qed.

(** C108: a transposed copy of a buffer costs one request, and none if it is empty or refused; the
    transposition in place costs none. *)
Theorem C108_transposed_copy :
  forall grow v s rs t, ample grow -> holds (ssv_of v) s rs -> valid_row t ->
    (length t = s -> exists v', a_ssv_pre_multiplied grow v t = Ret (Ok v', if length rs =? 0 then 0 else 1) /\
       holds (ssv_of v') s (map (row_product t) rs) /\ length rs * s <= room (as_bells v') /\
       exists v2, a_ssv_pre_multiply v t = Ret ((v2, Ok tt), 0) /\
         ssv_of v2 = ssv_of v' /\ room (as_bells v2) = room (as_bells v)) /\
    (length t <> s -> a_ssv_pre_multiplied grow v t = Ret (Err (IncompatibleStages s (length t)), 0) /\
       a_ssv_pre_multiply v t = Ret ((v, Err (IncompatibleStages (length t) s)), 0)).
Proof.
  intros grow v s rs t G H V. pose proof H as H0. apply holds_rep in H. pose proof (rep_length _ _ _ H) as Len. pose proof (rep_pos _ _ _ H) as P.
  pose proof H as (_ & S1 & _). cbn [ssv_of ssv_stage ssv_bells] in *. split.
  - intros L. destruct (pf_C28_pre_multiplied (ssv_of v) s rs t H0 V L) as ((w & E1 & Hw & E2) & _).
    pose proof Hw as Rw. apply holds_rep in Rw. pose proof (rep_length _ _ _ Rw) as Lw. rewrite map_length in Lw.
    pose proof (bare_pre_multiplied grow v t) as B1. rewrite E1 in B1. pose proof (bare_pre_multiply v t) as B2. rewrite E2 in B2.
    unfold bare in B1, B2.
    destruct (a_ssv_pre_multiply v t) as [[[v2 r2] k2]| | |] eqn:E3; try discriminate B2. cbn [bind on_fst] in B2. unfold on_fst in B2. cbn [fst snd] in B2.
    assert (Ew : ssv_of v2 = w /\ r2 = Ok tt) by (injection B2; auto). destruct Ew as [Ew ->].
    assert (X3 : k2 = 0 /\ room (as_bells v2) = room (as_bells v)).
    { unfold a_ssv_pre_multiply in E3. rewrite valid_row_stage in E3 by auto. rewrite abind_free in E3. destruct (test_err _ _); [|discriminate E3].
      destruct (mapM _ _) as [l| | |] in E3; try discriminate E3. rewrite abind_free in E3. injection E3 as <- <-. auto. }
    destruct X3 as [-> Rm].
    destruct (a_ssv_pre_multiplied grow v t) as [[r1 k1]| | |] eqn:E4; try discriminate B1. cbn [bind] in B1.
    destruct r1 as [v1|]; [|discriminate B1]. cbn [on_ok] in B1. assert (Ew1 : ssv_of v1 = w) by (injection B1; auto).
    unfold a_ssv_pre_multiplied, a_ssv_extend_transposed, a_ssv_extend_range_transposed in E4.
    rewrite valid_row_stage in E4 by auto. rewrite abind_free in E4.
    cbn [a_ssv_new as_stage] in E4. rewrite S1 in E4. unfold test_err in E4. rewrite L, Nat.eqb_refl in E4.
    destruct (to_bell_range _ _ _) as [[a b]| | |] in E4; try discriminate E4. rewrite abind_free in E4.
    destruct (slice _ _ _) as [src| | |] in E4; try discriminate E4. rewrite abind_free in E4.
    destruct (mapM _ _) as [l| | |] in E4; try discriminate E4. rewrite abind_free in E4.
    rewrite extend_eq in E4. cbn [as_bells vec_new items room length Nat.add app] in E4. rewrite !abind_ret in E4. cbn [bind] in E4.
    injection E4 as <- <-. rewrite <- Ew1 in Lw. cbn [ssv_of ssv_bells as_bells items] in Lw.
    exists (Assv (Vec l (room_for grow 0 (length l))) s). split; [|split; [|split]].
    + f_equal. f_equal. rewrite !Nat.add_0_r, Lw. unfold asks.
      destruct (Nat.eqb_spec (length rs) 0); destruct (Nat.leb_spec (s * length rs) 0); nia.
    + rewrite Ew1. exact Hw.
    + cbn [as_bells room]. rewrite Nat.mul_comm, <- Lw. apply room_ge, G.
    + exists v2. splits; auto. congruence.
  - intros N. unfold a_ssv_pre_multiplied, a_ssv_extend_transposed, a_ssv_extend_range_transposed, a_ssv_pre_multiply.
    rewrite valid_row_stage by auto. rewrite !abind_free. cbn [a_ssv_new as_stage]. rewrite S1. unfold test_err.
    rewrite (proj2 (Nat.eqb_neq s (length t))), (proj2 (Nat.eqb_neq (length t) s)) by auto. split; [|reflexivity].
    rewrite abind_ret. reflexivity.
Qed.

Theorem C108_written_into_a_buffer :
  forall grow out r a b, ample grow -> valid_row (items out) -> valid_row r -> valid_row a -> valid_row b ->
    length a = length b ->
    (forall m need, In (m, need)
       [(a_mul_into grow a b out, length b);
        ('(v, k) <- a_overwrite_from grow out r;; Ret ((v, Ok tt), k), length r);
        ('(v, k) <- a_copy_into grow r out;; Ret ((v, Ok tt), k), length r)] ->
       exists v, m = Ret ((v, Ok tt), if need <=? room out then 0 else 1) /\ length (items v) = need /\
         (need <= room out -> room v = room out) /\ need <= room v /\ room out <= room v) /\
    (exists v k, a_inv_into_buf grow r out = Ret (v, k) /\ length (items v) = length r /\
       (length r <= room out -> k = 0 /\ room v = room out) /\ k <= 1 /\ room out <= room v).
Proof.
  intros grow out r a b G Vo Vr Va Vb L. split.
  - intros m need [E|[E|[E|[]]]]; injection E as <- <-.
    + rewrite (a_mul_into_eq grow (length b)) by (auto; split; auto). eexists. splits; [reflexivity| | | |]; cbn [items room].
      * apply length_rmul.
      * apply room_fits.
      * apply room_ge, G.
      * apply room_mono, G.
    + unfold a_overwrite_from. rewrite extend_eq. cbn [vec_clear items room app length Nat.add bind].
      eexists. splits; [reflexivity| | | |]; cbn [items room]; [auto|apply room_fits|apply room_ge, G|apply room_mono, G].
    + unfold a_copy_into. rewrite extend_eq. cbn [vec_clear items room app length Nat.add bind].
      eexists. splits; [reflexivity| | | |]; cbn [items room]; [auto|apply room_fits|apply room_ge, G|apply room_mono, G].
  - rewrite a_inv_into_buf_eq by (auto; apply Vo). destruct (_ <? _); eexists _, _; (split; [reflexivity|]); cbn [items room];
      (split; [apply length_rinv|]).
    + split; [|split; [apply asks_le|apply room_mono, G]]. intros H. split; [apply asks_fits|apply room_fits]; auto.
    + split; [auto|]. lia.
Qed.

(** C108: a product, an inverse or rounds which is not written into an existing row costs one request; a product which is refused costs none. *)
Theorem C108_new_rows :
  forall grow a b, ample grow -> valid_row a -> valid_row b ->
    (length a = length b -> exists v, a_mul_result grow a b = Ret (Ok v, 1) /\ items v = row_product a b /\ length a <= room v) /\
    (length a <> length b ->
       a_mul_result grow a b = Ret (Err (IncompatibleStages (length a) (length b)), 0) /\
       forall out, a_mul_into grow a b out = Ret ((out, Err (IncompatibleStages (length a) (length b))), 0)) /\
    (exists v, a_inv grow a = Ret (v, 1) /\ row_product a (items v) = seq 0 (length a) /\ length a <= room v) /\
    forall s, 0 < s -> exists v, a_rounds grow s = Ret (v, 1) /\ items v = seq 0 s /\ s <= room v.
Proof.
  intros grow a b G Va Vb.
  assert (Pa : 0 < length a). { destruct a; [|cbn; lia]. destruct Va as [N _]. congruence. }
  assert (Ask : forall k, 0 < k -> asks 0 k = 1). { intros k Hk. unfold asks. destruct (Nat.leb_spec k 0); [lia|reflexivity]. }
  splits.
  - intros L. unfold a_mul_result. rewrite (valid_row_stage a), (valid_row_stage b) by auto. rewrite !abind_free.
    unfold test_err. rewrite L, Nat.eqb_refl. unfold a_mul_unchecked.
    assert (M : mapM (fun x => idx a x) b = Ret (rmul a b)).
    { apply (mul_unchecked_v (length b)); split; auto. }
    rewrite M, abind_free, collect_eq, abind_ret, length_rmul. cbn [bind].
    eexists. splits; [rewrite Ask by lia; reflexivity|reflexivity|]. cbn [room]. apply room_ge, G.
  - intros L. assert (Q : (length a =? length b) = false) by (apply Nat.eqb_neq; auto). split.
    + unfold a_mul_result. rewrite (valid_row_stage a), (valid_row_stage b) by auto. rewrite !abind_free.
      unfold test_err. rewrite Q. reflexivity.
    + intros out. unfold a_mul_into. rewrite (valid_row_stage a), (valid_row_stage b) by auto. rewrite !abind_free.
      unfold test_err. rewrite Q. reflexivity.
  - unfold a_inv. rewrite (valid_row_stage a) by auto. rewrite abind_free, collect_eq, abind_ret, repeat_length. cbn [items].
    rewrite inv_loop_ok by (auto; apply repeat_length). rewrite abind_free. cbn [bind].
    eexists. splits; [rewrite Ask by lia; reflexivity| |].
    + cbn [items]. rewrite <- rounds_seq. apply (rmul_rinv_r (length a)). split; auto.
    + cbn [room]. apply room_ge, G.
  - intros s P. unfold a_rounds. rewrite collect_eq, rounds_seq, seq_length.
    eexists. splits; [rewrite Ask by lia; reflexivity|reflexivity|]. cbn [room]. apply room_ge, G.
Qed.

Theorem C108_accumulator :
  forall grow t, ample grow -> valid_row (items t) -> length (items t) <= room t ->
    exists a, a_acc_new grow t = Ret (a, 1) /\ aa_total a = t /\
      forall ops, Forall (fun o => valid_row (acc_row o)) ops ->
        (forall r, In (SetTo r) ops -> length r = length (items t)) ->
        requests (a_acc_calls grow a ops) 0.
Proof.
  intros grow t G V L. destruct (acc_new_fits grow (length (items t)) t G (vrow_intro _ V) L) as (a & E & Et & F).
  exists a. splits; auto. intros ops A H. destruct (acc_calls_cost grow (length (items t)) ops A H a F) as (a' & E' & _).
  exists a'. auto.
Qed.

Theorem C108_powers :
  forall grow r, ample grow -> valid_row r ->
    (forall n, requests (a_pow_u grow r n) 2) /\
    (forall e, requests (a_pow_i grow r e) (if (e <? 0)%Z then 3 else 2)).
Proof.
  intros grow r G V. split.
  - intros n. destruct (pow_u_cost grow (length r) r n G (vrow_intro _ V)) as (v & E). exists v. auto.
  - intros e. unfold a_pow_i. destruct (e <? 0)%Z.
    + destruct (inv_cost grow r V) as (v & E & I). rewrite E, abind_ret, I.
      destruct (pow_u_cost grow (length r) (rinv r) (Z.to_nat (- e)) G (valid_rinv _ _ (vrow_intro _ V))) as (w & E2).
      rewrite E2. exists w. reflexivity.
    + destruct (pow_u_cost grow (length r) r (Z.to_nat e) G (vrow_intro _ V)) as (v & E). exists v. auto.
Qed.

Theorem C108_is_group :
  forall grow set s, ample grow -> Forall (fun r => valid_row r /\ length r = s) set ->
    exists n, requests (a_is_group_set grow set) n /\ n <= 4.
Proof.
  intros grow set s G F. unfold a_is_group_set. destruct set as [|r set]; [exists 0; split; [exists (Ok false); auto|lia]|].
  assert (St : is_group_stages None (r :: set) = Ret (Ok tt)).
  { cbn [is_group_stages]. inversion F as [|? ? V F']; subst. rewrite valid_row_stage by apply V. cbn [bind].
    rewrite (proj2 V). clear V F. induction F' as [|x l Vx F' IH]; [reflexivity|]. cbn [is_group_stages].
    rewrite valid_row_stage by apply Vx. cbn [bind]. unfold test_err. rewrite (proj2 Vx), Nat.eqb_refl. exact IH. }
  rewrite St, abind_free. unfold a_rounds. rewrite collect_eq, abind_ret, abind_ret.
  destruct (group_outer_cost grow s (r :: set) (r :: set) G F F
    (Vec (row_rounds 1) (room_for grow 0 (length (row_rounds 1)))) (Vec (row_rounds 1) (room_for grow 0 (length (row_rounds 1)))))
    as (ok & n & E & L); [discriminate|].
  rewrite E, abind_ret. cbn [bind]. eexists. split; [eexists; reflexivity|].
  pose proof (asks_le (room_for grow 0 (length (row_rounds 1))) s). cbn [room] in L.
  pose proof (asks_le 0 (length (row_rounds 1))). lia.
Qed.

Theorem C108_repeat_iter :
  forall grow A (b : block A) s ars lo start k, block_holds b s ars lo -> ars <> [] ->
    valid_row start -> length start = s ->
    exists ri, repeat_iter_new start b = Ret (Ok ri) /\
      requests (a_nexts grow k ri) (k + (k - 1) / length ars) /\
      forall out, s <= room out ->
        exists os out', a_next_intos grow k ri out = Ret ((os, out'), (k - 1) / length ars) /\ room out' = room out.
Proof.
  intros grow A b s ars lo start k H N V L. apply holds_brep in H.
  destruct (repeat_new_ok s ars lo b start H) as (ri & E & St); [split; auto|].
  exists ri. splits; auto.
  - destruct (nexts_cost grow s ars lo k N ri start 0 St) as (o & E2). exists o. exact E2.
  - intros out R. destruct (next_intos_cost grow s ars lo k N ri start 0 out St R) as (os & out' & E2 & E3). eauto.
Qed.

(** C108: over a block without rows every call gives nothing, asks once (for the next block head) and leaves the given row alone. *)
Theorem C108_repeat_iter_of_nothing :
  forall grow A (b : block A) s lo start k, block_holds b s [] lo -> valid_row start -> length start = s ->
    exists ri, repeat_iter_new start b = Ret (Ok ri) /\
      (exists ri', a_nexts grow k ri = Ret ((repeat None k, ri'), k)) /\
      forall out, a_next_intos grow k ri out = Ret ((repeat (items out, None) k, out), k).
Proof.
  intros grow A b s lo start k H V L. apply holds_brep in H.
  destruct (repeat_new_ok s [] lo b start H) as (ri & E & St); [split; auto|].
  exists ri. splits; auto.
  - apply (empty_cost grow s lo k ri start (Vec [] 0) St).
  - intros out. apply (empty_cost grow s lo k ri start out St).
Qed.

(** With an allocator which gives exactly what is asked for, a buffer made for two rows of four bells
    takes two rows, gives one up and takes another one with the one request that made it (and one for
    the row handed out); one row more needs a second request. *)
Example C108_example :
  ample (fun _ n => n) /\
  never_above 2 4 [] [VPush [1;0;3;2]; VPush [0;1;2;3]; VPop; VPush [3;2;1;0]] /\
  (exists v, a_ssv_with_capacity (fun _ n => n) 4 2 = Ret (v, 1) /\
     requests (a_ssv_run (fun _ n => n) v [VPush [1;0;3;2]; VPush [0;1;2;3]; VPop; VPush [3;2;1;0]]) 1 /\
     requests (a_ssv_run (fun _ n => n) v [VPush [1;0;3;2]; VPush [0;1;2;3]; VPush [3;2;1;0]]) 1) /\
  requests (a_pow_u (fun _ n => n) [1;2;3;0] 100) 2 /\
  requests (a_is_group_set (fun _ n => n) [[0;1;2]; [1;2;0]; [2;0;1]]) 4.
Proof.
  splits.
  - intros old needed. lia.
  - cbn. splits; auto; try lia.
  - eexists. splits; [reflexivity| |]; eexists; vm_compute; reflexivity.
  - eexists; vm_compute; reflexivity.
  - eexists; vm_compute; reflexivity.
Qed.

(** Five rows of a block of two: one new block head for every block but the first. *)
Example C108_repeat_example :
  exists b ri, block_build (BlockArg 3 [[0; 1; 2]; [1; 0; 2]; [1; 2; 0]] (fun i => i)) = Ret (Some b) /\
    repeat_iter_new [2; 1; 0] b = Ret (Ok ri) /\
    requests (a_nexts (fun _ n => n) 5 ri) 7 /\
    requests (a_next_intos (fun _ n => n) 5 ri (Vec [0] 3)) 2.
Proof. do 2 eexists. splits; [vm_compute; reflexivity|vm_compute; reflexivity| |]; eexists; vm_compute; reflexivity. Qed.

(** A block of no rows whose row behind is backrounds. *)
Example C108_repeat_of_nothing_example :
  exists (b : block nat) ri, block_build (BlockArg 3 [[2; 1; 0]] (fun i => i)) = Ret (Some b) /\ block_holds b 3 [] [2; 1; 0] /\
    repeat_iter_new [1; 0; 2] b = Ret (Ok ri) /\
    a_next_intos (fun _ n => n) 2 ri (Vec [0] 3) = Ret (([([0], None); ([0], None)], Vec [0] 3), 2).
Proof.
  do 2 eexists. split; [vm_compute; reflexivity|]. split; [|split; vm_compute; reflexivity].
  unfold block_holds; splits; try reflexivity; auto. apply (proj1 (from_vec_ok [2; 1; 0] [2; 1; 0])). vm_compute. reflexivity.
Qed.
