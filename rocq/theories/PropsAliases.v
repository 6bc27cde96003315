(** Property theorems C116: operators, conversions and second names. *)

(* Generated from tools/props/Aliases.src; the proofs are in AliasesThms.v. *)
From Verif Require Import Base Bell Spec Stage Row SameStageVec Block PlaceNot Compare SpecVec SpecBlock ListFacts BellFacts RowFacts MulFacts
  GroupFacts SsvFacts BlockFacts Aliases SpecTotals RowThms SsvThms BlockThms PnThms.
Local Open Scope list_scope.
From Verif Require Import AliasesThms.

(** C116: bells and indices are one-to-one, the number is the index plus one, [+=] and [-=] undo each other, and [-=]
    panics exactly when it would leave the bells. *)
Theorem C116_bells :
  (forall i, bell_index (bell_from_index i) = i) /\ (forall b, bell_from_index (bell_index b) = b) /\
  (forall b, bell_from_number (bell_index b + 1) = Some b /\ bell_number b = bell_index b + 1) /\
  (forall b n, bell_index (bell_add_assign b n) = bell_index b + n /\ bell_sub_assign (bell_add_assign b n) n = Ret b) /\
  (forall b n c, bell_sub_assign b n = Ret c <-> bell_add_assign c n = b) /\
  (forall b n, bell_sub_assign b n = Panic <-> bell_index b < n) /\
  (forall b n, bell_add b n = bell_add_assign b n /\ bell_sub b n = bell_sub_assign b n).
Proof. exact pf_C116_bells. Qed.
Print Assumptions C116_bells.

(** C116: indexing a row gives the bell in that place and panics exactly beyond the last place; the bells of a row are
    such that building a row from them gives the row back; copies equal the row, and a row and an owned row are equal
    exactly when they have the same bells in the same places. *)
Theorem C116_rows :
  (forall r i b, row_index r i = Ret b <-> nth_error r i = Some b) /\
  (forall r i, row_index r i = Panic <-> length r <= i) /\
  (forall r, valid_row r -> from_vec (into_bell_vec r) = Ok r /\ from_bell_iter (row_slice r) = Ok r /\
     row_to_owned r = r /\ row_to_rc r = r) /\
  (forall a b, (buf_eq_row a b = true <-> forall i, nth_error a i = nth_error b i) /\ row_eq_buf b a = buf_eq_row a b) /\
  (forall r, valid_row r -> length r <= 33 -> row_from_str (row_display r) = Ok r) /\
  (forall t r, row_from_str t = Ok r -> valid_row r /\ names_bells t r).
Proof. exact pf_C116_rows. Qed.
Print Assumptions C116_rows.

(** C116: [!r] has bell number [p] in place [b] exactly when [r] has bell number [b] in place [p]; it undoes [r] on
    either side, and [!!r] is [r]. *)
Theorem C116_not :
  forall r, valid_row r ->
    exists y, row_not r = Ret y /\ valid_row y /\ row_not y = Ret r /\
      (forall p b, row_index r p = Ret b <-> row_index y b = Ret p) /\
      row_mul r y = Ret (row_rounds (length r)) /\ row_mul y r = Ret (row_rounds (length r)).
Proof. exact pf_C116_not. Qed.
Print Assumptions C116_not.

(** C116: whatever calls are made on an accumulator, its total is what the rows given to it come to, and the next call returns. *)
Theorem C116_accumulated_totals :
  forall a t, accumulated a t -> acc_get_total a = t /\
    (forall r, valid_row r -> exists a' a'' res res',
       acc_accumulate a r = Ret (a', res) /\ acc_pre_accumulate a r = Ret (a'', res') /\
       (length r = length t -> res = Ok tt /\ acc_get_total a' = row_product t r /\ res' = Ok tt /\ acc_get_total a'' = row_product r t) /\
       (length r <> length t -> res = Err (IncompatibleStages (length t) (length r)) /\ a' = a /\
          res' = Err (IncompatibleStages (length r) (length t)) /\ a'' = a)).
Proof. exact pf_C116_accumulated_totals. Qed.
Print Assumptions C116_accumulated_totals.

(** Three rows one after the other, a refusal between them. *)
Example C116_accumulated_totals_example :
  exists a0 a1 a2 a3, acc_new [1; 0; 2] = Ret a0 /\ acc_accumulate a0 [0; 2; 1] = Ret (a1, Ok tt) /\
    acc_accumulate a1 [1; 0] = Ret (a2, Err (IncompatibleStages 3 2)) /\
    acc_pre_accumulate a2 [0; 2; 1] = Ret (a3, Ok tt) /\ accumulated a3 (row_product [0; 2; 1] (row_product [1; 0; 2] [0; 2; 1])) /\
    acc_get_total a3 = [2; 1; 0].
Proof.
  assert (V : valid_row [1; 0; 2]) by (apply (proj1 (from_vec_ok [1; 0; 2] [1; 0; 2])); vm_compute; reflexivity).
  assert (W : valid_row [0; 2; 1]) by (apply (proj1 (from_vec_ok [0; 2; 1] [0; 2; 1])); vm_compute; reflexivity).
  assert (U : valid_row [1; 0]) by (apply (proj1 (from_vec_ok [1; 0] [1; 0])); vm_compute; reflexivity).
  destruct (acc_new [1; 0; 2]) as [a0| | |] eqn:E0; try (vm_compute in E0; discriminate).
  assert (H0 : accumulated a0 [1; 0; 2]) by (apply acd_new; auto).
  vm_compute in E0. injection E0 as <-.
  do 4 eexists. split; [reflexivity|]. split; [vm_compute; reflexivity|]. split; [vm_compute; reflexivity|]. split; [vm_compute; reflexivity|].
  split; [|vm_compute; reflexivity].
  assert (H1 := fun a' => acd_after _ _ [0; 2; 1] a' H0 W eq_refl). specialize (H1 _ eq_refl).
  assert (N : length [1; 0] <> length (row_product [1; 0; 2] [0; 2; 1])) by (cbn; lia).
  assert (H2 := fun a' res => acd_refused _ _ [1; 0] a' res H1 U N). specialize (H2 _ _ (or_introl eq_refl)).
  assert (H3 := fun a' => acd_before _ _ [0; 2; 1] a' H2 W eq_refl). exact (H3 _ eq_refl).
Qed.

(** C116: [permute] multiplies every row of a buffer or block by the given row and leaves the annotations, or refuses
    rows of another stage and changes nothing; [repeat_iter] goes round the block for ever; a block of place notation
    is built from an iterator exactly when it is not empty and of one stage. *)
Theorem C116_second_names :
  (forall v s rs t, holds v s rs -> valid_row t ->
     (length t = s -> exists v', ssv_permute v t = Ret (v', Ok tt) /\ holds v' s (map (row_product t) rs)) /\
     (length t <> s -> ssv_permute v t = Ret (v, Err (IncompatibleStages (length t) s)))) /\
  (forall A (b : block A) s ars lo t, block_holds b s ars lo -> valid_row t ->
     (length t = s -> exists b', block_permute b t = Ret (b', Ok tt) /\
        block_holds b' s (map (fun ra => (row_product t (fst ra), snd ra)) ars) (row_product t lo)) /\
     (length t <> s -> block_permute b t = Ret (b, Err (IncompatibleStages (length t) s)))) /\
  (forall A (b : block A) s ars lo start, block_holds b s ars lo -> valid_row start ->
     (length start = s -> ars <> [] -> forall k, exists ri outs ri' r a p head item,
        block_repeat_iter b start = Ret (Ok ri) /\ repeat_run ri (repeat None (S k)) = Ret (outs, ri') /\
        nth_error ars (k mod length ars) = Some (r, a) /\ power lo (k / length ars) p /\
        composition start p head /\ composition head r item /\
        nth_error outs k = Some (Some (item, k mod length ars, a))) /\
     (length start <> s -> block_repeat_iter b start = Ret (Err (IncompatibleStages (length start) s)))) /\
  (forall pns l, pn_block_from_iter pns = Ok l <->
     l = pns /\ pns <> [] /\ forall p q, In p pns -> In q pns -> pn_stage p = pn_stage q).
Proof. exact pf_C116_second_names. Qed.
Print Assumptions C116_second_names.

Example C116_example :
  bell_sub_assign (bell_from_index 3) 4 = Panic /\ row_index [2; 0; 1] 1 = Ret 0 /\ row_index [2; 0; 1] 3 = Panic /\
  row_not [2; 0; 1] = Ret [1; 2; 0] /\ valid_row [2; 0; 1] /\ row_from_str (s2l "312") = Ok [2; 0; 1] /\
  buf_eq_row [2; 0; 1] [2; 0] = false /\ row_to_owned [2; 0; 1] = [2; 0; 1].
Proof. splits; try reflexivity. apply (from_vec_ok [2; 0; 1] [2; 0; 1]). reflexivity. Qed.
