(** Programs which also call the unsafe functions of the API, the ones which skip a check.  They run
    on the values of [Program]. *)
From Verif Require Import Base Bell Stage Row Utils SameStageVec Block PlaceNot Mask Music Class Method Program.
Local Open Scope list_scope.

(** ** The functions *)

(* owned.rs 246-248 and 300-302; also borrowed.rs 822-841, [from_slice_unchecked] and
   [from_mut_slice_unchecked]: the casts are the identity, and the row is the slice *)
Definition row_from_vec_unchecked (bells : list bell) : row := bells.

(* borrowed.rs 137-139 *)
Definition get_bell_unchecked (r : row) (place : nat) : exec bell := idx_unchecked r place.

(* borrowed.rs 360-367 *)
Definition mul_into_row_unchecked (a b out : row) : exec row := mul_into_row_loop a out b.

(* borrowed.rs 530-532 *)
Definition tranposition_to_unchecked (a other : row) : exec row := ai <- row_inv a;; mul_unchecked other ai.

(* same_stage_vec.rs 140-142 *)
Definition from_bell_vec_unchecked (bells : list bell) (s : stage) : ssv := Ssv bells s.

(* place_not.rs 340-344 *)
Definition permute_new_unchecked (pn : place_not) (r : row) : exec row := permute_unchecked pn r.

(* place_not.rs 602-604 *)
Definition pn_block_from_vec_unchecked (pns : list place_not) : pn_block := pns.

(* music.rs 106-108 and 86-88 *)
Definition regex_from_vec_unchecked (es : list regex_elem) : regex := es.

(** ** Programs *)

(* no code in /repo: the caller, as in [Program] *)
Inductive ucall :=
| Safe (c : call)
| FromVecUnchecked (bells : list bell)
| GetBellUnchecked (i place : nat)
| MulUnchecked (i j : nat) | MulIntoUnchecked (i j out : nat) | MulIntoRowUnchecked (i j : nat) (out : place)
| TranpositionToUnchecked (i j : nat)
| VecFromBellsUnchecked (bells : list bell) (n : nat)
| PnFromSortedSlice (places : list nat) (n : nat)
| PermuteUnchecked (pn : nat) (p : place) | PermuteNewUnchecked (pn i : nat)
| PnBlockFromVecUnchecked (ps : list nat)
| MaskFixUnchecked (m : nat) (b : bell) | MaskSetUnchecked (m : nat) (b : bell) (p : nat).

(** A change of a mutable row, wherever it is (see [Program], [ChangeRow]). *)
(* no code in /repo: the caller, as in [Program] *)
Definition change_at (st : list value) (p : place) (f : row -> exec row) : exec (list value) :=
  match p with
  | InRow i => with_row st i (fun r => r' <- f r;; put st i (VRow r'))
  | InVec i index =>
      with_vec st i (fun v => o <- ssv_edit v index f;; match o with Some v' => put st i (VVec v') | None => Ret st end)
  | InVecFirst i =>
      with_vec st i (fun v => o <- ssv_edit_first v f;; match o with Some v' => put st i (VVec v') | None => Ret st end)
  | InVecLast i =>
      with_vec st i (fun v => o <- ssv_edit_last v f;; match o with Some v' => put st i (VVec v') | None => Ret st end)
  end.

Section Step.
Context (hash_order : list nat -> list nat).

(* no code in /repo: the caller, as in [Program] *)
Definition ustep (st : list value) (c : ucall) : exec (list value) :=
  match c with
  | Safe c => step hash_order st c
  | FromVecUnchecked bells => push st (VRow (row_from_vec_unchecked bells))
  | GetBellUnchecked i place => with_row st i (fun r => get_bell_unchecked r place;;; Ret st)
  | MulUnchecked i j => with_row st i (fun a => with_row st j (fun b => r <- mul_unchecked a b;; push st (VRow r)))
  | MulIntoUnchecked i j out =>
      with_row st i (fun a => with_row st j (fun b => with_row st out (fun o =>
        o' <- mul_into_unchecked a b o;; put st out (VRow o'))))
  | MulIntoRowUnchecked i j out =>
      change_at st out (fun r =>
        match nth_error st i, nth_error st j with
        | Some (VRow a), Some (VRow b) => mul_into_row_unchecked a b r
        | _, _ => Ret r
        end)
  | TranpositionToUnchecked i j =>
      with_row st i (fun a => with_row st j (fun b => r <- tranposition_to_unchecked a b;; push st (VRow r)))
  | VecFromBellsUnchecked bells n => s <- stage_new n;; push st (VVec (from_bell_vec_unchecked bells s))
  | PnFromSortedSlice places n =>
      s <- stage_new n;; p <- from_sorted_slice places s;; push_res st (res_map VPn p)
  | PermuteUnchecked pn p =>
      change_at st p (fun r => match nth_error st pn with Some (VPn x) => permute_unchecked x r | _ => Ret r end)
  | PermuteNewUnchecked pn i =>
      with_pn st pn (fun x => with_row st i (fun r => r' <- permute_new_unchecked x r;; push st (VRow r')))
  | PnBlockFromVecUnchecked ps => push st (VPnBlock (pn_block_from_vec_unchecked (pns_at st ps)))
  | MaskFixUnchecked m b => with_mask st m (fun x => x' <- mask_fix_unchecked x b;; put st m (VMask x'))
  | MaskSetUnchecked m b p => with_mask st m (fun x => x' <- mask_set_bell_unchecked x b p;; put st m (VMask x'))
  end.

(* no code in /repo: the caller, as in [Program] *)
Definition urun_from (st : list value) (prog : list ucall) : exec (list value) := foldM ustep prog st.
(* no code in /repo: the caller, as in [Program] *)
Definition urun (prog : list ucall) : exec (list value) := urun_from [] prog.
End Step.
