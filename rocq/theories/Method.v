(** Model of /repo/src/method/mod.rs. *)
From Verif Require Import Base Bell Stage Row Utils SameStageVec Block PlaceNot Class.
Local Open Scope list_scope.

(* method/mod.rs 14 *)
Definition LABEL_LEAD_END : str := s2l "LE".

(* method/mod.rs 22-27 (and [Method::new], 35-47) *)
Record method := Method
  { m_title : str; m_name : str; m_class : full_class; first_lead : block (option str) }.

(* method/mod.rs 201-222; [s.len()] is measured in bytes *)
Definition generate_title (name : str) (c : full_class) (s : stage) : exec str :=
  let t := name in
  let t := match name with [] => t | _ => t ++ s2l " " end in
  let len_before_class := byte_len t in
  let t := t ++ fmt_name c true in
  let t := if len_before_class <? byte_len t then t ++ s2l " " else t in
  n <- unwrap (stage_name s);;
  Ret (t ++ n).

Section Constructors.
Context (hash_order : list nat -> list nat).

(* method/mod.rs 50-58 *)
Definition with_name (name : str) (lead : block (option str)) : exec method :=
  c <- classify hash_order lead;;
  title <- generate_title name c (block_stage lead);;
  Ret (Method title name c lead).

(* method/mod.rs 62-71 *)
Definition from_place_not_string (name : str) (s : stage) (place_notation : str)
  : exec (result method pn_block_error) :=
  pns <- pn_block_parse place_notation s;;
  match pns with
  | Err e => Ret (Err e)
  | Ok pns =>
      lead <- pn_block_to_block_from_rounds None pns;;
      m <- with_name name lead;; Ret (Ok m)
  end.

(* method/mod.rs 74-78 *)
Definition with_lead_end (name : str) (pns : pn_block) : exec method :=
  lead <- pn_block_to_block_from_rounds None pns;;
  i <- usub (block_len lead) 1;;
  lead' <- unwrap (block_set_annot lead i (Some LABEL_LEAD_END));;
  with_name name lead'.
End Constructors.

(* method/mod.rs 100-102 *)
Definition lead_head (m : method) : exec row := block_leftover_row (first_lead m).

(* method/mod.rs 106-108 *)
Definition lead_len (m : method) : nat := block_len (first_lead m).

(* method/mod.rs 112-114 *)
Definition method_stage (m : method) : stage := block_stage (first_lead m).

(* method/mod.rs 135-137: the row buffer also holds the lead head *)
Definition row_in_plain_lead (m : method) (i : nat) : exec row :=
  ssv_index (blk_rows (first_lead m)) i.

(* method/mod.rs 140-147; division by zero panics *)
Definition row_in_plain_course (m : method) (i : nat) : exec row :=
  assert_ (negb (lead_len m =? 0));;;
  let num_leads := i / lead_len m in
  let sub_lead_idx := i mod lead_len m in
  h <- lead_head m;;
  head <- pow_u h num_leads;;
  row_within_lead <- row_in_plain_lead m sub_lead_idx;;
  row_mul head row_within_lead.

(* method/mod.rs 224-246 *)
Record row_annot := RowAnnot { sub_lead_idx : nat; label : option str }.

(* method/mod.rs 160-162, the loop *)
Fixpoint plain_course_loop (fuel : nat) (len : nat) (plain_course : block row_annot)
  : exec (block row_annot) :=
  match fuel with
  | O => NoFuel
  | S fuel' =>
      leftover <- block_leftover_row plain_course;;
      if is_rounds leftover then Ret plain_course
      else
        next <- block_extend_from_within plain_course (Included 0) (Excluded len);;
        plain_course_loop fuel' len next
  end.

(* method/mod.rs 150-164 *)
Definition plain_course (fuel : nat) (m : method) : exec (block row_annot) :=
  plain_course_loop fuel (lead_len m)
    (block_map_annots_with_index (first_lead m) (fun i l => RowAnnot i l)).

(** ** Labels *)

(* method/mod.rs 171-173 *)
Definition set_label (m : method) (index : nat) (l : option str) : exec method :=
  lead <- unwrap (block_set_annot (first_lead m) index l);;
  Ret (Method (m_title m) (m_name m) (m_class m) lead).

(* method/mod.rs 176-178 *)
Definition set_lead_end_label (m : method) : exec method := set_label m 0 (Some LABEL_LEAD_END).

(* method/mod.rs 182-188 *)
Definition get_label (m : method) (index : nat) : exec (option str) :=
  unwrap (block_get_annot (first_lead m) index).

(* method/mod.rs 191-195 *)
Definition label_indices (m : method) (l : str) : list nat :=
  positions (fun a => match a with Some t => str_eqb t l | None => false end)
    (blk_annots (first_lead m)).
