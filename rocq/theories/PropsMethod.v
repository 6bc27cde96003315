(** Properties C59, C60, C63 and C67: methods and calls. *)

(* Generated from tools/props/Method.src; the proofs are in MethodThms.v. *)
From Verif Require Import Base Spec ListFacts Bell Stage Row RowFacts MulFacts GroupFacts
  Utils SameStageVec SpecVec SsvFacts Block SpecBlock BlockFacts PlaceNot SpecPn PnFacts PnFacts2 PnFacts3 PropsBell PropsPn
  Class Method Call SpecMethod MethodFacts.
Local Open Scope list_scope.
From Verif Require Import MethodThms.

(** C59: for a lead which starts at rounds, the plain course is the first lead repeated [k] times,
    where [k] is the order of the lead head: its rows are those of the lead multiplied by the powers
    of the lead head, with the index in the lead and the label of each, and it ends at rounds.
    [row_in_plain_course] is the row at that index.  The loop ends within [k] steps. *)
Theorem C59_plain_course :
  forall m s ars lo, block_holds (first_lead m) s ars lo -> is_identity (hd [] (all_rows_of ars lo)) ->
    exists k pc pars pe,
      0 < k /\ (exists e, power lo k e /\ is_identity e) /\
      (forall j e, 0 < j < k -> power lo j e -> ~ is_identity e) /\
      (forall fuel, k <= fuel -> plain_course fuel m = Ret pc) /\
      block_holds pc s pars pe /\ is_identity pe /\ length pars = k * length ars /\
      (forall j i r l, j < k -> nth_error ars i = Some (r, l) ->
         exists h r', power lo j h /\ composition h r r' /\
           nth_error pars (j * length ars + i) = Some (r', RowAnnot i l) /\
           row_in_plain_course m (j * length ars + i) = Ret r').
Proof. exact pf_C59_plain_course. Qed.
Print Assumptions C59_plain_course.

(** C59: [row_in_plain_course] goes round the plain course for ever. *)
Theorem C59_row_in_plain_course :
  forall m s ars lo fuel pc pars pe i,
    block_holds (first_lead m) s ars lo -> is_identity (hd [] (all_rows_of ars lo)) -> ars <> [] ->
    plain_course fuel m = Ret pc -> block_holds pc s pars pe ->
    exists r a, nth_error pars (i mod length pars) = Some (r, a) /\ row_in_plain_course m i = Ret r.
Proof. exact pf_C59_row_in_plain_course. Qed.
Print Assumptions C59_row_in_plain_course.

(** C59 without the assumption that the lead starts at rounds: with [t] the transposition taking the
    first row to the lead head, [plain_course] ends exactly when some lead [j] of the course (the
    first row moved [j] times by [t], [0 < j]) starts at rounds; it never panics. *)
Theorem C59_terminates_iff :
  forall m s ars lo t, block_holds (first_lead m) s ars lo ->
    valid_row t -> length t = s -> composition t (hd [] (all_rows_of ars lo)) lo ->
    ((exists fuel pc, plain_course fuel m = Ret pc) <->
     (exists j p e, 0 < j /\ power t j p /\ composition p (hd [] (all_rows_of ars lo)) e /\ is_identity e)) /\
    (forall fuel, plain_course fuel m <> Panic /\ plain_course fuel m <> Ub).
Proof. exact pf_C59_terminates_iff. Qed.
Print Assumptions C59_terminates_iff.

(** C59: hence there are methods on which [plain_course] never ends (the lead "21 -> 21", which is
    not rounds and comes back to itself), and [row_in_plain_course] panics on an empty lead. *)
Theorem C59_plain_course_loops_for_ever_refuted :
  exists m, block_holds (first_lead m) 2 [([1; 0], None)] [1; 0] /\
    (forall fuel, plain_course fuel m = NoFuel) /\
    exists m', block_holds (first_lead m') 2 [] [0; 1] /\ forall i, row_in_plain_course m' i = Panic.
Proof. exact pf_C59_plain_course_loops_for_ever_refuted. Qed.
Print Assumptions C59_plain_course_loops_for_ever_refuted.

(** C59: what a method says of its lead.  [row_in_plain_lead] also has the lead head, as the row after the last one, and
    panics past that. *)
Theorem C59_getters :
  forall m s ars lo i, block_holds (first_lead m) s ars lo ->
    method_stage m = s /\ lead_len m = length ars /\ lead_head m = Ret lo /\
    (forall r l, nth_error ars i = Some (r, l) -> row_in_plain_lead m i = Ret r) /\
    row_in_plain_lead m (length ars) = Ret lo /\
    (length ars < i -> row_in_plain_lead m i = Panic).
Proof. exact pf_C59_getters. Qed.
Print Assumptions C59_getters.

(** Plain Bob Minimus. *)
Example C59_example :
  exists pns lead pc, pn_block_parse (s2l "-14-14,12") 4 = Ret (Ok pns) /\
    pn_block_to_block_from_rounds None pns = Ret lead /\
    plain_course 3 (Method [] [] (FullClass false false false Bob) lead) = Ret pc /\
    block_len pc = 24 /\ block_get_row pc 9 = Some [2; 0; 1; 3].
Proof. do 3 eexists. splits; vm_compute; reflexivity. Qed.

(** C60: after any history of label updates (at indices inside the lead), each index carries the
    label set last (or the one it had), [label_indices] lists in ascending order exactly the indices
    carrying a label, and the rows, the title, the name and the class are unchanged. *)
Theorem C60_labels :
  forall m s ars lo ops, block_holds (first_lead m) s ars lo ->
    Forall (fun o => op_index o < length ars) ops ->
    exists m' ars', label_calls m ops = Ret m' /\ block_holds (first_lead m') s ars' lo /\
      map fst ars' = map fst ars /\
      (forall i r l, nth_error ars i = Some (r, l) -> get_label m' i = Ret (last_label ops i l)) /\
      (forall x, Sorted.StronglySorted lt (label_indices m' x) /\
         forall i, In i (label_indices m' x) <-> i < length ars /\ get_label m' i = Ret (Some x)) /\
      m_title m' = m_title m /\ m_name m' = m_name m /\ m_class m' = m_class m.
Proof. exact pf_C60_labels. Qed.
Print Assumptions C60_labels.

(** C60: indices outside the lead panic, also that of the lead head. *)
Theorem C60_out_of_range_panics :
  forall m s ars lo i l, block_holds (first_lead m) s ars lo -> length ars <= i ->
    get_label m i = Panic /\ set_label m i l = Panic.
Proof. exact pf_C60_out_of_range_panics. Qed.
Print Assumptions C60_out_of_range_panics.

Example C60_example :
  exists lead m, block_build (BlockArg 3 [[0; 1; 2]; [1; 0; 2]; [1; 2; 0]; [2; 1; 0]] (fun _ => None)) = Ret (Some lead) /\
    label_calls (Method [] [] (FullClass false false false Bob) lead)
      [OpSet 2 (Some (s2l "LE")); OpSet 1 (Some (s2l "A")); OpLeadEnd; OpSet 1 None] = Ret m /\
    label_indices m (s2l "LE") = [0; 2] /\ get_label m 1 = Ret None.
Proof. do 2 eexists. splits; vm_compute; reflexivity. Qed.

(** C63: the title of a method is its name (if it has one), the parts of the class that titles show,
    and the name of the stage, joined with single spaces; a stage without a name panics. *)
Theorem C63_title :
  forall name c s,
    (forall n, stage_name s = Some n ->
       generate_title name c s = Ret (joined (name_words name ++ title_words c ++ [n]))) /\
    (stage_name s = None -> generate_title name c s = Panic).
Proof. exact pf_C63_title. Qed.
Print Assumptions C63_title.

(** C63: so titles exist for exactly the stages from 1 to 22. *)
Theorem C63_title_exists_iff :
  forall name c s, (exists t, generate_title name c s = Ret t) <-> 1 <= s <= 22.
Proof. exact pf_C63_title_exists_iff. Qed.
Print Assumptions C63_title_exists_iff.

Example C63_example :
  generate_title (s2l "Bristol") (FullClass false false false Surprise) 8 = Ret (s2l "Bristol Surprise Major") /\
  generate_title (s2l "Stedman") (FullClass false false false Principle) 9 = Ret (s2l "Stedman Caters") /\
  generate_title [] (FullClass false true true TreblePlace) 6 = Ret (s2l "Differential Little Treble Place Minor") /\
  generate_title (s2l "X") (FullClass false true false Hybrid) 5 = Ret (s2l "X Doubles") /\
  generate_title (s2l "X") (FullClass false true false Hybrid) 23 = Panic.
Proof. splits; reflexivity. Qed.

(** C67: a bob or single made from a block of changes covers and rings one row for each change, from
    rounds, and its transposition is the product of the changes. *)
Theorem C67_calls :
  forall pns s, pns <> [] -> Forall (fun pn => legal pn /\ pn_stage pn = s) pns ->
    exists b s_ rs lo ts, le_bob pns = Ret b /\ le_single pns = Ret s_ /\
      notation b = 45%N /\ notation s_ = 115%N /\
      rung (seq 0 s) pns rs lo /\
      Forall2 (fun pn t => pn_transposition pn = Ret t) pns ts /\ is_product ts lo /\
      forall c, c = b \/ c = s_ ->
        location c = s2l "LE" /\ cover_len c = length pns /\ call_len c = length pns /\ call_stage c = s /\
        block_holds (call_block c) s (map (fun r => (r, tt)) (removelast (seq 0 s :: rs))) lo /\
        call_transposition c = Ret lo.
Proof. exact pf_C67_calls. Qed.
Print Assumptions C67_calls.

Example C67_example :
  exists pns b, pn_block_parse (s2l "14.36") 6 = Ret (Ok pns) /\ le_bob pns = Ret b /\
    call_len b = 2 /\ call_transposition b = Ret [2; 0; 1; 5; 3; 4] /\ call_effective_stage b = Ret 6.
Proof. do 2 eexists. splits; try (vm_compute; reflexivity). Qed.
