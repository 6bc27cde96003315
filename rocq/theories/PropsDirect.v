(** Property theorems for small functions of the API used on their own: C15, C23, C30, C36, C44, C45, C67, C70, C71, C73. *)

(* Generated from tools/props/Direct.src; the proofs are in DirectThms.v. *)
From Verif Require Import Utf8 Cache SpecCache Utf8Facts.
From Verif Require Import Base Bell Stage Parity Row Utils SameStageVec Block PlaceNot Mask Music Class Method Call Format Spec SpecVec SpecBlock SpecPn
  SpecMask SpecClass SpecMethod ListFacts BellFacts RowFacts MulFacts GroupFacts SsvFacts BlockFacts PnFacts PnFacts2 PnFacts3 ClassFacts ClassFacts2 ClassFacts3
  MethodFacts FormatFacts LawFacts DirectFacts.
From Verif Require Import RowThms BlockThms PnThms ClassThms MethodThms FormatThms.
Local Open Scope list_scope.
From Verif Require Import DirectThms.

(** C15: [from_number] is the parity of the number, [zero_or_one] its remainder modulo two and [plus_or_minus]
    the sign; parities multiply as numbers are added, and as signs are multiplied. *)
Theorem C15_parities_of_numbers :
  (forall n, (parity_from_number n = Even <-> Nat.Even n) /\ (parity_from_number n = Odd <-> Nat.Odd n)) /\
  (forall n, parity_zero_or_one (parity_from_number n) = n mod 2) /\
  (forall p, parity_zero_or_one p < 2 /\ parity_from_number (parity_zero_or_one p) = p) /\
  (forall m n, parity_mul (parity_from_number m) (parity_from_number n) = parity_from_number (m + n)) /\
  (forall p, [parity_plus_or_minus p] = s2l "+" <-> p = Even) /\ (forall p, [parity_plus_or_minus p] = s2l "-" <-> p = Odd) /\
  (forall b, parity_from_is_odd b = Odd <-> b = true).
Proof. exact pf_C15_parities_of_numbers. Qed.
Print Assumptions C15_parities_of_numbers.

(** The documentation of [from_is_odd] ("Maps `true` to Even and `false` to Odd") says the opposite of its name. *)
Theorem C15_documentation_of_from_is_odd_refuted :
  ~ (parity_from_is_odd true = Even /\ parity_from_is_odd false = Odd).
Proof. exact pf_C15_documentation_of_from_is_odd_refuted. Qed.
Print Assumptions C15_documentation_of_from_is_odd_refuted.

Example C15_parities_example :
  parity_from_number 1000 = Even /\ parity_from_number 47 = Odd /\ parity_zero_or_one Odd = 1 /\ parity_mul Odd Odd = Even.
Proof. splits; reflexivity. Qed.

(** C23: the buffer made from one row holds this row and nothing else. *)
Theorem C23_buffer_of_one_row :
  forall r, valid_row r -> exists v, ssv_from_row_buf r = Ret v /\ holds v (length r) [r].
Proof. exact pf_C23_buffer_of_one_row. Qed.
Print Assumptions C23_buffer_of_one_row.

Example C23_one_row_example : exists v, ssv_from_row_buf [1; 2; 0] = Ret v /\ ssv_rows v = Ret [[1; 2; 0]].
Proof. eexists. split; vm_compute; reflexivity. Qed.

(** C30: mapping the annotations keeps the rows and the left-over row, and gives each row the image of its
    annotation; with indices, the image of its index and annotation. *)
Theorem C30_map_annots :
  forall A B (b : block A) s ars lo (f : A -> B) (g : nat -> A -> B), block_holds b s ars lo ->
    block_holds (block_map_annots b f) s (map (fun ra => (fst ra, f (snd ra))) ars) lo /\
    exists ars', block_holds (block_map_annots_with_index b g) s ars' lo /\ length ars' = length ars /\
      forall i r a, nth_error ars i = Some (r, a) -> nth_error ars' i = Some (r, g i a).
Proof. exact pf_C30_map_annots. Qed.
Print Assumptions C30_map_annots.

Example C30_map_annots_example :
  exists b, block_build (BlockArg 3 [[0; 1; 2]; [1; 0; 2]; [1; 2; 0]] (fun i => i)) = Ret (Some b) /\
    block_annot_rows (block_map_annots b (fun i => i + 7)) = Ret [([0; 1; 2], 7); ([1; 0; 2], 8)] /\
    block_annot_rows (block_map_annots_with_index b (fun i a => i * 10 + a)) = Ret [([0; 1; 2], 0); ([1; 0; 2], 11)].
Proof. eexists. split; [vm_compute; reflexivity|]. split; vm_compute; reflexivity. Qed.

(** C36: the cross exists exactly on even stages, makes no place, is what each of its texts is read as, and exchanges
    the bells in pairs. *)
Theorem C36_cross :
  (forall s, pn_cross s = None <-> Nat.Odd s) /\
  (forall s pn, pn_cross s = Some pn -> 0 < s -> legal pn /\ pn_stage pn = s /\ pn_places pn = [] /\
     (forall t, cross_text t -> pn_parse t s = Ret (Ok pn)) /\
     (forall r r', valid_row r -> length r = s -> pn_permute_new pn r = Ret (Ok r') ->
        forall k, 2 * k + 1 < s -> nth_error r' (2 * k) = nth_error r (2 * k + 1) /\ nth_error r' (2 * k + 1) = nth_error r (2 * k))).
Proof. exact pf_C36_cross. Qed.
Print Assumptions C36_cross.

Example C36_cross_example : exists pn, pn_cross 6 = Some pn /\ pn_permute_new pn [5; 0; 1; 2; 3; 4] = Ret (Ok [0; 5; 2; 1; 4; 3]) /\ pn_cross 7 = None.
Proof. eexists. splits; vm_compute; reflexivity. Qed.

(** C45: a block of changes accepted by [from_vec] says how many changes it has and the stage of each of them. *)
Theorem C45_length_and_stage :
  forall pns l, pn_block_from_vec pns = Ok l ->
    pn_block_len l = length pns /\ exists s, pn_block_stage l = Ret s /\ forall pn, In pn pns -> pn_stage pn = s.
Proof. exact pf_C45_length_and_stage. Qed.
Print Assumptions C45_length_and_stage.

Example C45_length_example : exists l, pn_block_from_vec [PlaceNot [0] 5; PlaceNot [2] 5] = Ok l /\ pn_block_len l = 2 /\ pn_block_stage l = Ret 5.
Proof. eexists. splits; vm_compute; reflexivity. Qed.

(** C67: the effective stage of a bob or single is the least (non-zero) number of bells such that each of its changes makes
    every place above it. *)
Theorem C67_effective_stage :
  forall pns s c, pns <> [] -> Forall (fun pn => legal pn /\ pn_stage pn = s) pns ->
    le_bob pns = Ret c \/ le_single pns = Ret c ->
    let above n := forall pn i, In pn pns -> n <= i -> i < s -> In i (pn_places pn) in
    exists e, call_effective_stage c = Ret e /\ 1 <= e /\ e <= s /\ above e /\ forall n, 1 <= n -> above n -> e <= n.
Proof. exact pf_C67_effective_stage. Qed.
Print Assumptions C67_effective_stage.

Example C67_effective_stage_example :
  exists pns c, pn_block_parse (s2l "345678.125678") 8 = Ret (Ok pns) /\ le_bob pns = Ret c /\ call_effective_stage c = Ret 4.
Proof. do 2 eexists. split; [vm_compute; reflexivity|]. split; [vm_compute; reflexivity|]. vm_compute. reflexivity. Qed.

(** C67: a call made of its parts gives them back; it may cover more or fewer rows than it rings. *)
Theorem C67_calls_from_parts :
  forall n l k b s ars lo, block_holds b s ars lo ->
    let c := Call n l k b in
    notation c = n /\ location c = l /\ cover_len c = k /\ call_block c = b /\ call_len c = length ars /\ call_stage c = s /\
    call_transposition c = Ret lo.
Proof. exact pf_C67_calls_from_parts. Qed.
Print Assumptions C67_calls_from_parts.

Example C67_parts_example :
  exists b, block_build (BlockArg 3 [[0; 1; 2]; [1; 0; 2]; [1; 2; 0]] (fun i => tt)) = Ret (Some b) /\
    cover_len (Call 45%N (s2l "LE") 5 b) = 5 /\ call_len (Call 45%N (s2l "LE") 5 b) = 2.
Proof. eexists. split; [vm_compute; reflexivity|]. split; reflexivity. Qed.

(** C70: the bells of a regex are those its elements give. *)
Theorem C70_bells_of_the_elements :
  forall es, bells_written es = flat_map (fun e => match elem_bell e with Some b => [b] | None => [] end) es /\
    forall e b, elem_bell e = Some b <-> regex_display [e] = bell_name b /\ bells_written [e] = [b].
Proof. exact pf_C70_bells_of_the_elements. Qed.
Print Assumptions C70_bells_of_the_elements.

Example C70_bells_example : bells_written [RGlob; RBell 4; RAny; RBell 11] = [4; 11] /\ elem_bell (RBell 4) = Some 4 /\ elem_bell RGlob = None.
Proof. splits; reflexivity. Qed.

(** C71: [with_name] makes a method of any lead which is not empty, starts at rounds and does not jump where a treble dodging hunt bell
    crosses, on a stage which has a name; it keeps the name and the lead, with the labels. *)
Theorem C71_with_name :
  forall hash_order name lead s ars lo n, (forall l, collected_set l (hash_order l)) ->
    block_holds lead s ars lo -> ars <> [] -> is_identity (hd [] (map fst ars)) ->
    all_cross_sections (map fst ars) lo no_jump -> stage_name s = Some n ->
    exists m, with_name hash_order name lead = Ret m /\ first_lead m = lead /\ m_name m = name /\ method_stage m = s /\
      lead_len m = length ars /\ lead_head m = Ret lo /\
      (forall x i, In i (label_indices m x) <-> exists r, nth_error ars i = Some (r, Some x)) /\
      classify hash_order lead = Ret (m_class m) /\
      m_title m = joined (name_words name ++ title_words (m_class m) ++ [n]).
Proof. exact pf_C71_with_name. Qed.
Print Assumptions C71_with_name.

Example C71_with_name_example :
  exists pns b m, pn_block_parse (s2l "-14-14,12") 4 = Ret (Ok pns) /\
    pn_block_to_block_from_rounds (Some (s2l "x")) pns = Ret b /\
    with_name (nodup Nat.eq_dec) (s2l "Plain") b = Ret m /\ m_title m = s2l "Plain Bob Minimus" /\
    label_indices m (s2l "x") = [0; 1; 2; 3; 4; 5; 6; 7].
Proof.
  do 3 eexists. split; [vm_compute; reflexivity|]. split; [vm_compute; reflexivity|]. split; [vm_compute; reflexivity|].
  split; vm_compute; reflexivity.
Qed.

(** C73: the debug text of a bell, a mask and a regex determines it, that of a place notation among those of its stage; and
    the debug texts of different types differ. *)
Theorem C73_debug_texts_are_unambiguous :
  (forall b b', bell_debug b = bell_debug b' -> b = b') /\
  (forall m m', mask_debug m = mask_debug m' -> m = m') /\
  (forall e e', regex_debug e = regex_debug e' -> e = e') /\
  (forall r r', row_debug r = row_debug r' -> r = r') /\ (forall r r', row_buf_debug r = row_buf_debug r' -> r = r') /\
  (forall pn pn', pn_stage pn = pn_stage pn' -> pn_debug pn = pn_debug pn' -> pn = pn') /\
  (forall b m e r r' pn, NoDup [bell_debug b; mask_debug m; regex_debug e; row_debug r; row_buf_debug r'; pn_debug pn]).
Proof. exact pf_C73_debug_texts_are_unambiguous. Qed.
Print Assumptions C73_debug_texts_are_unambiguous.

Example C73_debug_example :
  bell_debug 10 = s2l "Bell(E)" /\ mask_debug [Some 0; None] = s2l "Mask(1x)" /\ regex_debug [RGlob; RBell 3] = s2l "Regex(*4)" /\
  pn_debug (PlaceNot [0; 3] 6) = s2l "PlaceNot(14)".
Proof. splits; reflexivity. Qed.

(** C73: the debug text of one of these cannot be mistaken for a displayed text: it has brackets, which no displayed bell,
    row, mask, regex or place notation has. *)
Theorem C73_debug_texts_are_not_displayed_ones :
  forall b m e r pn,
    (forall t, In t [bell_debug b; mask_debug m; regex_debug e; row_debug r; row_buf_debug r; pn_debug pn] ->
       exists name inside, t = name ++ s2l "(" ++ inside ++ s2l ")" /\ name <> []) /\
    (forall t, In t [bell_name b; mask_display m; regex_display e; row_display r; pn_display pn] -> ~ In 40%N t /\ ~ In 41%N t).
Proof. exact pf_C73_debug_texts_are_not_displayed_ones. Qed.
Print Assumptions C73_debug_texts_are_not_displayed_ones.

(** C44: the positions in errors are counted in bytes: what [byte_len] gives for a text is the number of bytes
    of its UTF-8 encoding, so a position of C44 is where the bytes of the rest of the text start. *)
Theorem C44_positions_count_bytes :
  (forall t bytes, utf8 t bytes -> length bytes = byte_len t) /\
  (forall before rest bytes, utf8 (before ++ rest) bytes ->
     utf8 before (firstn (byte_len before) bytes) /\ utf8 rest (skipn (byte_len before) bytes)).
Proof. exact pf_C44_positions_count_bytes. Qed.
Print Assumptions C44_positions_count_bytes.

Example C44_bytes_example :
  utf8 [233; 49; 43]%N [195; 169; 49; 43]%N /\ byte_len [233; 49]%N = 3 /\
  pn_block_parse [233; 49; 43]%N 6 = Ret (Err (PlusNotAtBlockStart 3)).
Proof. split; [apply (encode_utf8 [233; 49; 43]%N); repeat constructor; lia|]. split; vm_compute; reflexivity. Qed.
