(** Property theorems C36 to C45 (place notation). *)

(* Generated from tools/props/Pn.src; the proofs are in PnThms.v. *)
From Verif Require Import Base Bell Stage Row Utils SameStageVec Block PlaceNot Spec SpecVec SpecBlock SpecPn ListFacts
  BellFacts RowFacts MulFacts SsvFacts BlockFacts PnFacts PnFacts2 PnFacts3.
Local Open Scope list_scope.
From Verif Require Import PnThms.

(** C36: a text other than a lone cross, naming the places [w], is accepted exactly when [w] is
    non-empty, without repetition, within the stage, and every gap between consecutive places is
    even or exactly one; the result has the places of [place_made], and is a legal change. *)
Theorem C36_parse_places :
  forall t s w, 0 < s -> ~ cross_text t -> written t w ->
    (unambiguous s w <-> exists pn, pn_parse t s = Ret (Ok pn)) /\
    forall pn, pn_parse t s = Ret (Ok pn) ->
      pn_stage pn = s /\ legal pn /\ (forall p, In p (pn_places pn) <-> place_made s w p).
Proof. exact pf_C36_parse_places. Qed.
Print Assumptions C36_parse_places.

(** C36: a lone cross is accepted exactly on even stages, and has no places. *)
Theorem C36_parse_cross :
  forall t s, 0 < s -> cross_text t ->
    (Nat.Even s -> pn_parse t s = Ret (Ok (PlaceNot [] s)) /\ legal (PlaceNot [] s)) /\
    (Nat.Odd s -> pn_parse t s = Ret (Err (OddStageCross s))).
Proof. exact pf_C36_parse_cross. Qed.
Print Assumptions C36_parse_cross.

(** C36: the places of a legal place notation are strictly ascending and within the stage. *)
Theorem C36_places_ascend :
  forall pn, legal pn -> forall i p, nth_error (pn_places pn) i = Some p ->
    p < pn_stage pn /\ forall j q, i < j -> nth_error (pn_places pn) j = Some q -> p < q.
Proof. exact pf_C36_places_ascend. Qed.
Print Assumptions C36_places_ascend.

Example C36_witness :
  ~ cross_text (s2l "4") /\ written (s2l "4") [3] /\ unambiguous 8 [3] /\
  pn_parse (s2l "4") 8 = Ret (Ok (PlaceNot [0; 3] 8)) /\ legal (PlaceNot [0; 3] 8) /\
  place_made 8 [3] 0 /\ pn_parse (s2l "146") 8 = Ret (Ok (PlaceNot [0; 3; 4; 5] 8)) /\
  pn_parse (s2l "X") 8 = Ret (Ok (PlaceNot [] 8)) /\ pn_parse (s2l "3") 7 = Ret (Ok (PlaceNot [2] 7)).
Proof.
  assert (W : written (s2l "4") [3]) by (apply written_filter; vm_compute; reflexivity).
  assert (C : ~ cross_text (s2l "4")) by (intros [K|[K|K]]; discriminate).
  pose proof (pf_C36_parse_places (s2l "4") 8 [3] ltac:(lia) C W) as [U P].
  assert (E : pn_parse (s2l "4") 8 = Ret (Ok (PlaceNot [0; 3] 8))) by (vm_compute; reflexivity).
  splits; auto; try (vm_compute; reflexivity).
  - apply U. eauto.
  - apply P in E. tauto.
  - apply P in E. apply E. left; auto.
Qed.

(** C37: parsing never panics, and every error tells the truth: a cross error only for a cross on an
    odd stage; no places only when no bell is named; the place out of stage is the largest written
    and is out of stage; the duplicate place is written twice; the two ambiguous places are written
    with no other place between them, and at least three, and an odd number, of places between. *)
Theorem C37_errors_are_true :
  forall t s, 0 < s -> exists r, pn_parse t s = Ret r /\
    forall e w, r = Err e -> written t w ->
      match e with
      | OddStageCross s' => s' = s /\ Nat.Odd s /\ cross_text t
      | NoPlacesGiven => ~ cross_text t /\ w = []
      | PlaceOutOfStage p s' => s' = s /\ In p w /\ s <= p /\ (forall q, In q w -> q <= p)
      | DuplicatePlace p => exists l1 l2 l3, w = l1 ++ p :: l2 ++ p :: l3
      | AmbiguousPlacesBetween p q => consecutive w p q /\ 3 <= q - p - 1 /\ Nat.Odd (q - p - 1)
      end.
Proof. exact pf_C37_errors_are_true. Qed.
Print Assumptions C37_errors_are_true.

(** C37: conversely, with nothing else wrong each mistake is reported. *)
Theorem C37_mistakes_are_reported :
  forall t s w, 0 < s -> ~ cross_text t -> written t w ->
    (w = [] -> pn_parse t s = Ret (Err NoPlacesGiven)) /\
    (forall p, In p w -> s <= p -> (forall q, In q w -> q <= p) ->
       pn_parse t s = Ret (Err (PlaceOutOfStage p s))) /\
    ((forall p, In p w -> p < s) -> ~ unambiguous s w -> w <> [] ->
       exists e, pn_parse t s = Ret (Err e) /\
         match e with DuplicatePlace _ | AmbiguousPlacesBetween _ _ => True | _ => False end).
Proof. exact pf_C37_mistakes_are_reported. Qed.
Print Assumptions C37_mistakes_are_reported.

Example C37_witness :
  pn_parse (s2l "15") 8 = Ret (Err (AmbiguousPlacesBetween 0 4)) /\
  pn_parse (s2l "119") 8 = Ret (Err (PlaceOutOfStage 8 8)) /\
  pn_parse (s2l "x") 7 = Ret (Err (OddStageCross 7)) /\
  pn_parse (s2l "4114") 8 = Ret (Err (DuplicatePlace 0)) /\
  pn_parse (s2l "xx") 8 = Ret (Err NoPlacesGiven) /\ pn_parse (s2l "") 8 = Ret (Err NoPlacesGiven).
Proof. vm_compute. splits; reflexivity. Qed.

(** C38: applying a legal place notation to a row of its stage never panics; the bells in the places
    made stay, all others exchange in adjacent pairs, and the result is a valid row; both ways of
    applying it agree. *)
Theorem C38_permute :
  forall pn r, legal pn -> valid_row r -> length r = pn_stage pn ->
    exists r', pn_permute pn r = Ret (r', Ok tt) /\ pn_permute_new pn r = Ret (Ok r') /\
      rings (pn_places pn) 0 r r' /\ valid_row r' /\ length r' = length r.
Proof. exact pf_C38_permute. Qed.
Print Assumptions C38_permute.

(** C38: on a row of another stage both return the error, and the row stays as it was. *)
Theorem C38_permute_wrong_stage :
  forall pn r, valid_row r -> length r <> pn_stage pn ->
    pn_permute pn r = Ret (r, Err (IncompatibleStages (length r) (pn_stage pn))) /\
    pn_permute_new pn r = Ret (Err (IncompatibleStages (length r) (pn_stage pn))).
Proof. exact pf_C38_permute_wrong_stage. Qed.
Print Assumptions C38_permute_wrong_stage.

(** C38: every place notation which parses can be applied to every row of the stage. *)
Theorem C38_parsed_can_be_applied :
  forall t s pn r, 0 < s -> pn_parse t s = Ret (Ok pn) -> valid_row r -> length r = s ->
    exists r', pn_permute pn r = Ret (r', Ok tt) /\ rings (pn_places pn) 0 r r' /\ valid_row r'.
Proof. exact pf_C38_parsed_can_be_applied. Qed.
Print Assumptions C38_parsed_can_be_applied.

Example C38_witness :
  legal (PlaceNot [0; 3] 8) /\ valid_row [7; 6; 5; 4; 3; 2; 1; 0] /\
  pn_permute (PlaceNot [0; 3] 8) [7; 6; 5; 4; 3; 2; 1; 0] = Ret ([7; 5; 6; 4; 2; 3; 0; 1], Ok tt) /\
  pn_permute (PlaceNot [0; 3] 8) [1; 0; 2] = Ret ([1; 0; 2], Err (IncompatibleStages 3 8)).
Proof.
  splits; try (vm_compute; reflexivity); [|vr].
  apply (pn_parse_legal (s2l "4") 8); [lia|vm_compute; reflexivity].
Qed.

(** C39: the transposition of a place notation is a valid row and its own inverse; applying the place
    notation multiplies the row by it, and applying it twice gives the row back. *)
Theorem C39_transposition :
  forall pn, legal pn -> exists t, pn_transposition pn = Ret t /\
    valid_row t /\ length t = pn_stage pn /\
    composition t t (seq 0 (pn_stage pn)) /\ row_inv t = Ret t /\
    forall r, valid_row r -> length r = pn_stage pn ->
      exists r', pn_permute_new pn r = Ret (Ok r') /\ composition r t r' /\ row_mul r t = Ret r' /\
        pn_permute_new pn r' = Ret (Ok r).
Proof. exact pf_C39_transposition. Qed.
Print Assumptions C39_transposition.

Example C39_witness :
  legal (PlaceNot [0; 5] 6) /\ pn_transposition (PlaceNot [0; 5] 6) = Ret [0; 2; 1; 4; 3; 5].
Proof.
  split; [|vm_compute; reflexivity]. apply (pn_parse_legal (s2l "16") 6); [lia|vm_compute; reflexivity].
Qed.

(** C40: the place notation between two rows: it never panics, it is found exactly when there is a
    legal place notation leading from one to the other, and it is that one, which is unique. *)
Theorem C40_place_notation_between :
  forall r1 r2, valid_row r1 -> valid_row r2 -> exists o, pn_between r1 r2 = Ret o /\
    (forall pn, o = Some pn <->
       legal pn /\ length r1 = pn_stage pn /\ pn_permute_new pn r1 = Ret (Ok r2)) /\
    (o = None <-> forall pn, legal pn -> length r1 = pn_stage pn -> ~ rings (pn_places pn) 0 r1 r2).
Proof. exact pf_C40_place_notation_between. Qed.
Print Assumptions C40_place_notation_between.

Example C40_witness :
  pn_between [0; 1; 2; 3; 4; 5] [1; 0; 2; 3; 5; 4] = Ret (Some (PlaceNot [2; 3] 6)) /\
  pn_between [0; 1; 2] [1; 2; 0] = Ret None /\ pn_between [0; 1; 2] [1; 0] = Ret None.
Proof. vm_compute. splits; reflexivity. Qed.

(** C41: parsing what is displayed for a legal place notation on up to 33 bells gives it back. *)
Theorem C41_display_round_trip :
  forall pn, legal pn -> pn_stage pn <= 33 -> pn_parse (pn_display pn) (pn_stage pn) = Ret (Ok pn).
Proof. exact pf_C41_display_round_trip. Qed.
Print Assumptions C41_display_round_trip.

Example C41_witness :
  legal (PlaceNot [0; 11] 12) /\ pn_display (PlaceNot [0; 11] 12) = s2l "1T" /\ pn_display (PlaceNot [] 12) = s2l "-".
Proof.
  splits; try (vm_compute; reflexivity). apply (pn_parse_legal (s2l "1T") 12); [lia|vm_compute; reflexivity].
Qed.

(** C42: [contains] tells whether the bell in a place stays, [is_cross] whether none does, and
    [has_internal_places] whether a place other than the first and the last is made. *)
Theorem C42_queries :
  forall pn r r', legal pn -> valid_row r -> length r = pn_stage pn -> pn_permute_new pn r = Ret (Ok r') ->
    (forall p, p < pn_stage pn -> (pn_contains pn p = true <-> nth_error r' p = nth_error r p)) /\
    (forall p, pn_stage pn <= p -> pn_contains pn p = false) /\
    (pn_is_cross pn = true <-> forall p, p < pn_stage pn -> nth_error r' p <> nth_error r p) /\
    exists b, pn_has_internal_places pn = Ret b /\
      (b = true <-> exists p, 0 < p /\ p + 1 < pn_stage pn /\ nth_error r' p = nth_error r p).
Proof. exact pf_C42_queries. Qed.
Print Assumptions C42_queries.

Example C42_witness :
  legal (PlaceNot [0; 3; 6] 7) /\ pn_permute_new (PlaceNot [0; 3; 6] 7) (seq 0 7) = Ret (Ok [0; 2; 1; 3; 5; 4; 6]) /\
  pn_has_internal_places (PlaceNot [0; 3; 6] 7) = Ret true /\ pn_has_internal_places (PlaceNot [0; 5] 6) = Ret false /\
  pn_has_internal_places (PlaceNot [0] 1) = Ret false.
Proof.
  splits; try (vm_compute; reflexivity). apply (pn_parse_legal (s2l "147") 7); [lia|vm_compute; reflexivity].
Qed.

(** C43: parsing a block of place notation never panics, and returns exactly the changes which the
    text describes: a non-empty list is returned as it is, and no changes give the error for empty
    blocks; any text which describes no list of changes gives some other error. *)
Theorem C43_parse_block :
  forall t s, 0 < s -> exists r, pn_block_parse t s = Ret r /\
    (forall l, r = Ok l <-> l <> [] /\ block_changes s t l) /\
    (r = Err EmptyBlock <-> block_changes s t []) /\
    (forall l l', block_changes s t l -> block_changes s t l' -> l = l').
Proof. exact pf_C43_parse_block. Qed.
Print Assumptions C43_parse_block.

(** C43: all changes of a parsed block are legal and of the stage asked for, and there is one. *)
Theorem C43_parsed_changes_are_legal :
  forall t s l, 0 < s -> pn_block_parse t s = Ret (Ok l) ->
    l <> [] /\ Forall (fun pn => legal pn /\ pn_stage pn = s) l.
Proof. exact pf_C43_parsed_changes_are_legal. Qed.
Print Assumptions C43_parsed_changes_are_legal.

(** C43: the text of a single part with a comma after it stands for the part and its mirror image. *)
Theorem C43_mirror :
  forall t s l, 0 < s -> ~ In comma t -> pn_block_parse t s = Ret (Ok l) ->
    (forall skip c y, t = skip ++ c :: y -> ~ is_plus_char c) ->
    pn_block_parse (t ++ [comma]) s = Ret (Ok (l ++ tl (rev l))).
Proof. exact pf_C43_mirror. Qed.
Print Assumptions C43_mirror.

Example C43_examples :
  pn_block_parse (s2l "-16-1236,+ 12.34") 6 =
    Ret (Ok [PlaceNot [] 6; PlaceNot [0; 5] 6; PlaceNot [] 6; PlaceNot [0; 1; 2; 5] 6; PlaceNot [] 6; PlaceNot [0; 5] 6; PlaceNot [] 6;
             PlaceNot [0; 1] 6; PlaceNot [2; 3] 6]) /\
  pn_block_parse (s2l "+-1") 5 = Ret (Err (PnError 1 2 (OddStageCross 5))) /\
  pn_block_parse (s2l "3.1,2") 3 = Ret (Ok [PlaceNot [2] 3; PlaceNot [0] 3; PlaceNot [2] 3; PlaceNot [0; 1; 2] 3]) /\
  pn_block_parse (s2l " . ") 6 = Ret (Err EmptyBlock).
Proof. vm_compute. splits; reflexivity. Qed.

(** C44: what the positions in errors are.  The error concerns a part of the text; with [o] the byte
    offset of this part, all positions are too large by [o], so they are right in the first part
    only; the end of the range of a word is one more than the end of the word.  (Claimed: positions
    in the whole text, and a range which is the word.) *)
Theorem C44_error_positions_partial :
  forall t s e, 0 < s -> pn_block_parse t s = Ret (Err e) -> e <> EmptyBlock ->
    exists before p after, part_of t before p after /\
    let o := byte_len before in
    match e with
    | PlusNotAtBlockStart i => exists x c y, misplaced_plus p x c y /\ i = o + byte_len (before ++ x)
    | PnError a b pe =>
        (exists x w y, bad_word s p x w y pe /\ a = o + byte_len (before ++ x) /\ b = o + byte_len (before ++ x ++ w) + 1) \/
        (exists x c y, bad_cross s p x c y pe /\ a = o + byte_len (before ++ x) /\ b = o + byte_len (before ++ x ++ [c]))
    | EmptyBlock => False
    end.
Proof. exact pf_C44_error_positions_partial. Qed.
Print Assumptions C44_error_positions_partial.

(** C44: in a text without commas the index of a misplaced plus is right, and the range of a cross or
    of a word starts where it should. *)
Theorem C44_error_positions_single_part_partial :
  forall t s e, 0 < s -> ~ In comma t -> pn_block_parse t s = Ret (Err e) ->
    match e with
    | PlusNotAtBlockStart i => exists x c y, misplaced_plus t x c y /\ i = byte_len x
    | PnError a b pe =>
        (exists x w y, bad_word s t x w y pe /\ a = byte_len x /\ b = byte_len (x ++ w) + 1) \/
        (exists x c y, bad_cross s t x c y pe /\ a = byte_len x /\ b = byte_len (x ++ [c]))
    | EmptyBlock => block_changes s t []
    end.
Proof. exact pf_C44_error_positions_single_part_partial. Qed.
Print Assumptions C44_error_positions_single_part_partial.

(** C44 as claimed is false: after a comma the index of the plus is not the position of a plus, and
    the range of a word can end beyond the end of the text. *)
Theorem C44_error_positions_refuted :
  (pn_block_parse (s2l "-16,1+2") 6 = Ret (Err (PlusNotAtBlockStart 9)) /\ byte_len (s2l "-16,1+2") = 7) /\
  (pn_block_parse (s2l "119") 8 = Ret (Err (PnError 0 4 (PlaceOutOfStage 8 8))) /\ byte_len (s2l "119") = 3) /\
  (pn_block_parse (s2l "-.9.-") 8 = Ret (Err (PnError 2 4 (PlaceOutOfStage 8 8)))) /\
  (pn_block_parse (s2l "-,9") 8 = Ret (Err (PnError 4 6 (PlaceOutOfStage 8 8)))).
Proof. exact pf_C44_error_positions_refuted. Qed.
Print Assumptions C44_error_positions_refuted.

(** C45: a block of place notation is built from exactly the non-empty lists of one stage; otherwise
    the error names the first place notation of another stage. *)
Theorem C45_from_vec :
  forall pns,
    (forall l, pn_block_from_vec pns = Ok l <->
       l = pns /\ pns <> [] /\ forall p q, In p pns -> In q pns -> pn_stage p = pn_stage q) /\
    (forall i e, pn_block_from_vec pns = Err (PbIncompatibleStages i e) <->
       exists first pn, nth_error pns 0 = Some first /\ nth_error pns i = Some pn /\
         pn_stage pn <> pn_stage first /\ e = IncompatibleStages (pn_stage first) (pn_stage pn) /\
         forall j q, j < i -> nth_error pns j = Some q -> pn_stage q = pn_stage first) /\
    (pn_block_from_vec pns = Err PbEmptyBlock <-> pns = []).
Proof. exact pf_C45_from_vec. Qed.
Print Assumptions C45_from_vec.

(** C45: expanding the changes from a row of the same stage: the buffer holds the start row and the
    row after each change, and the last of these is the start times the product of the changes. *)
Theorem C45_to_rows :
  forall pns start s, pns <> [] -> Forall (fun pn => legal pn /\ pn_stage pn = s) pns ->
    valid_row start -> length start = s ->
    exists v rs last_row ts, pn_block_to_rows pns start = Ret (Ok v) /\ holds v s (start :: rs) /\
      length rs = length pns /\ rung start pns rs last_row /\ last (start :: rs) [] = last_row /\
      Forall2 (fun pn t => pn_transposition pn = Ret t) pns ts /\ is_product (start :: ts) last_row.
Proof. exact pf_C45_to_rows. Qed.
Print Assumptions C45_to_rows.

(** C45: a start row of another stage is reported. *)
Theorem C45_to_rows_wrong_stage :
  forall pn pns start, valid_row start -> length start <> pn_stage pn ->
    pn_block_to_rows (pn :: pns) start = Ret (Err (IncompatibleStages (length start) (pn_stage pn))).
Proof. exact pf_C45_to_rows_wrong_stage. Qed.
Print Assumptions C45_to_rows_wrong_stage.

(** C45: as a block, the rows before the last get the default annotation, and the last is left over. *)
Theorem C45_to_block :
  forall A (d : A) pns start s, pns <> [] -> Forall (fun pn => legal pn /\ pn_stage pn = s) pns ->
    valid_row start -> length start = s ->
    exists b rs last_row, pn_block_to_block d pns start = Ret (Ok b) /\ rung start pns rs last_row /\
      block_holds b s (map (fun r => (r, d)) (removelast (start :: rs))) last_row /\
      (start = seq 0 s -> pn_block_to_block_from_rounds d pns = Ret b).
Proof. exact pf_C45_to_block. Qed.
Print Assumptions C45_to_block.

Example C45_witness :
  exists l v b, pn_block_parse (s2l "-14,12") 4 = Ret (Ok l) /\
    pn_block_to_rows l [0; 1; 2; 3] = Ret (Ok v) /\
    ssv_rows v = Ret [[0; 1; 2; 3]; [1; 0; 3; 2]; [1; 3; 0; 2]; [3; 1; 2; 0]; [3; 1; 0; 2]] /\
    pn_block_to_block_from_rounds tt l = Ret b /\ block_leftover_row b = Ret [3; 1; 0; 2] /\
    pn_block_from_vec [PlaceNot [] 4; PlaceNot [0; 3] 4; PlaceNot [0] 3] = Err (PbIncompatibleStages 2 (IncompatibleStages 4 3)).
Proof. do 3 eexists. splits; vm_compute; reflexivity. Qed.
