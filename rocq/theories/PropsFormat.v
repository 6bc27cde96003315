(** Properties C73 to C76: displayed texts, error messages, debug texts and comparisons. *)

(* Generated from tools/props/Format.src; the proofs are in FormatThms.v. *)
From Verif Require Import Base Spec ListFacts Bell Stage BellFacts Row RowFacts Utils SameStageVec SpecVec SsvFacts
  Block SpecBlock BlockFacts PlaceNot SpecPn PnFacts PnFacts2 PnFacts3 Mask Music Class MulFacts PropsRow PropsSsv PropsBlock PropsPn Format Compare SpecFormat FormatFacts.
Local Open Scope list_scope.
From Verif Require Import FormatThms.

(** C73: the text displayed for a row determines it, on any number of bells (although texts of rows
    of more than 33 bells cannot be parsed, C06); likewise for masks, regexes, and place notations of
    one stage; and for stages. *)
Theorem C73_texts_are_unambiguous :
  (forall r r', row_display r = row_display r' -> r = r') /\
  (forall m m', mask_display m = mask_display m' -> m = m') /\
  (forall e e', regex_display e = regex_display e' -> e = e') /\
  (forall pn pn', pn_stage pn = pn_stage pn' -> pn_display pn = pn_display pn' -> pn = pn') /\
  (forall s s', stage_display s = stage_display s' -> s = s').
Proof. exact pf_C73_texts_are_unambiguous. Qed.
Print Assumptions C73_texts_are_unambiguous.

Example C73_example :
  row_display [33; 0; 34; 9] = s2l "<34>1<35>0" /\ mask_display [Some 0; None; Some 35] = s2l "1x<36>" /\
  pn_display (PlaceNot [0; 7] 8) = s2l "18" /\ pn_display (PlaceNot [] 8) = s2l "-" /\
  regex_display [RGlob; RBell 40; RAny] = s2l "*<41>x".
Proof. splits; reflexivity. Qed.

(** C74: the message of an error determines the error with all it contains; of the errors for blocks
    of place notation it determines all but the end of the range. *)
Theorem C74_messages_identify_errors :
  (forall e e', invalid_row_error_display e = invalid_row_error_display e' -> e = e') /\
  (forall e e', incompatible_stages_display e = incompatible_stages_display e' -> e = e') /\
  (forall e e', mul_into_error_display e = mul_into_error_display e' -> e = e') /\
  (forall e e', ssv_parse_error_display e = ssv_parse_error_display e' -> e = e') /\
  (forall e e', block_parse_error_display e = block_parse_error_display e' -> e = e') /\
  (forall e e', invalid_pn_block_display e = invalid_pn_block_display e' -> e = e') /\
  (forall e e' t, pn_error_display e = Ret t -> pn_error_display e' = Ret t -> e = e') /\
  (forall e e' t, pn_block_error_display e = Ret t -> pn_block_error_display e' = Ret t ->
     e = e' \/ exists a b b' pe, e = PnError a b pe /\ e' = PnError a b' pe).
Proof. exact pf_C74_messages_identify_errors. Qed.
Print Assumptions C74_messages_identify_errors.

(** C74: displaying the errors returned by the parsers of place notation never panics.  (Displaying
    one made by hand does exactly when the ambiguous places are not in order.) *)
Theorem C74_messages_of_returned_errors_do_not_panic :
  (forall t s e, 0 < s -> pn_parse t s = Ret (Err e) -> exists m, pn_error_display e = Ret m) /\
  (forall t s e, 0 < s -> pn_block_parse t s = Ret (Err e) -> exists m, pn_block_error_display e = Ret m) /\
  (forall e, pn_error_display e = Panic <-> exists p q, e = AmbiguousPlacesBetween p q /\ q <= p).
Proof. exact pf_C74_messages_of_returned_errors_do_not_panic. Qed.
Print Assumptions C74_messages_of_returned_errors_do_not_panic.

(** C74: what the messages of refused products and rows say: of products, the stage of the left
    argument first; of a list of bells, the first bell which is wrong, and why. *)
Theorem C74_messages_of_rows :
  (forall a b out, valid_row a -> valid_row b -> length a <> length b ->
     exists e e', mul_result a b = Ret (Err e) /\ mul_into a b out = Ret (out, Err e) /\
       incompatible_stages_display e =
         s2l "Incompatible stages: " ++ stage_display (length a) ++ s2l " (lhs), " ++ stage_display (length b) ++ s2l " (rhs)" /\
       mul_into_row a b out = Ret (out, Err e') /\
       mul_into_error_display e' =
         s2l "Can't multiply stage " ++ stage_display (length a) ++ s2l " with " ++ stage_display (length b)) /\
  (forall a b out, valid_row a -> valid_row b -> valid_row out -> length a = length b -> length out <> length a ->
     exists e, mul_into_row a b out = Ret (out, Err e) /\
       mul_into_error_display e =
         s2l "Can't write stage " ++ stage_display (length a) ++ s2l " into " ++ stage_display (length out)) /\
  (forall l e, from_vec l = Err e ->
     (l = [] /\ invalid_row_error_display e = s2l "Row would have no bells") \/
     exists pre b post, l = pre ++ b :: post /\ NoDup pre /\ Forall (fun x => x < length l) pre /\
       ((length l <= b /\ invalid_row_error_display e =
           s2l "Bell '" ++ bell_name b ++ s2l "' is not within stage " ++ stage_display (length l)) \/
        (In b pre /\ invalid_row_error_display e = s2l "Bell '" ++ bell_name b ++ s2l "' appears twice."))) /\
  (forall ended unfinished pre bad post rs s, Forall no_line_feed ended -> no_line_feed unfinished ->
     text_lines ended unfinished = pre ++ bad :: post ->
     Forall2 (fun l r => row_parse l = Ok r) pre rs -> Forall (fun r => length r = s) rs ->
     (forall e, row_parse bad = Err e -> exists e', ssv_parse (text_of ended unfinished) = Ret (Err e') /\
        ssv_parse_error_display e' =
          s2l "Error parsing row on line " ++ dec (length pre + 1) ++ s2l ": " ++ invalid_row_error_display e /\
        forall A (d : A), exists e2, block_parse d (text_of ended unfinished) = Ret (Err e2) /\
          block_parse_error_display e2 = ssv_parse_error_display e') /\
     (forall r, pre <> [] -> row_parse bad = Ok r -> length r <> s ->
        exists e', ssv_parse (text_of ended unfinished) = Ret (Err e') /\
        ssv_parse_error_display e' =
          s2l "Row on line " ++ dec (length pre + 1) ++ s2l " has different stage (" ++ stage_display (length r) ++
          s2l ") to the first stage (" ++ stage_display s ++ s2l ")")).
Proof. exact pf_C74_messages_of_rows. Qed.
Print Assumptions C74_messages_of_rows.

(** C74: what the messages of refused place notation say. *)
Theorem C74_messages_of_place_notation :
  (forall t s e w m, 0 < s -> pn_parse t s = Ret (Err e) -> written t w -> pn_error_display e = Ret m ->
     (Nat.Odd s /\ cross_text t /\ m = s2l "Cross notation for odd stage " ++ stage_display s) \/
     (~ cross_text t /\ w = [] /\ m = s2l "No places given.  Use 'x' or '-' for a cross.") \/
     (exists p, In p w /\ s <= p /\ (forall q, In q w -> q <= p) /\
        m = s2l "Place '" ++ bell_name p ++ s2l "' is out stage " ++ stage_display s) \/
     (exists p l1 l2 l3, w = l1 ++ p :: l2 ++ p :: l3 /\ m = s2l "Place '" ++ bell_name p ++ s2l "' is duplicated") \/
     (exists p q, consecutive w p q /\ 3 <= q - p - 1 /\ Nat.Odd (q - p - 1) /\
        m = s2l "Ambiguous gap of " ++ dec (q - p - 1) ++ s2l " bells between places '" ++ bell_name p ++
            s2l "' and '" ++ bell_name q ++ s2l "'.")) /\
  (forall t s e m, 0 < s -> ~ In comma t -> pn_block_parse t s = Ret (Err e) -> pn_block_error_display e = Ret m ->
     (exists x c y, misplaced_plus t x c y /\
        m = s2l "'+' at index " ++ dec (byte_len x) ++ s2l " is not at the start of a block.") \/
     (exists x w y pe m', (bad_word s t x w y pe \/ exists c, w = [c] /\ bad_cross s t x c y pe) /\
        pn_error_display pe = Ret m' /\ m = s2l "Error parsing PN at index " ++ dec (byte_len x) ++ s2l ": " ++ m') \/
     (block_changes s t [] /\ m = s2l "`PnBlock`s can't be empty.")) /\
  (forall pns i first pn, nth_error pns 0 = Some first -> nth_error pns i = Some pn -> pn_stage pn <> pn_stage first ->
     (forall j q, j < i -> nth_error pns j = Some q -> pn_stage q = pn_stage first) ->
     exists e, pn_block_from_vec pns = Err e /\
       invalid_pn_block_display e = s2l "Incompatible stages: First PN has stage " ++ stage_display (pn_stage first) ++
         s2l ", whereas the " ++ dec i ++ s2l "th has " ++ stage_display (pn_stage pn)) /\
  (exists e, pn_block_from_vec [] = Err e /\ invalid_pn_block_display e = s2l "`PnBlock`s can't be empty.").
Proof. exact pf_C74_messages_of_place_notation. Qed.
Print Assumptions C74_messages_of_place_notation.

Example C74_example :
  exists e, pn_parse (s2l "15") 6 = Ret (Err e) /\
    pn_error_display e = Ret (s2l "Ambiguous gap of 3 bells between places '1' and '5'.") /\
    ssv_parse_error_display (SpeIncompatibleStages 4 6 23) =
      s2l "Row on line 4 has different stage (23 bells) to the first stage (Minor)" /\
    invalid_row_error_display (BellOutOfStage 33 8) = s2l "Bell '<34>' is not within stage Major" /\
    pn_error_display (AmbiguousPlacesBetween 3 3) = Panic.
Proof. eexists. splits; reflexivity. Qed.

(** C75: the debug text of a buffer names the type and lists the texts of the rows in order; that of
    a block gives each row with its annotation, and then the left-over row. *)
Theorem C75_debug_lists_the_rows :
  (forall v s rs, holds v s rs ->
     ssv_debug v = Ret (s2l "SameStageVec" ++
       match rs with [] => [] | _ => s2l "(" ++ listed (map row_display rs) ++ s2l ")" end)) /\
  (forall A (debug_annot : A -> list N) b s ars lo, block_holds b s ars lo ->
     block_debug debug_annot b = Ret (s2l "AnnotBlock(" ++
       listed (map (fun ra => row_display (fst ra) ++ s2l ": " ++ debug_annot (snd ra)) ars ++ [row_display lo]) ++ s2l ")")) /\
  (forall r, row_debug r = s2l "Row(" ++ row_display r ++ s2l ")" /\ row_buf_debug r = s2l "RowBuf(" ++ row_display r ++ s2l ")") /\
  (forall s, stage_debug s = Panic <-> s = 0) /\
  (forall s s' t, stage_debug s = Ret t -> stage_debug s' = Ret t -> s = s').
Proof. exact pf_C75_debug_lists_the_rows. Qed.
Print Assumptions C75_debug_lists_the_rows.

(** C75: so the debug text of a non-empty buffer determines its stage and rows, and that of a block
    determines its rows and annotations, if the texts of the annotations have no commas and
    determine them.  (An empty buffer does not show its stage.) *)
Theorem C75_debug_texts_are_unambiguous :
  (forall v v' s s' rs rs' t, holds v s rs -> holds v' s' rs' -> rs <> [] ->
     ssv_debug v = Ret t -> ssv_debug v' = Ret t -> s = s' /\ rs = rs') /\
  (forall A (debug_annot : A -> list N) b b' s s' ars ars' lo lo' t,
     (forall a, ~ In 44%N (debug_annot a)) -> (forall a a', debug_annot a = debug_annot a' -> a = a') ->
     block_holds b s ars lo -> block_holds b' s' ars' lo' ->
     block_debug debug_annot b = Ret t -> block_debug debug_annot b' = Ret t -> s = s' /\ ars = ars' /\ lo = lo').
Proof. exact pf_C75_debug_texts_are_unambiguous. Qed.
Print Assumptions C75_debug_texts_are_unambiguous.

Example C75_example :
  exists v b, ssv_build 3 [[0; 1; 2]; [1; 0; 2]] = Ret v /\ ssv_debug v = Ret (s2l "SameStageVec(123, 213)") /\
    ssv_debug (ssv_new 5) = Ret (s2l "SameStageVec") /\
    block_build (BlockArg 3 [[0; 1; 2]; [1; 0; 2]; [1; 2; 0]] (fun i => i)) = Ret (Some b) /\
    block_debug dec b = Ret (s2l "AnnotBlock(123: 0, 213: 1, 231)") /\ stage_debug 8 = Ret (s2l "Stage::MAJOR").
Proof. do 2 eexists. splits; vm_compute; reflexivity. Qed.

(** C76: rows are ordered as words in a dictionary: the comparison is a total order, agrees with
    equality, and rounds is the least and backrounds the greatest row of a stage. *)
Theorem C76_order_of_rows :
  (forall a b, row_cmp a b = Lt <-> lex_lt a b) /\
  (forall a b, row_cmp a b = Gt <-> lex_lt b a) /\
  (forall a b, row_cmp a b = Eq <-> a = b) /\
  (forall a b, row_cmp a b = Eq <-> row_eqb a b = true) /\
  (forall a b c, row_cmp a b = Lt -> row_cmp b c = Lt -> row_cmp a c = Lt) /\
  (forall r, valid_row r -> row_cmp (row_rounds (length r)) r <> Gt /\ row_cmp r (row_backrounds (length r)) <> Gt).
Proof. exact pf_C76_order_of_rows. Qed.
Print Assumptions C76_order_of_rows.

(** C76: buffers are equal exactly when they have the same stage and hold the same rows, and blocks
    when they have the same stage, rows, annotations and left-over row.  Equal rows (owned or
    borrowed) and equal buffers write the same to the hasher, and different ones do not. *)
Theorem C76_equality_and_hashing :
  (forall v v' s s' rs rs', holds v s rs -> holds v' s' rs' -> (ssv_eqb v v' = true <-> s = s' /\ rs = rs')) /\
  (forall A (eqb : A -> A -> bool) b b' s s' ars ars' lo lo', (forall x y, eqb x y = true <-> x = y) ->
     block_holds b s ars lo -> block_holds b' s' ars' lo' ->
     (block_eqb eqb b b' = true <-> s = s' /\ ars = ars' /\ lo = lo')) /\
  (forall r r', row_hash_feed r = row_hash_feed r' <-> row_eqb r r' = true) /\
  (forall v v', ssv_hash_feed v = ssv_hash_feed v' <-> ssv_eqb v v' = true).
Proof. exact pf_C76_equality_and_hashing. Qed.
Print Assumptions C76_equality_and_hashing.

Example C76_example :
  row_cmp [0; 2; 1] [1; 0; 2] = Lt /\ row_cmp [0; 1] [0; 1; 2] = Lt /\
  exists v w, ssv_build 2 [[0; 1]; [1; 0]] = Ret v /\ ssv_build 4 [[0; 1; 3; 2]] = Ret w /\ ssv_eqb v w = false /\ ssv_eqb v v = true.
Proof. splits; try reflexivity. do 2 eexists. splits; vm_compute; reflexivity. Qed.
