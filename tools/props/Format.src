(** Properties C73 to C76: displayed texts, error messages, debug texts and comparisons. *)
(*IMPORTS*)
From Verif Require Import Base Spec ListFacts Bell Stage BellFacts Row RowFacts Utils SameStageVec SpecVec SsvFacts
  Block SpecBlock BlockFacts PlaceNot SpecPn PnFacts PnFacts2 PnFacts3 Mask Music Class MulFacts PropsRow PropsSsv PropsBlock PropsPn Format Compare SpecFormat FormatFacts.
Local Open Scope list_scope.
(*BODY*)
(** C73: the text displayed for a row determines it, on any number of bells (although texts of rows
    of more than 33 bells cannot be parsed, C06); likewise for masks, regexes, and place notations of
    one stage; and for stages. *)
Theorem C73_texts_are_unambiguous :
  (forall r r', row_display r = row_display r' -> r = r') /\
  (forall m m', mask_display m = mask_display m' -> m = m') /\
  (forall e e', regex_display e = regex_display e' -> e = e') /\
  (forall pn pn', pn_stage pn = pn_stage pn' -> pn_display pn = pn_display pn' -> pn = pn') /\
  (forall s s', stage_display s = stage_display s' -> s = s').
Proof.
  splits; [apply row_display_inj|apply mask_display_inj|apply regex_display_inj|apply pn_display_inj|apply stage_display_inj].
Qed.

Example C73_example :
  row_display [33; 0; 34; 9] = s2l "<34>1<35>0" /\ mask_display [Some 0; None; Some 35] = s2l "1x<36>" /\
  pn_display (PlaceNot [0; 7] 8) = s2l "18" /\ pn_display (PlaceNot [] 8) = s2l "-" /\
  regex_display [RGlob; RBell 40; RAny] = s2l "*<41>x".
Proof. splits; reflexivity. Qed.

(** C74: the message of an error determines the error with all it contains; of the errors for blocks
    of place notation it determines all but the end of the range. *)
Theorem C74_messages_identify_errors :
  (forall e e', invalid_row_error_display e = invalid_row_error_display e' -> e = e') /\
  (forall e e', incompatible_stages_display e = incompatible_stages_display e' -> e = e') /\
  (forall e e', mul_into_error_display e = mul_into_error_display e' -> e = e') /\
  (forall e e', ssv_parse_error_display e = ssv_parse_error_display e' -> e = e') /\
  (forall e e', block_parse_error_display e = block_parse_error_display e' -> e = e') /\
  (forall e e', invalid_pn_block_display e = invalid_pn_block_display e' -> e = e') /\
  (forall e e' t, pn_error_display e = Ret t -> pn_error_display e' = Ret t -> e = e') /\
  (forall e e' t, pn_block_error_display e = Ret t -> pn_block_error_display e' = Ret t ->
     e = e' \/ exists a b b' pe, e = PnError a b pe /\ e' = PnError a b' pe).
Proof.
  splits; [apply invalid_row_error_display_inj|apply incompatible_stages_display_inj|apply mul_into_error_display_inj|
           apply ssv_parse_error_display_inj|apply block_parse_error_display_inj|apply invalid_pn_block_display_inj|
           apply pn_error_display_inj|].
  assert (A : forall a b pe t, pn_block_error_display (PnError a b pe) = Ret t ->
    exists u, pn_error_display pe = Ret u /\ t = s2l "Error parsing PN at index " ++ dec a ++ s2l ": " ++ u).
  { intros a b pe t. cbn [pn_block_error_display]. destruct (pn_error_display pe) as [u| | |]; cbn [bind]; intros H; try discriminate.
    exists u. split; auto. injection H as <-. reflexivity. }
  assert (R : forall x y : str, Ret x = Ret y -> y = x) by (intros x y E; injection E; auto).
  intros [i|a b pe|] [i'|a' b' pe'|] t H H';
    first [apply A in H as (u & Hu & H) | cbn [pn_block_error_display] in H; apply R in H];
    first [apply A in H' as (u' & Hu' & H') | cbn [pn_block_error_display] in H'; apply R in H'];
    rewrite H in H'; clear H; try discriminate H'.
  - repeat strip H'. auto.
  - apply app_inv_head in H'. apply dec_prefix in H' as [-> H']; [|reflexivity|reflexivity].
    apply app_inv_head in H' as ->. assert (pe = pe') as -> by (eapply pn_error_display_inj; eauto).
    right. do 4 eexists. split; reflexivity.
  - auto.
Qed.

(** C74: displaying the errors returned by the parsers of place notation never panics.  (Displaying
    one made by hand does exactly when the ambiguous places are not in order.) *)
Theorem C74_messages_of_returned_errors_do_not_panic :
  (forall t s e, 0 < s -> pn_parse t s = Ret (Err e) -> exists m, pn_error_display e = Ret m) /\
  (forall t s e, 0 < s -> pn_block_parse t s = Ret (Err e) -> exists m, pn_block_error_display e = Ret m) /\
  (forall e, pn_error_display e = Panic <-> exists p q, e = AmbiguousPlacesBetween p q /\ q <= p).
Proof.
  assert (P : forall t s e, 0 < s -> pn_parse t s = Ret (Err e) -> exists m, pn_error_display e = Ret m).
  { intros t s e Hs E. destruct (proj2 (pn_error_display_panics e)) as [H|H]; auto. exfalso.
    apply pn_error_display_panics in H as (p & q & -> & Hpq).
    destruct (C37_errors_are_true t s Hs) as (r & E' & T). rewrite E in E'. injection E' as <-.
    assert (W : exists w, written t w).
    { clear. induction t as [|c t (w & IH)]; [eexists; constructor|].
      destruct (bell_from_name c) eqn:E; eexists; [eapply written_name|eapply written_other]; eauto. }
    destruct W as (w & W). destruct (T _ w eq_refl W) as ((_ & _ & Hlt & _) & _). lia. }
  splits; auto.
  - intros t s e Hs E. destruct e as [i|a b pe|]; [eexists; reflexivity| |eexists; reflexivity].
    pose proof (C44_error_positions_partial t s _ Hs E ltac:(discriminate)) as (bf & p & af & _ & K).
    assert (X : exists m, pn_error_display pe = Ret m).
    { destruct K as [(x & w & y & (_ & _ & _ & K) & _)|(x & c & y & (_ & _ & _ & ->) & _)].
      - eapply P; eauto.
      - eexists. reflexivity. }
    destruct X as (m & X). cbn [pn_block_error_display]. rewrite X. eexists. reflexivity.
  - intros e. apply pn_error_display_panics.
Qed.

(** C74: what the messages of refused products and rows say: of products, the stage of the left
    argument first; of a list of bells, the first bell which is wrong, and why. *)
Theorem C74_messages_of_rows :
  (forall a b out, valid_row a -> valid_row b -> length a <> length b ->
     exists e e', mul_result a b = Ret (Err e) /\ mul_into a b out = Ret (out, Err e) /\
       incompatible_stages_display e =
         s2l "Incompatible stages: " ++ stage_display (length a) ++ s2l " (lhs), " ++ stage_display (length b) ++ s2l " (rhs)" /\
       mul_into_row a b out = Ret (out, Err e') /\
       mul_into_error_display e' =
         s2l "Can't multiply stage " ++ stage_display (length a) ++ s2l " with " ++ stage_display (length b)) /\
  (forall a b out, valid_row a -> valid_row b -> valid_row out -> length a = length b -> length out <> length a ->
     exists e, mul_into_row a b out = Ret (out, Err e) /\
       mul_into_error_display e =
         s2l "Can't write stage " ++ stage_display (length a) ++ s2l " into " ++ stage_display (length out)) /\
  (forall l e, from_vec l = Err e ->
     (l = [] /\ invalid_row_error_display e = s2l "Row would have no bells") \/
     exists pre b post, l = pre ++ b :: post /\ NoDup pre /\ Forall (fun x => x < length l) pre /\
       ((length l <= b /\ invalid_row_error_display e =
           s2l "Bell '" ++ bell_name b ++ s2l "' is not within stage " ++ stage_display (length l)) \/
        (In b pre /\ invalid_row_error_display e = s2l "Bell '" ++ bell_name b ++ s2l "' appears twice."))) /\
  (forall ended unfinished pre bad post rs s, Forall no_line_feed ended -> no_line_feed unfinished ->
     text_lines ended unfinished = pre ++ bad :: post ->
     Forall2 (fun l r => row_parse l = Ok r) pre rs -> Forall (fun r => length r = s) rs ->
     (forall e, row_parse bad = Err e -> exists e', ssv_parse (text_of ended unfinished) = Ret (Err e') /\
        ssv_parse_error_display e' =
          s2l "Error parsing row on line " ++ dec (length pre + 1) ++ s2l ": " ++ invalid_row_error_display e /\
        forall A (d : A), exists e2, block_parse d (text_of ended unfinished) = Ret (Err e2) /\
          block_parse_error_display e2 = ssv_parse_error_display e') /\
     (forall r, pre <> [] -> row_parse bad = Ok r -> length r <> s ->
        exists e', ssv_parse (text_of ended unfinished) = Ret (Err e') /\
        ssv_parse_error_display e' =
          s2l "Row on line " ++ dec (length pre + 1) ++ s2l " has different stage (" ++ stage_display (length r) ++
          s2l ") to the first stage (" ++ stage_display s ++ s2l ")")).
Proof.
  splits.
  - intros a b out Va Vb N. exists (IncompatibleStages (length a) (length b)), (RhsStage (IncompatibleStages (length a) (length b))).
    unfold mul_into, mul_into_row. rewrite mul_result_err by auto. rewrite (valid_row_stage a), (valid_row_stage b) by auto.
    cbn [bind]. unfold test_err. rewrite (proj2 (Nat.eqb_neq _ _)) by auto. splits; reflexivity.
  - intros a b out Va Vb Vo E N. exists (IntoStage (IncompatibleStages (length a) (length out))).
    unfold mul_into_row. rewrite (valid_row_stage a), (valid_row_stage b), (valid_row_stage out) by auto.
    cbn [bind]. unfold test_err. rewrite E, Nat.eqb_refl. cbn [bind]. rewrite (proj2 (Nat.eqb_neq _ _)) by congruence. split; reflexivity.
  - intros l e E. destruct C05_row_errors_are_truthful as (T1 & T2 & _). destruct l as [|x l].
    + left. split; auto. rewrite (proj2 (T1 []) eq_refl) in E. injection E as <-. reflexivity.
    + right. destruct (T2 (x :: l) e) as (pre & b & post & H1 & H2 & H3 & H4); [discriminate|auto|].
      exists pre, b, post. split; [exact H1|]. split; [exact H2|]. split; [exact H3|].
      destruct H4 as [[-> H4]|[-> H4]]; [left|right]; (split; [exact H4|reflexivity]).
  - intros ended unfinished pre bad post rs s Fe Fu EL F2 Fl.
    destruct (C29_parse_first_bad_line ended unfinished pre bad post rs s Fe Fu EL F2 Fl) as [H1 H2]. split.
    + intros e E. eexists. split; [exact (H1 e E)|]. split; [reflexivity|]. intros A d. eexists. split.
      * apply C29_block_parse_errors. exact (H1 e E).
      * reflexivity.
    + intros r N E L. eexists. split; [exact (H2 r N E L)|reflexivity].
Qed.

(** C74: what the messages of refused place notation say. *)
Theorem C74_messages_of_place_notation :
  (forall t s e w m, 0 < s -> pn_parse t s = Ret (Err e) -> written t w -> pn_error_display e = Ret m ->
     (Nat.Odd s /\ cross_text t /\ m = s2l "Cross notation for odd stage " ++ stage_display s) \/
     (~ cross_text t /\ w = [] /\ m = s2l "No places given.  Use 'x' or '-' for a cross.") \/
     (exists p, In p w /\ s <= p /\ (forall q, In q w -> q <= p) /\
        m = s2l "Place '" ++ bell_name p ++ s2l "' is out stage " ++ stage_display s) \/
     (exists p l1 l2 l3, w = l1 ++ p :: l2 ++ p :: l3 /\ m = s2l "Place '" ++ bell_name p ++ s2l "' is duplicated") \/
     (exists p q, consecutive w p q /\ 3 <= q - p - 1 /\ Nat.Odd (q - p - 1) /\
        m = s2l "Ambiguous gap of " ++ dec (q - p - 1) ++ s2l " bells between places '" ++ bell_name p ++
            s2l "' and '" ++ bell_name q ++ s2l "'.")) /\
  (forall t s e m, 0 < s -> ~ In comma t -> pn_block_parse t s = Ret (Err e) -> pn_block_error_display e = Ret m ->
     (exists x c y, misplaced_plus t x c y /\
        m = s2l "'+' at index " ++ dec (byte_len x) ++ s2l " is not at the start of a block.") \/
     (exists x w y pe m', (bad_word s t x w y pe \/ exists c, w = [c] /\ bad_cross s t x c y pe) /\
        pn_error_display pe = Ret m' /\ m = s2l "Error parsing PN at index " ++ dec (byte_len x) ++ s2l ": " ++ m') \/
     (block_changes s t [] /\ m = s2l "`PnBlock`s can't be empty.")) /\
  (forall pns i first pn, nth_error pns 0 = Some first -> nth_error pns i = Some pn -> pn_stage pn <> pn_stage first ->
     (forall j q, j < i -> nth_error pns j = Some q -> pn_stage q = pn_stage first) ->
     exists e, pn_block_from_vec pns = Err e /\
       invalid_pn_block_display e = s2l "Incompatible stages: First PN has stage " ++ stage_display (pn_stage first) ++
         s2l ", whereas the " ++ dec i ++ s2l "th has " ++ stage_display (pn_stage pn)) /\
  (exists e, pn_block_from_vec [] = Err e /\ invalid_pn_block_display e = s2l "`PnBlock`s can't be empty.").
Proof.
  assert (RI : forall x y : str, Ret x = Ret y -> y = x) by (intros x y E; injection E; auto).
  splits.
  - intros t s e w m Hs E W M. destruct (C37_errors_are_true t s Hs) as (r & E' & T). rewrite E in E'. injection E' as <-.
    specialize (T e w eq_refl W). destruct e as [p s'|p q|p|s'|].
    + destruct T as (-> & I & L & G). right; right; left. exists p. apply RI in M. splits; auto.
    + destruct T as (C & G3 & O). right; right; right; right. exists p, q.
      cbn [pn_error_display] in M. unfold usub in M. rewrite (proj2 (Nat.leb_le p q)) in M by lia. cbn [bind] in M.
      rewrite (proj2 (Nat.leb_le 1 (q - p))) in M by lia. cbn [bind] in M. apply RI in M. splits; auto.
    + destruct T as (l1 & l2 & l3 & ->). right; right; right; left. exists p, l1, l2, l3. apply RI in M. split; auto.
    + destruct T as (-> & O & C). left. apply RI in M. splits; auto.
    + destruct T as (C & ->). right; left. apply RI in M. splits; auto.
  - intros t s e m Hs NC E M. pose proof (C44_error_positions_single_part_partial t s e Hs NC E) as T. destruct e as [i|a b pe|].
    + left. destruct T as (x & c & y & T & ->). exists x, c, y. apply RI in M. split; auto.
    + right; left. cbn [pn_block_error_display] in M. destruct (pn_error_display pe) as [m'| | |] eqn:Em; try discriminate M.
      cbn [bind] in M. apply RI in M. destruct T as [(x & w & y & T & -> & _)|(x & c & y & T & -> & _)].
      * exists x, w, y, pe, m'. split; [left; exact T|]. split; [exact Em|exact M].
      * exists x, [c], y, pe, m'. split; [right; exists c; split; [reflexivity|exact T]|]. split; [exact Em|exact M].
    + right; right. split; [exact T|]. apply RI in M. exact M.
  - intros pns i first pn E0 Ei N Hj. exists (PbIncompatibleStages i (IncompatibleStages (pn_stage first) (pn_stage pn))).
    split; [|reflexivity]. apply C45_from_vec. exists first, pn. splits; auto.
  - exists PbEmptyBlock. split; [|reflexivity]. apply C45_from_vec. reflexivity.
Qed.

Example C74_example :
  exists e, pn_parse (s2l "15") 6 = Ret (Err e) /\
    pn_error_display e = Ret (s2l "Ambiguous gap of 3 bells between places '1' and '5'.") /\
    ssv_parse_error_display (SpeIncompatibleStages 4 6 23) =
      s2l "Row on line 4 has different stage (23 bells) to the first stage (Minor)" /\
    invalid_row_error_display (BellOutOfStage 33 8) = s2l "Bell '<34>' is not within stage Major" /\
    pn_error_display (AmbiguousPlacesBetween 3 3) = Panic.
Proof. eexists. splits; reflexivity. Qed.

(** C75: the debug text of a buffer names the type and lists the texts of the rows in order; that of
    a block gives each row with its annotation, and then the left-over row. *)
Theorem C75_debug_lists_the_rows :
  (forall v s rs, holds v s rs ->
     ssv_debug v = Ret (s2l "SameStageVec" ++
       match rs with [] => [] | _ => s2l "(" ++ listed (map row_display rs) ++ s2l ")" end)) /\
  (forall A (debug_annot : A -> list N) b s ars lo, block_holds b s ars lo ->
     block_debug debug_annot b = Ret (s2l "AnnotBlock(" ++
       listed (map (fun ra => row_display (fst ra) ++ s2l ": " ++ debug_annot (snd ra)) ars ++ [row_display lo]) ++ s2l ")")) /\
  (forall r, row_debug r = s2l "Row(" ++ row_display r ++ s2l ")" /\ row_buf_debug r = s2l "RowBuf(" ++ row_display r ++ s2l ")") /\
  (forall s, stage_debug s = Panic <-> s = 0) /\
  (forall s s' t, stage_debug s = Ret t -> stage_debug s' = Ret t -> s = s').
Proof.
  assert (F : forall fs f, debug_fields false fs = match fs with [] => s2l ")" | _ => s2l ", " ++ listed fs ++ s2l ")" end /\
                debug_fields true (f :: fs) = s2l "(" ++ listed (f :: fs) ++ s2l ")").
  { induction fs as [|g fs IH]; intros f.
    - split; auto.
    - assert (E : debug_fields false (g :: fs) = s2l ", " ++ listed (g :: fs) ++ s2l ")").
      { destruct (IH g) as [_ H]. cbn [debug_fields] in *. apply app_inv_head in H. rewrite H. reflexivity. }
      split; auto. change (debug_fields true (f :: g :: fs)) with (s2l "(" ++ f ++ debug_fields false (g :: fs)).
      rewrite E. cbn [listed]. rewrite <- !app_assoc. reflexivity. }
  splits.
  - intros v s rs (_ & _ & _ & E). unfold ssv_debug. rewrite E. cbn [bind]. unfold debug_tuple. do 2 f_equal.
    destruct rs as [|r rs]; auto. cbn [map]. apply F.
  - intros A dbg b s ars lo (_ & _ & _ & _ & _ & E1 & E2). unfold block_debug. rewrite E1, E2. cbn [bind]. f_equal. unfold debug_tuple.
    rewrite (map_ext (fun '(r, a) => row_display r ++ s2l ": " ++ dbg a) (fun ra => row_display (fst ra) ++ s2l ": " ++ dbg (snd ra)))
      by (intros [r a]; reflexivity).
    change (s2l "AnnotBlock(") with (s2l "AnnotBlock" ++ s2l "("). rewrite <- app_assoc. f_equal.
    destruct ars as [|ra ars]; cbn [map app]; apply F.
  - intros r. split; reflexivity.
  - intros s. do 17 (destruct s as [|s]; [cbn; split; [try discriminate; auto|try discriminate; auto]|]). cbn. split; discriminate.
  - assert (B : forall s t, stage_debug s = Ret t -> (s <= 16 /\ In (s, t) (map (fun k => (k, match stage_debug k with Ret t => t | _ => [] end)) (seq 1 16)))
         \/ (17 <= s /\ t = s2l "Stage(" ++ dec s ++ s2l ")")).
    { intros s t H. destruct (Nat.le_gt_cases s 16) as [L|L].
      - left. split; auto. apply in_map_iff. exists s. rewrite H. split; auto. apply in_seq.
        destruct s; [discriminate H|lia].
      - right. split; [lia|]. do 17 (destruct s as [|s]; [lia|]). injection H as <-. reflexivity. }
    intros s s' t H H'. apply B in H as [[L H]|[L H]]; apply B in H' as [[L' H']|[L' H']].
    + cbn in H, H'. repeat (destruct H as [H|H]; [injection H as <- <-;
        repeat (destruct H' as [H'|H']; [try discriminate H'; injection H' as <-; reflexivity|]); destruct H'|]). destruct H.
    + exfalso. subst t. cbn in H. repeat (destruct H as [H|H]; [discriminate H|]). destruct H.
    + exfalso. subst t. cbn in H'. repeat (destruct H' as [H'|H']; [discriminate H'|]). destruct H'.
    + subst t. apply app_inv_head in H'. apply dec_prefix in H' as [-> _]; auto; reflexivity.
Qed.

(** C75: so the debug text of a non-empty buffer determines its stage and rows, and that of a block
    determines its rows and annotations, if the texts of the annotations have no commas and
    determine them.  (An empty buffer does not show its stage.) *)
Theorem C75_debug_texts_are_unambiguous :
  (forall v v' s s' rs rs' t, holds v s rs -> holds v' s' rs' -> rs <> [] ->
     ssv_debug v = Ret t -> ssv_debug v' = Ret t -> s = s' /\ rs = rs') /\
  (forall A (debug_annot : A -> list N) b b' s s' ars ars' lo lo' t,
     (forall a, ~ In 44%N (debug_annot a)) -> (forall a a', debug_annot a = debug_annot a' -> a = a') ->
     block_holds b s ars lo -> block_holds b' s' ars' lo' ->
     block_debug debug_annot b = Ret t -> block_debug debug_annot b' = Ret t -> s = s' /\ ars = ars' /\ lo = lo').
Proof.
  assert (C : forall rs, Forall (fun f => ~ In 44%N f) (map row_display rs)).
  { intros rs. apply Forall_forall. intros f Hf. apply in_map_iff in Hf as (r & <- & _). intros H.
    apply row_display_chars in H as [H _]. auto. }
  split.
  - intros v v' s s' rs rs' t (Hs & _ & Fr & E) (Hs' & _ & Fr' & E') N. unfold ssv_debug. rewrite E, E'. cbn [bind].
    intros H H'. assert (X : debug_tuple (s2l "SameStageVec") (map row_display rs) = debug_tuple (s2l "SameStageVec") (map row_display rs')) by congruence.
    apply debug_tuple_inj in X; auto.
    assert (rs = rs') as <-.
    { clear - X. revert rs' X. induction rs as [|r rs IH]; intros [|r' rs'] X; try discriminate X; auto.
      cbn [map] in X. assert (E1 : row_display r = row_display r') by congruence. apply row_display_inj in E1 as ->.
      f_equal. apply IH. congruence. }
    split; auto. destruct rs as [|r rs]; [congruence|]. inversion Fr; inversion Fr'; subst. destruct H2, H6. congruence.
  - intros A dbg b b' s s' ars ars' lo lo' t Nc Inj (Hs & _ & Fr & Vl & Ll & E1 & E2) (Hs' & _ & Fr' & Vl' & Ll' & E1' & E2').
    unfold block_debug. rewrite E1, E2, E1', E2'. cbn [bind].
    set (g := fun '(r, a) => row_display r ++ s2l ": " ++ dbg a).
    intros H H'. assert (X : debug_tuple (s2l "AnnotBlock") (map g ars ++ [row_display lo]) = debug_tuple (s2l "AnnotBlock") (map g ars' ++ [row_display lo'])) by congruence.
    assert (Cg : forall l lo, Forall (fun f => ~ In 44%N f) (map g l ++ [row_display lo])).
    { intros l lo0. apply Forall_app. split; [|apply (C [lo0])]. apply Forall_forall. intros f Hf. apply in_map_iff in Hf as ((r, a) & <- & _).
      unfold g. rewrite !in_app_iff. intros [Hi|[Hi|Hi]].
      - apply row_display_chars in Hi as [Hi _]. auto.
      - destruct Hi as [Hi|[Hi|[]]]; discriminate.
      - eapply Nc; eauto. }
    apply debug_tuple_inj in X; auto. apply app_inj_tail in X as [X Xl]. apply row_display_inj in Xl as <-.
    assert (s = s') as <- by congruence. splits; auto.
    clear - X Inj. revert ars' X. induction ars as [|(r, a) l IH]; intros [|(r', a') l'] X; try discriminate X; auto.
    cbn [map] in X. assert (E1 : g (r, a) = g (r', a')) by congruence. unfold g in E1.
    change (s2l ": ") with [58%N; 32%N] in E1. cbn [app] in E1. apply comma_split in E1 as [E1 E2];
      try (intros Hi; apply row_display_chars in Hi as [_ Hi]; auto).
    apply row_display_inj in E1 as ->. injection E2 as E2. apply Inj in E2 as ->. f_equal. apply IH. congruence.
Qed.

Example C75_example :
  exists v b, ssv_build 3 [[0; 1; 2]; [1; 0; 2]] = Ret v /\ ssv_debug v = Ret (s2l "SameStageVec(123, 213)") /\
    ssv_debug (ssv_new 5) = Ret (s2l "SameStageVec") /\
    block_build (BlockArg 3 [[0; 1; 2]; [1; 0; 2]; [1; 2; 0]] (fun i => i)) = Ret (Some b) /\
    block_debug dec b = Ret (s2l "AnnotBlock(123: 0, 213: 1, 231)") /\ stage_debug 8 = Ret (s2l "Stage::MAJOR").
Proof. do 2 eexists. splits; vm_compute; reflexivity. Qed.

(** C76: rows are ordered as words in a dictionary: the comparison is a total order, agrees with
    equality, and rounds is the least and backrounds the greatest row of a stage. *)
Theorem C76_order_of_rows :
  (forall a b, row_cmp a b = Lt <-> lex_lt a b) /\
  (forall a b, row_cmp a b = Gt <-> lex_lt b a) /\
  (forall a b, row_cmp a b = Eq <-> a = b) /\
  (forall a b, row_cmp a b = Eq <-> row_eqb a b = true) /\
  (forall a b c, row_cmp a b = Lt -> row_cmp b c = Lt -> row_cmp a c = Lt) /\
  (forall r, valid_row r -> row_cmp (row_rounds (length r)) r <> Gt /\ row_cmp r (row_backrounds (length r)) <> Gt).
Proof.
  assert (L : forall a b, row_cmp a b = Lt <-> lex_lt a b).
  { split.
    - revert b. induction a as [|x a IH]; intros [|y b]; cbn [row_cmp]; try discriminate.
      + intros _. apply (lex_shorter [] y b).
      + destruct (Nat.compare_spec x y) as [->|Hl|Hg]; try discriminate; intros H.
        * apply IH in H. destruct H as [a z u|p z w u v Hz]; [apply (lex_shorter (y :: a))|apply (lex_smaller (y :: p)); auto].
        * apply (lex_smaller [] x y a b Hl).
    - intros [a' x u|p x y u v H].
      + induction a' as [|z a' IH]; cbn [app row_cmp]; auto. rewrite Nat.compare_refl. auto.
      + induction p as [|z p IH]; cbn [app row_cmp]; [|rewrite Nat.compare_refl; auto].
        apply Nat.compare_lt_iff in H. rewrite H. auto. }
  splits; auto.
  - intros a b. rewrite <- L, (row_cmp_antisym b a). destruct (row_cmp b a); cbn; split; congruence.
  - apply row_cmp_eq.
  - intros a b. rewrite row_cmp_eq. unfold row_eqb. symmetry. apply list_eqb_eq.
  - intros a b. revert a. induction b as [|y b IH]; intros [|x a] [|z c]; cbn [row_cmp]; try discriminate; auto.
    destruct (Nat.compare_spec x y) as [->|H1|H1], (Nat.compare_spec y z) as [->|H2|H2]; try discriminate; intros E1 E2.
    + eauto.
    + auto.
    + apply Nat.compare_lt_iff in H1. rewrite H1. auto.
    + assert (H : x < z) by lia. apply Nat.compare_lt_iff in H. rewrite H. auto.
  - intros r V. pose proof (valid_row_NoDup r V) as D. split.
    + unfold row_rounds, range. rewrite Nat.sub_0_r. apply rounds_least; auto. intros; lia.
    + unfold row_backrounds, range. rewrite Nat.sub_0_r. apply backrounds_greatest; auto.
      intros x Hx. apply (proj2 (proj2 V)); auto.
Qed.

(** C76: buffers are equal exactly when they have the same stage and hold the same rows, and blocks
    when they have the same stage, rows, annotations and left-over row.  Equal rows (owned or
    borrowed) and equal buffers write the same to the hasher, and different ones do not. *)
Theorem C76_equality_and_hashing :
  (forall v v' s s' rs rs', holds v s rs -> holds v' s' rs' -> (ssv_eqb v v' = true <-> s = s' /\ rs = rs')) /\
  (forall A (eqb : A -> A -> bool) b b' s s' ars ars' lo lo', (forall x y, eqb x y = true <-> x = y) ->
     block_holds b s ars lo -> block_holds b' s' ars' lo' ->
     (block_eqb eqb b b' = true <-> s = s' /\ ars = ars' /\ lo = lo')) /\
  (forall r r', row_hash_feed r = row_hash_feed r' <-> row_eqb r r' = true) /\
  (forall v v', ssv_hash_feed v = ssv_hash_feed v' <-> ssv_eqb v v' = true).
Proof.
  assert (S : forall v v' s s' rs rs', rep s rs v -> rep s' rs' v' -> (ssv_eqb v v' = true <-> s = s' /\ rs = rs')).
  { intros v v' s s' rs rs' (Hs & E & F & B) (Hs' & E' & F' & B'). unfold ssv_eqb. rewrite andb_true_iff, list_eqb_eq, Nat.eqb_eq, B, B', E, E'.
    split; [|intros [-> ->]; auto]. intros [C <-]. split; auto.
    clear - Hs F F' C. revert rs' F' C. induction rs as [|r rs IH]; intros [|r' rs'] F' C; auto; inversion F as [|? ? [_ L] Ft]; inversion F' as [|? ? [_ L'] Ft']; subst; cbn [concat] in C.
    - exfalso. apply (f_equal (@length nat)) in C. rewrite app_length in C. cbn in C. lia.
    - exfalso. apply (f_equal (@length nat)) in C. rewrite app_length in C. cbn in C. lia.
    - assert (X : r = r' /\ concat rs = concat rs').
      { apply app_len_inj; auto. }
      destruct X as [-> X]. f_equal. auto. }
  splits.
  - intros v v' s s' rs rs' H H'. apply S; apply holds_rep; auto.
  - intros A eqb b b' s s' ars ars' lo lo' Q H H'. apply holds_brep in H as [H Ha]. apply holds_brep in H' as [H' Ha']. unfold block_eqb.
    assert (AE : forall a b, annots_eqb eqb a b = true <-> a = b).
    { induction a as [|x a IH]; intros [|y c]; cbn [annots_eqb]; try (split; [discriminate|discriminate]); [tauto|].
      rewrite andb_true_iff, Q, IH. split; [intros [-> ->]; auto|intros X; injection X as -> ->; auto]. }
    rewrite andb_true_iff, AE, (S _ _ _ _ _ _ H H'), Ha, Ha'. split.
    + intros [[-> X] Y]. apply app_inj_tail in X as [X ->]. splits; auto.
      revert X Y. clear. revert ars'. induction ars as [|(r, a) l IH]; intros [|(r', a') l'] X Y; try discriminate X; auto.
      cbn [map fst snd] in *. injection X as -> X. injection Y as -> Y. f_equal. auto.
    + intros (-> & -> & ->). auto.
  - intros r r'. unfold row_hash_feed, row_eqb. rewrite list_eqb_eq. split; [intros X; injection X; auto|intros ->; auto].
  - intros v v'. unfold ssv_hash_feed, ssv_eqb. rewrite andb_true_iff, list_eqb_eq, Nat.eqb_eq. split.
    + intros X. injection X as L X. apply app_len_inj in X as [-> X]; auto. injection X as ->. auto.
    + intros [-> ->]. auto.
Qed.

Example C76_example :
  row_cmp [0; 2; 1] [1; 0; 2] = Lt /\ row_cmp [0; 1] [0; 1; 2] = Lt /\
  exists v w, ssv_build 2 [[0; 1]; [1; 0]] = Ret v /\ ssv_build 4 [[0; 1; 3; 2]] = Ret w /\ ssv_eqb v w = false /\ ssv_eqb v v = true.
Proof. splits; try reflexivity. do 2 eexists. splits; vm_compute; reflexivity. Qed.
