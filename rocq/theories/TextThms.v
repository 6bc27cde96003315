(** Property theorems C107: the characters and the widths of the texts written by the API. *)

(* Generated from tools/props/Text.src: the proofs behind PropsText.v. *)
From Verif Require Import Base Spec SpecText ListFacts Bell Stage BellFacts Row RowFacts MulFacts Utils SameStageVec SpecVec SsvFacts Block SpecBlock BlockFacts
  PlaceNot Mask Music Class Method Format FormatFacts TextFacts.
Local Open Scope string_scope.
Local Open Scope list_scope.

Lemma pf_C107_displayed_texts :
  (forall b, no_spaces (bell_name b)) /\ (forall r, no_spaces (row_display r)) /\ (forall m, no_spaces (mask_display m)) /\
  (forall es, no_spaces (regex_display es)) /\ (forall pn, no_spaces (pn_display pn)) /\
  (forall s, one_line (stage_display s)) /\ (forall c, one_line (full_class_display c)) /\ (forall c, one_line (class_name c)).
Proof.
  splits; intros; auto using bell_text, row_text, stage_text.
  - apply concat_text. intros [b|] _; [apply bell_text|apply no_spaces_b; reflexivity].
  - apply concat_text. intros [b| |] _; [apply bell_text|apply no_spaces_b; reflexivity..].
  - unfold pn_display. destruct (pn_is_cross pn); [apply no_spaces_b; reflexivity|]. apply concat_text. intros; apply bell_text.
  - apply class_text.
  - destruct c; apply one_line_b; vm_compute; reflexivity.
Qed.

Lemma pf_C107_messages :
  (forall e, one_line (invalid_row_error_display e)) /\ (forall e, one_line (mul_into_error_display e)) /\
  (forall e, one_line (incompatible_stages_display e)) /\ (forall e, one_line (ssv_parse_error_display e)) /\
  (forall e, one_line (block_parse_error_display e)) /\ (forall e t, pn_error_display e = Ret t -> one_line t) /\
  (forall e t, pn_block_error_display e = Ret t -> one_line t) /\ (forall e, one_line (invalid_pn_block_display e)).
Proof.
  assert (I : forall e, one_line (invalid_row_error_display e)) by (intros []; unfold invalid_row_error_display; txt).
  assert (Sp : forall e, one_line (ssv_parse_error_display e)) by (intros []; unfold ssv_parse_error_display; txt).
  assert (X : forall a t : list N, Ret a = Ret t -> one_line a -> one_line t) by congruence.
  assert (P : forall e t, pn_error_display e = Ret t -> one_line t).
  { intros e t E. destruct e as [b s|p q|p|s|]; cbn [pn_error_display bind] in E; try (apply (X _ _ E); txt).
    destruct (usub q p) as [d| | |]; try discriminate. cbn [bind] in E. destruct (usub d 1) as [gap| | |]; try discriminate. cbn [bind] in E.
    apply (X _ _ E); txt. }
  splits; auto.
  - intros [[l r]|[l r]]; unfold mul_into_error_display; txt.
  - intros [l r]; unfold incompatible_stages_display; txt.
  - intros []; unfold block_parse_error_display; txt.
  - intros [i|a b e|] t E; cbn [pn_block_error_display bind] in E.
    + apply (X _ _ E); txt.
    + destruct (pn_error_display e) as [m| | |] eqn:Em; try discriminate. cbn [bind] in E. apply (X _ _ E); txt. eapply P; eauto.
    + apply (X _ _ E); txt.
  - intros [i e|]; unfold invalid_pn_block_display; txt.
Qed.

Lemma pf_C107_debug_texts_and_titles :
  (forall b, no_spaces (bell_debug b)) /\ (forall r, no_spaces (row_debug r) /\ no_spaces (row_buf_debug r)) /\
  (forall pn, no_spaces (pn_debug pn)) /\ (forall m, no_spaces (mask_debug m)) /\ (forall es, no_spaces (regex_debug es)) /\
  (forall s t, stage_debug s = Ret t -> no_spaces t) /\ (forall v t, ssv_debug v = Ret t -> one_line t) /\
  (forall A (debug_annot : A -> list N) b t, (forall a, one_line (debug_annot a)) -> block_debug debug_annot b = Ret t -> one_line t) /\
  (forall name c s t, generate_title name c s = Ret t -> exists rest, t = name ++ rest /\ one_line rest).
Proof.
  assert (X : forall a t : list N, Ret a = Ret t -> one_line a -> one_line t) by congruence.
  destruct pf_C107_displayed_texts as (_ & _ & Ms & Rs & Ps & _).
  splits; intros; try split; try (repeat apply no_spaces_app; auto using bell_text, row_text; apply no_spaces_b; reflexivity).
  - eapply stage_debug_text; eauto.
  - unfold ssv_debug in H. destruct (ssv_rows v) as [rows| | |]; try discriminate. cbn [bind] in H. apply (X _ _ H).
    unfold debug_tuple. apply one_line_app; [apply one_line_b; reflexivity|]. apply debug_fields_text. apply Forall_map, Forall_forall. intros; apply no_spaces_line, row_text.
  - unfold block_debug in H0. destruct (block_annot_rows b) as [ars| | |]; try discriminate. cbn [bind] in H0.
    destruct (block_leftover_row b) as [lo| | |]; try discriminate. cbn [bind] in H0. apply (X _ _ H0).
    unfold debug_tuple. apply one_line_app; [apply one_line_b; reflexivity|]. apply debug_fields_text. apply Forall_app. split.
    + apply Forall_map, Forall_forall. intros [r a] _. cbv beta iota. txt.
    + constructor; [apply no_spaces_line, row_text|constructor].
  - unfold generate_title in H. destruct (stage_name s) as [n|] eqn:En; cbn [unwrap bind] in H; [|discriminate].
    pose proof (no_spaces_line _ (stage_name_text s n En)) as Hn. pose proof (class_text c true) as Hc.
    assert (Sp : one_line (s2l " ")) by (apply one_line_b; reflexivity).
    assert (Y : forall a t : list N, Ret a = Ret t -> t = a) by congruence. apply Y in H. clear X Y. set (sp := s2l " ") in *. clearbody sp. subst t.
    destruct (Nat.ltb _ _); destruct name as [|x name]; rewrite <- ?app_assoc; eexists; (split; [reflexivity || (rewrite app_nil_l; reflexivity)|]);
      repeat apply one_line_app; auto.
Qed.

Lemma pf_C107_rows_line_up :
  (forall r r', valid_row r -> valid_row r' -> length r = length r' -> length (row_display r) = length (row_display r')) /\
  (forall r, valid_row r -> (length (row_display r) = length r <-> length r <= 33)) /\
  (forall r, byte_len (row_display r) = length (row_display r)) /\
  (forall m, (forall b, In (Some b) m -> b < 33) -> length (mask_display m) = length m).
Proof.
  assert (Sm : forall b, b < 33 -> length (bell_name b) = 1).
  { intros b Hb. unfold bell_name, bell_to_char. destruct (nth_error BELL_NAMES b) as [c|] eqn:E; auto.
    apply nth_error_None in E. cbn in E. lia. }
  assert (Bg : forall b, 33 <= b -> 2 < length (bell_name b)).
  { intros b Hb. rewrite bell_name_large by auto. rewrite !app_length. destruct (dec_decimal (b + 1)) as [D _].
    destruct (dec (b + 1)); [congruence|cbn [length]; lia]. }
  splits.
  - intros r r' V V' L. unfold row_display.
    assert (P : Permutation r r').
    { apply valid_row_perm in V as [_ P]. apply valid_row_perm in V' as [_ P']. rewrite L in P. etransitivity; [exact P|apply Permutation_sym; auto]. }
    clear V V' L. induction P; cbn [map concat]; rewrite ?app_length; lia.
  - intros r V. split.
    + intros E. destruct (Nat.le_gt_cases (length r) 33) as [|G]; auto. exfalso.
      assert (I : In 33 r) by (apply V; auto).
      assert (Ge : forall l : row, length l <= length (row_display l) /\ (In 33 l -> length l < length (row_display l))).
      { unfold row_display. induction l as [|b l [IH1 IH2]]; [cbn; split; [auto|intros []]|]. cbn [map concat length]. rewrite app_length.
        assert (0 < length (bell_name b)) by (destruct (Nat.lt_ge_cases b 33) as [H|H]; [rewrite Sm by auto; auto|specialize (Bg b H); lia]).
        split; [lia|]. intros [->|X]; [specialize (Bg 33 (Nat.le_refl _)); lia|]. apply IH2 in X. lia. }
      destruct (Ge r) as [_ K]. specialize (K I). lia.
    + intros L. assert (F : forall b, In b r -> b < 33) by (intros b Hb; apply V in Hb; lia). clear V L. unfold row_display.
      induction r as [|b r IH]; auto. cbn [map concat length]. rewrite app_length, Sm by (apply F; left; auto).
      rewrite IH; auto. intros; apply F; right; auto.
  - intros r. apply byte_len_ascii, no_spaces_line, row_text.
  - intros m H. unfold mask_display. induction m as [|[b|] m IH]; auto; cbn [map concat length]; rewrite app_length, IH by (intros; apply H; right; auto).
    + rewrite Sm by (apply H; left; auto). reflexivity.
    + reflexivity.
Qed.
