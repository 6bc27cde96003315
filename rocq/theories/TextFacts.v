(** Lemmas about the characters of the texts written by the API. *)
From Verif Require Import Base Spec SpecText ListFacts Bell Stage BellFacts Row RowFacts Utils SameStageVec Block PlaceNot Mask Music Class Method Format FormatFacts.
Local Open Scope list_scope.

Lemma one_line_b t : forallb (fun c => (32 <=? c) && (c <=? 126))%N t = true -> one_line t.
Proof. rewrite forallb_forall. intros H. apply Forall_forall. intros c Hc. apply H in Hc. apply andb_true_iff in Hc as [A B]. apply N.leb_le in A, B. lia. Qed.
Lemma no_spaces_b t : forallb (fun c => (33 <=? c) && (c <=? 126))%N t = true -> no_spaces t.
Proof. rewrite forallb_forall. intros H. apply Forall_forall. intros c Hc. apply H in Hc. apply andb_true_iff in Hc as [A B]. apply N.leb_le in A, B. lia. Qed.

Lemma no_spaces_line t : no_spaces t -> one_line t.
Proof. apply Forall_impl. intros c H. lia. Qed.
Lemma one_line_app a b : one_line a -> one_line b -> one_line (a ++ b).
Proof. intros; apply Forall_app; auto. Qed.
Lemma no_spaces_app a b : no_spaces a -> no_spaces b -> no_spaces (a ++ b).
Proof. intros; apply Forall_app; auto. Qed.

Lemma dec_text n : no_spaces (dec n).
Proof.
  pose proof (dec_digits n) as H. rewrite forallb_forall in H. apply Forall_forall. intros c Hc. apply H in Hc. unfold digitb in Hc.
  apply andb_true_iff in Hc as [A B]. apply N.leb_le in A, B. lia.
Qed.

Lemma bell_text b : no_spaces (bell_name b).
Proof.
  unfold bell_name. destruct (bell_to_char b) as [c|] eqn:E.
  - apply nth_error_In in E. constructor; [|constructor]. revert c E. apply Forall_forall, no_spaces_b. vm_compute. reflexivity.
  - repeat apply no_spaces_app; auto using dec_text; apply no_spaces_b; reflexivity.
Qed.

Lemma concat_text {A} (f : A -> list N) l : (forall x, In x l -> no_spaces (f x)) -> no_spaces (concat (map f l)).
Proof. induction l as [|x l IH]; intros H; [constructor|]. cbn [map concat]. apply no_spaces_app; [apply H; left; auto|apply IH; intros; apply H; right; auto]. Qed.

Lemma row_text r : no_spaces (row_display r).
Proof. apply concat_text. intros; apply bell_text. Qed.

Lemma stage_name_text s n : stage_name s = Some n -> no_spaces n.
Proof.
  intros E. do 23 (destruct s as [|s]; [try discriminate E; injection E as <-; apply no_spaces_b; vm_compute; reflexivity|]). discriminate E.
Qed.

Lemma stage_text s : one_line (stage_display s).
Proof.
  unfold stage_display. destruct (stage_name s) as [n|] eqn:E.
  - apply no_spaces_line. eapply stage_name_text; eauto.
  - apply one_line_app; [apply no_spaces_line, dec_text|apply one_line_b; reflexivity].
Qed.

Lemma stage_debug_text s t : stage_debug s = Ret t -> no_spaces t.
Proof.
  intros E. do 17 (destruct s as [|s]; [try discriminate E; injection E as <-; apply no_spaces_b; vm_compute; reflexivity|]).
  cbn [stage_debug] in E. injection E as <-. repeat (apply Forall_cons; [lia|]). apply Forall_app. split; [apply dec_text|repeat constructor; lia].
Qed.

Ltac txt := repeat apply one_line_app; auto using no_spaces_line, dec_text, bell_text, row_text, stage_text; try (apply one_line_b; vm_compute; reflexivity).

Lemma class_text c b : one_line (fmt_name c b).
Proof. destruct c as [[] [] [] []], b; apply one_line_b; vm_compute; reflexivity. Qed.

Lemma debug_fields_text l : forall first, Forall one_line l -> one_line (debug_fields first l).
Proof.
  induction l as [|x l IH]; intros first F; [destruct first; apply one_line_b; vm_compute; reflexivity|].
  inversion F; subst. cbn [debug_fields]. repeat apply one_line_app; auto. destruct first; apply one_line_b; vm_compute; reflexivity.
Qed.

Lemma byte_len_ascii t : one_line t -> byte_len t = length t.
Proof.
  induction 1 as [|c t H _ IH]; auto. unfold byte_len in *. cbn [fold_right length]. rewrite IH.
  unfold utf8_len. destruct (N.ltb_spec c 128); [reflexivity|lia].
Qed.
