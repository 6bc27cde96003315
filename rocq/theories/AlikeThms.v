(** Property theorems C110: characters without a meaning do not matter. *)

(* Generated from tools/props/Alike.src: the proofs behind PropsAlike.v. *)
From Verif Require Import Base Spec ListFacts Bell BellFacts Stage Row RowFacts Utils SameStageVec Block PlaceNot SpecPn PnFacts Mask Music Class Method
  SpecAlike AlikeFacts PnThms.
Local Open Scope string_scope.
Local Open Scope list_scope.

Lemma pf_C110_rows :
  forall a c b, ~ is_bell_name_char c ->
    row_parse (a ++ c :: b) = row_parse (a ++ b) /\
    (forall s, row_parse_with_stage (a ++ c :: b) s = row_parse_with_stage (a ++ b) s).
Proof.
  intros a c b H. apply not_bell_char in H. unfold row_parse, row_parse_with_stage.
  rewrite !filter_map_app. cbn [filter_map]. rewrite H. auto.
Qed.

Lemma pf_C110_texts_of_rows :
  forall a c b, ~ is_bell_name_char c -> [c] <> [10%N] -> (b <> [] \/ exists a' d, a = a' ++ [d] /\ d <> 10%N) ->
    ssv_parse (a ++ c :: b) = ssv_parse (a ++ b) /\
    (forall A (default : A), block_parse default (a ++ c :: b) = block_parse default (a ++ b)).
Proof.
  intros a c b H N P. apply not_bell_char in H. assert (E : ssv_parse (a ++ c :: b) = ssv_parse (a ++ b)).
  { apply ssv_parse_rows. unfold lines. apply lines_insert; auto; [congruence|]. tauto. }
  split; auto. intros A default. unfold block_parse. rewrite E. reflexivity.
Qed.

Lemma pf_C110_masks :
  (forall a c b, ~ is_bell_name_char c -> ~ mask_wildcard c -> mask_parse (a ++ c :: b) = mask_parse (a ++ b)) /\
  (forall a c c' b, mask_wildcard c -> mask_wildcard c' -> mask_parse (a ++ c :: b) = mask_parse (a ++ c' :: b)).
Proof.
  split.
  - intros a c b H W. apply not_bell_char in H. unfold mask_parse. rewrite !filter_map_app. f_equal. cbn [filter_map]. unfold mask_char at 1.
    destruct (N.eqb_spec c 120) as [->|_]; [exfalso; apply W; left; reflexivity|].
    destruct (N.eqb_spec c 88) as [->|_]; [exfalso; apply W; right; left; reflexivity|].
    destruct (N.eqb_spec c 46) as [->|_]; [exfalso; apply W; right; right; reflexivity|]. cbn [orb]. rewrite H. reflexivity.
  - assert (X : forall c, mask_wildcard c -> mask_char c = Some None) by (intros c [E|[E|E]]; injection E as ->; reflexivity).
    intros a c c' b W W'. unfold mask_parse. rewrite !filter_map_app. f_equal. cbn [filter_map]. rewrite !X; auto.
Qed.

Lemma pf_C110_regexes :
  (forall a c b, ~ is_bell_name_char c -> ~ regex_wildcard c -> [c] <> s2l "*" -> regex_parse (a ++ c :: b) = regex_parse (a ++ b)) /\
  (forall a c c' b, regex_wildcard c -> regex_wildcard c' -> regex_parse (a ++ c :: b) = regex_parse (a ++ c' :: b)).
Proof.
  split.
  - intros a c b H W G. apply not_bell_char in H. unfold regex_parse. f_equal. rewrite !filter_map_app. f_equal. cbn [filter_map]. unfold regex_char at 1.
    destruct (N.eqb_spec c 120) as [->|_]; [exfalso; apply W; left; reflexivity|].
    destruct (N.eqb_spec c 46) as [->|_]; [exfalso; apply W; right; reflexivity|]. cbn [orb].
    destruct (N.eqb_spec c 42) as [->|_]; [exfalso; apply G; reflexivity|]. rewrite H. reflexivity.
  - assert (X : forall c, regex_wildcard c -> regex_char c = Some RAny) by (intros c [E|E]; injection E as ->; reflexivity).
    intros a c c' b W W'. unfold regex_parse. f_equal. rewrite !filter_map_app. f_equal. cbn [filter_map]. rewrite !X; auto.
Qed.

Lemma pf_C110_changes :
  (forall a c b s, ~ is_bell_name_char c -> ~ cross_text (a ++ c :: b) -> ~ cross_text (a ++ b) ->
     pn_parse (a ++ c :: b) s = pn_parse (a ++ b) s) /\
  (forall t t' s, cross_text t -> cross_text t' -> pn_parse t s = pn_parse t' s).
Proof.
  split.
  - intros a c b s H C C'. apply not_bell_char in H. rewrite !pn_parse_places by auto. rewrite !filter_map_app. cbn [filter_map]. rewrite H. reflexivity.
  - intros t t' s [->|[->| ->]] [->|[->| ->]]; reflexivity.
Qed.

Lemma pf_C110_place_notation :
  forall t t' s, alike t t' -> 0 < s ->
    exists r r', pn_block_parse t s = Ret r /\ pn_block_parse t' s = Ret r' /\ same_but_for_position r r'.
Proof.
  intros t t' s H P. destruct (pf_C43_parse_block t s P) as (r & E & _). destruct (pf_C43_parse_block t' s P) as (r' & E' & _).
  exists r, r'. splits; auto. apply zero_same. rewrite <- E, <- E', !mblock_ok. apply alike_mblock. auto.
Qed.

Lemma pf_C110_methods :
  forall hash_order name t t' s, alike t t' -> 0 < s ->
    forall m, from_place_not_string hash_order name s t = Ret (Ok m) <-> from_place_not_string hash_order name s t' = Ret (Ok m).
Proof.
  intros ho name t t' s H P m. destruct (pf_C110_place_notation t t' s H P) as (r & r' & E & E' & Sm).
  unfold from_place_not_string. rewrite E, E'. cbn [bind].
  destruct r as [l|[i|i j e|]], r' as [l'|[i'|i' j' e'|]]; cbn in Sm; try contradiction; try (split; intros X; discriminate X).
  subst l'. reflexivity.
Qed.
