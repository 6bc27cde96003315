(** Property theorems C127: one text read as a mask and as a regex. *)

(* Generated from tools/props/MaskText.src: the proofs behind PropsMaskText.v. *)
From Verif Require Import Base Bell Stage Row Music Mask Spec SpecMask ListFacts BellFacts RowFacts MaskFacts MusicFacts MulFacts SsvFacts.
From Verif Require Import MaskThms MusicThms.
Local Open Scope list_scope.

Lemma pf_C127_same_text :
  forall t, ~ In 42%N t ->
    regex_parse t = mask_to_regex (mask_parse (filter (fun c => negb (c =? 88)%N) t)) /\
    (~ In 88%N t -> regex_parse t = mask_to_regex (mask_parse t)).
Proof.
  assert (K : forall t, ~ In 42%N t ->
    regex_parse t = mask_to_regex (mask_parse (filter (fun c => negb (c =? 88)%N) t))).
  { intros t H. unfold regex_parse, mask_to_regex. f_equal. unfold mask_parse. induction t as [|c t IH]; auto.
    cbn [filter]. assert (Hc : c <> 42%N) by (intros ->; apply H; left; auto).
    assert (Ht : ~ In 42%N t) by (intros I; apply H; right; auto). specialize (IH Ht).
    cbn [filter_map]. unfold regex_char at 1. rewrite (proj2 (N.eqb_neq _ _) Hc).
    destruct (N.eqb_spec c 88) as [->|N88]; cbn [negb].
    - cbn. exact IH.
    - cbn [filter_map]. unfold mask_char at 1. rewrite (proj2 (N.eqb_neq _ _) N88), orb_false_r.
      destruct ((c =? 120)%N || (c =? 46)%N) eqn:E; cbn [map]; [f_equal; exact IH|].
      destruct (bell_from_name c) as [b|]; cbn [option_map map]; [f_equal|]; exact IH. }
  intros t H. split; [apply K; auto|]. intros X. rewrite K by auto. f_equal. f_equal. clear H. induction t as [|c t IH]; auto.
  cbn [filter]. destruct (N.eqb_spec c 88) as [->|]; [contradiction X; left; auto|]. cbn [negb]. f_equal. apply IH. intros I. apply X. right; auto.
Qed.

Lemma pf_C127_same_rows :
  forall t r, ~ In 42%N t -> ~ In 88%N t -> valid_row r -> mask_parse t <> [] ->
    exists es v, regex_parse t = Ret es /\ regex_matches es r = Ret v /\ mask_matches (mask_parse t) r = Ret v.
Proof.
  intros t r H X V N. destruct (pf_C51_mask_to_regex (mask_parse t) r V) as (es & v & E1 & E2 & E3).
  destruct (pf_C46_matches (mask_parse t) r N V) as (v' & F1 & F2). exists es, v. splits; auto.
  - rewrite (proj2 (pf_C127_same_text t H)); auto.
  - rewrite F1. f_equal. apply Bool.eq_iff_eq_true. rewrite E3, F2. tauto.
Qed.

Lemma pf_C127_displayed :
  forall m, exists es, mask_to_regex m = Ret es /\ regex_display es = mask_display m /\ length es = length m /\
    ((forall p b, specifies m p b -> b < 33) -> regex_parse (mask_display m) = Ret es).
Proof.
  intros m. set (f := fun b : option nat => match b with None => RAny | Some b => RBell b end).
  assert (G : normal_form (map f m)).
  { intros i e H _. rewrite nth_error_map in H. destruct (nth_error m i) as [[b|]|]; discriminate. }
  exists (map f m).
  assert (E : mask_to_regex m = Ret (map f m)) by (apply (proj1 (pf_C52_idempotent (map f m))); auto).
  splits; auto.
  - unfold regex_display, mask_display. rewrite map_map. f_equal. apply map_ext. intros [b|]; reflexivity.
  - apply map_length.
  - intros B. assert (C : forall c, In c (mask_display m) -> c <> 42%N /\ c <> 88%N).
    { unfold mask_display. intros c I. apply in_concat in I as (w & W1 & W2). apply in_map_iff in W1 as (o & <- & O).
      destruct o as [b|]; [|cbn in W2; destruct W2 as [<-|[]]; split; discriminate].
      apply In_nth_error in O as (p & O). specialize (B p b O).
      assert (Fa : Forall (fun b => Forall (fun c => c <> 42%N /\ c <> 88%N) (bell_name b)) (seq 0 33))
        by (vm_compute; repeat (constructor; [repeat constructor; discriminate|]); constructor).
      rewrite Forall_forall in Fa. assert (Ib : In b (seq 0 33)) by (apply in_seq; lia). specialize (Fa b Ib). rewrite Forall_forall in Fa. auto. }
    rewrite (proj2 (pf_C127_same_text (mask_display m) ltac:(intros I; apply (proj1 (C _ I)); auto))).
    + rewrite pf_C69_parse_of_display; auto.
    + intros I. apply (proj2 (C _ I)); auto.
Qed.

Lemma pf_C127_texts_of_rows :
  forall t r, row_parse t = Ok r -> ~ In 120%N t -> ~ In 88%N t -> ~ In 46%N t -> ~ In 42%N t ->
    mask_parse t = mask_full_row r /\
    exists es, regex_parse t = Ret es /\ forall r', valid_row r' -> exists v, regex_matches es r' = Ret v /\ (v = true <-> r' = r).
Proof.
  intros t r E H1 H2 H3 H4.
  assert (F : filter_map bell_from_name t = r) by (apply from_vec_ok in E as [_ E]; auto).
  assert (M : mask_parse t = mask_full_row r).
  { rewrite <- F. clear E F H4. unfold mask_parse, mask_full_row. induction t as [|c t IH]; auto.
    cbn [filter_map]. unfold mask_char at 1.
    assert (c <> 120 /\ c <> 88 /\ c <> 46)%N as (C1 & C2 & C3) by (splits; intros ->; [apply H1|apply H2|apply H3]; left; auto).
    rewrite (proj2 (N.eqb_neq _ _) C1), (proj2 (N.eqb_neq _ _) C2), (proj2 (N.eqb_neq _ _) C3). cbn [orb].
    specialize (IH ltac:(intros I; apply H1; right; auto) ltac:(intros I; apply H2; right; auto) ltac:(intros I; apply H3; right; auto)).
    destruct (bell_from_name c) as [b|]; cbn [option_map map]; [f_equal|]; exact IH. }
  split; auto. destruct (pf_C127_displayed (mask_full_row r)) as (es & E1 & _). exists es. split.
  - rewrite (proj2 (pf_C127_same_text t H4)), M; auto.
  - intros r' V. destruct (pf_C51_mask_to_regex (mask_full_row r) r' V) as (es' & v & X1 & X2 & X3). assert (es' = es) by congruence. subst es'.
    exists v. split; auto. rewrite X3. unfold fits, specifies, mask_full_row. rewrite map_length. split.
    + intros [L K]. apply nth_error_ext. intros i. destruct (nth_error r i) as [b|] eqn:B.
      * apply K. rewrite nth_error_map, B. reflexivity.
      * apply nth_error_None. apply nth_error_None in B. lia.
    + intros ->. split; auto. intros p b. rewrite nth_error_map. destruct (nth_error r p); cbn [option_map]; congruence.
Qed.
