(** Decoding of bytes accepts exactly UTF-8. *)
From Verif Require Import Base ListFacts Utf8 Cache SpecCache.
Local Open Scope N_scope.
Local Open Scope list_scope.
Ltac Zify.zify_post_hook ::= Z.to_euclidean_division_equations.

Lemma encode_char_utf8 c : c < 55296 \/ 57344 <= c < 1114112 -> utf8_char c (encode_char c).
Proof.
  intros H. unfold encode_char. destruct (N.ltb_spec c 128); [constructor; auto|].
  destruct (N.ltb_spec c 2048).
  { replace c with (c / 64 * 64 + c mod 64) at 1 by lia. constructor; lia. }
  destruct (N.ltb_spec c 65536).
  { replace c with (c / 4096 * 4096 + (c / 64) mod 64 * 64 + c mod 64) at 1 by lia. constructor; lia. }
  replace c with (c / 262144 * 262144 + (c / 4096) mod 64 * 4096 + (c / 64) mod 64 * 64 + c mod 64) at 1 by lia. constructor; lia.
Qed.

Lemma encode_utf8 t : rust_text t -> utf8 t (utf8_encode t).
Proof. intros H. induction H; [constructor|]. cbn [utf8_encode flat_map]. constructor; auto. apply encode_char_utf8; auto. Qed.

Lemma utf8_char_scalar c s : utf8_char c s -> c < 55296 \/ 57344 <= c < 1114112.
Proof. intros H. destruct H; lia. Qed.

Lemma utf8_text t b : utf8 t b -> rust_text t.
Proof. intros H. induction H; constructor; auto. eapply utf8_char_scalar; eauto. Qed.

Ltac cases := repeat match goal with |- context [N.ltb ?a ?b] => destruct (N.ltb_spec a b); try lia end.

Lemma utf8_char_encode c s : utf8_char c s -> s = encode_char c.
Proof.
  intros H. unfold encode_char. destruct H; cases; auto; repeat (f_equal; [lia|]); f_equal; lia.
Qed.

Lemma utf8_encode_unique t b : utf8 t b -> b = utf8_encode t.
Proof. intros H. induction H; auto. cbn [utf8_encode flat_map]. apply utf8_char_encode in H. subst. auto. Qed.

Lemma decode_utf8_gen n : forall bytes t, (length bytes <= n)%nat -> utf8_decode bytes = Some t -> utf8 t bytes.
Proof.
  induction n as [|n IH]; intros [|b0 t0] t L; cbn [length] in L; try lia; try (intros [= <-]; constructor).
  cbn [utf8_decode].
  assert (M : forall c u s, utf8_char c s -> (length u <= n)%nat -> option_map (cons c) (utf8_decode u) = Some t -> utf8 t (s ++ u)).
  { intros c u s C Lu E. destruct (utf8_decode u) as [t'|] eqn:D; [|discriminate]. injection E as <-. constructor; auto. }
  unfold between, is_cont, between.
  destruct (N.ltb_spec b0 128).
  { apply (M b0 t0 [b0]); [constructor; auto|lia]. }
  destruct ((194 <=? b0) && (b0 <=? 223)) eqn:B2.
  { apply andb_true_iff in B2 as [X Y]. apply N.leb_le in X, Y. destruct t0 as [|b1 t1]; [discriminate|].
    destruct ((128 <=? b1) && (b1 <=? 191)) eqn:C1; [|discriminate]. apply andb_true_iff in C1 as [X1 Y1]. apply N.leb_le in X1, Y1.
    apply (M _ t1 [b0; b1]); [|cbn in L; lia].
    replace [b0; b1] with [192 + (b0 - 192); 128 + (b1 - 128)] by (repeat (f_equal; [lia|]); f_equal; lia). constructor; lia. }
  destruct ((224 <=? b0) && (b0 <=? 239)) eqn:B3.
  { apply andb_true_iff in B3 as [X Y]. apply N.leb_le in X, Y. destruct t0 as [|b1 [|b2 t2]]; try discriminate.
    cbv iota. match goal with |- (if ?c then _ else _) = _ -> _ => destruct c eqn:C1; [|discriminate] end. rewrite !andb_true_iff, !N.leb_le in C1. destruct C1 as ((X1 & Y1) & X2 & Y2).
    assert (128 <= b1) by (destruct (b0 =? 224); lia).
    apply (M _ t2 [b0; b1; b2]); [|cbn in L; lia].
    replace [b0; b1; b2] with [224 + (b0 - 224); 128 + (b1 - 128); 128 + (b2 - 128)] by (repeat (f_equal; [lia|]); f_equal; lia).
    destruct (N.eqb_spec b0 224), (N.eqb_spec b0 237); constructor; lia. }
  destruct ((240 <=? b0) && (b0 <=? 244)) eqn:B4; [|discriminate].
  apply andb_true_iff in B4 as [X Y]. apply N.leb_le in X, Y. destruct t0 as [|b1 [|b2 [|b3 t3]]]; try discriminate.
  cbv iota. match goal with |- (if ?c then _ else _) = _ -> _ => destruct c eqn:C1; [|discriminate] end. rewrite !andb_true_iff, !N.leb_le in C1. destruct C1 as (((X1 & Y1) & X2 & Y2) & X3 & Y3).
  assert (128 <= b1) by (destruct (b0 =? 240); lia).
  apply (M _ t3 [b0; b1; b2; b3]); [|cbn in L; lia].
  replace [b0; b1; b2; b3] with [240 + (b0 - 240); 128 + (b1 - 128); 128 + (b2 - 128); 128 + (b3 - 128)] by (repeat (f_equal; [lia|]); f_equal; lia).
  destruct (N.eqb_spec b0 240), (N.eqb_spec b0 244); constructor; lia.
Qed.

Lemma decode_utf8 bytes t : utf8_decode bytes = Some t -> utf8 t bytes.
Proof. apply (decode_utf8_gen (length bytes)). auto. Qed.
